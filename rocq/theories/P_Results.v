(** * Properties C33, C34, C35 and C52: results and default callbacks *)

From Coq Require Import List Arith Lia ZArith Bool Sorted.
From Verif Require Import Broadphase Results.
Import ListNotations.

(** ** C33: cost sources *)

(** After any sequence of offers with limit [k]: at most [k] sources are held,
    all of them offered, ordered from the most expensive down, no two
    equivalent; and an offered source without an equivalent among them found all
    [k] places taken by sources that come before it, which cost at least as
    much. *)
Theorem cost_sources_top : forall k cs, let s := add_costs k cs [] in
  length s <= k /\ (forall r, In r s -> In r cs) /\ StronglySorted (fun a b => cost_lt a b = true) s /\
  forall c, In c cs ->
    (exists r, In r s /\ c_total r = c_total c /\ c_density r = c_density c /\ c_min r = c_min c) \/
    (length s = k /\ forall r, In r s -> cost_lt r c = true /\ (c_total c <= c_total r)%Z).
Proof.
  intros k cs s. destruct (kept_run k cs) as (H1 & H2 & H3 & H4). fold s in H1, H2, H3, H4.
  split; [exact H2|]. split; [exact H3|]. split; [exact H1|]. intros c Hc.
  destruct (H4 c Hc) as [(r & Hr & [Ha Hb])|[Hf Ha]].
  - left. exists r. split; [exact Hr|].
    assert (Na : ~ lexi r c) by (rewrite <- cost_lt_lexi; congruence).
    assert (Nb : ~ lexi c r) by (rewrite <- cost_lt_lexi; congruence).
    destruct r as [[[x0 y0] z0] ? d0 t0], c as [[[x1 y1] z1] ? d1 t1]. unfold lexi in *. cbn in *.
    assert (t0 = t1 /\ d0 = d1 /\ x0 = x1 /\ y0 = y1 /\ z0 = z1) as (-> & -> & -> & -> & ->) by lia. auto.
  - right. split; [exact Hf|]. intros r Hr. specialize (Ha r Hr). split; [exact Ha|].
    apply cost_lt_lexi in Ha. unfold lexi in Ha. destruct (c_min r) as [[? ?] ?], (c_min c) as [[? ?] ?]. lia.
Qed.
Print Assumptions cost_sources_top.

Example cost_sources_case :
  let c d := mk_cost (0, 0, 0)%Z (1, 1, 1)%Z d in
  map c_total (add_costs 2 [c 3%Z; c 1%Z; c 7%Z; c 5%Z; c 7%Z] []) = [7; 5]%Z.
Proof. vm_compute. reflexivity. Qed.

(** The upper corner is not compared: of two different regions with the same
    lower corner, density and volume only the first offered is kept, although
    there is room. *)
Theorem cost_sources_distinct_refuted :
  let a := mk_cost (0, 0, 0)%Z (2, 1, 1)%Z 1 in
  let b := mk_cost (0, 0, 0)%Z (1, 2, 1)%Z 1 in
  a <> b /\ forall k, 1 <= k -> add_costs k [a; b] [] = [a].
Proof.
  split; [discriminate|]. intros k Hk. destruct k as [|k]; [lia|].
  unfold add_costs, add_cost. cbn [fold_left set_insert firstn]. rewrite firstn_nil.
  vm_compute. destruct k; reflexivity.
Qed.
Print Assumptions cost_sources_distinct_refuted.

(** ** C34: distance results *)

(** After any sequence of offers the result is unchanged if no offer is below it,
    and otherwise holds the first of the least offers: distance, objects and
    primitives, and its points if it came with points. *)
Theorem distance_result_min : forall O P (fs : list (offer O P)) r,
  (d_updates O P fs r = r /\ forall f, In f fs -> (d_min O P r <= f_dist O P f)%Z) \/
  (exists l f l', fs = l ++ f :: l' /\ (f_dist O P f < d_min O P r)%Z /\
     (forall g, In g l -> (f_dist O P f < f_dist O P g)%Z) /\ (forall g, In g l' -> (f_dist O P f <= f_dist O P g)%Z) /\
     let r' := d_updates O P fs r in
     d_min O P r' = f_dist O P f /\ d_o1 O P r' = Some (f_o1 O P f) /\ d_o2 O P r' = Some (f_o2 O P f) /\
     d_b1 O P r' = f_b1 O P f /\ d_b2 O P r' = f_b2 O P f /\ (f_near O P f <> None -> d_near O P r' = f_near O P f)).
Proof.
  intros O P fs r. destruct (d_updates_spec O P fs r) as [H|(l & f & l' & E & Hh & H1 & H2 & H3)]; [auto|right].
  exists l, f, l'. repeat (split; [assumption|]). exact Hh.
Qed.
Print Assumptions distance_result_min.

(** Merging in another result keeps whichever is smaller, with its data. *)
Theorem distance_result_merge : forall O P o r,
  (d_min O P (d_merge O P o r) = Z.min (d_min O P o) (d_min O P r))%Z /\
  (d_merge O P o r = o \/ d_merge O P o r = r).
Proof.
  intros O P [mo a b c d e] r. unfold d_merge. cbn. destruct (Z.ltb_spec mo (d_min O P r)); cbn; split; auto; lia.
Qed.
Print Assumptions distance_result_merge.

Example distance_result_case :
  d_updates Z Z [Offer _ _ 9 1 2 0 0 (Some (10, 20)); Offer _ _ 4 3 4 5 6 (Some (30, 40)); Offer _ _ 4 7 8 0 0 (Some (1, 1))]%Z
      (DRes _ _ 1000 None None (-1) (-1) None)%Z =
    DRes _ _ 4%Z (Some 3%Z) (Some 4%Z) 5%Z 6%Z (Some (30%Z, 40%Z)).
Proof. reflexivity. Qed.

(** The variant of update() without points leaves the old ones: the points
    reported then belong to a different pair than the distance.  clear() does not
    reset them either. *)
Theorem distance_result_points_refuted : forall O P (a b c d : O) (p q : P),
  let r := d_updates O P [Offer O P 9 a b 0 0 (Some (p, q)); Offer O P 4 c d 0 0 None]%Z (DRes O P 1000 None None (-1) (-1) None)%Z in
  d_min O P r = 4%Z /\ d_o1 O P r = Some c /\ d_near O P r = Some (p, q) /\
  d_near O P (d_clear O P 1000 (-1) r)%Z = Some (p, q).
Proof. intros. repeat split. Qed.
Print Assumptions distance_result_points_refuted.

(** ** C35: default callbacks *)

(** The contacts after a list of pairs are the first [max] of the contacts of the
    pairs; the callback answers true exactly when the request is satisfied. *)
Theorem default_collision_run : forall C max cost (gen : obj -> obj -> list C) ps q,
  let r := run (default_collision C max cost gen) (CData C [] false q) ps in
  contacts C (fst r) = firstn max (flat_map (fun p => gen (fst p) (snd p)) ps) /\
  done C (fst r) = snd r /\
  (ps <> [] -> (snd r = true <->
    cost = false /\ contacts C (fst r) <> [] /\ max <= length (contacts C (fst r)))).
Proof.
  intros C max cost gen ps q.
  assert (Hg : forall ps cs0 cs q, cs = firstn max cs0 ->
    (negb cost && negb (length cs =? 0) && (max <=? length cs) = false) ->
    let r := run (default_collision C max cost gen) (CData C cs false q) ps in
    contacts C (fst r) = firstn max (cs0 ++ flat_map (fun p => gen (fst p) (snd p)) ps) /\
    done C (fst r) = snd r /\
    snd r = (negb cost && negb (length (contacts C (fst r)) =? 0) && (max <=? length (contacts C (fst r))))).
  { clear ps q. induction ps as [|[a b] ps IH]; intros cs0 cs q Hcs Hns; cbn [run flat_map fst snd].
    { rewrite app_nil_r. split; [exact Hcs|]. split; [reflexivity|]. symmetry. exact Hns. }
    set (cs' := cs ++ firstn (max - length cs) (gen a b)).
    replace (default_collision C max cost gen (CData C cs false q) a b)
      with (let dn := negb cost && negb (length cs' =? 0) && (max <=? length cs') in (CData C cs' dn (q + 1), dn)) by reflexivity.
    cbn zeta.
    assert (Hcs' : cs' = firstn max (cs0 ++ gen a b)).
    { unfold cs'. rewrite Hcs. rewrite firstn_length. rewrite firstn_app. f_equal.
      destruct (Nat.le_ge_cases max (length cs0)) as [H|H].
      - rewrite Nat.min_l by exact H. replace (max - length cs0) with 0 by lia. rewrite Nat.sub_diag. reflexivity.
      - rewrite Nat.min_r by exact H. reflexivity. }
    destruct (negb cost && negb (length cs' =? 0) && (max <=? length cs')) eqn:Ed.
    - cbn [fst snd contacts done]. split.
      + rewrite Hcs'. apply andb_true_iff in Ed. destruct Ed as [_ Ed]. apply Nat.leb_le in Ed.
        rewrite Hcs', firstn_length in Ed. rewrite app_assoc, (firstn_app max (cs0 ++ gen a b)).
        replace (max - length (cs0 ++ gen a b)) with 0 by lia. cbn [firstn]. rewrite app_nil_r. reflexivity.
      + split; [reflexivity|]. symmetry. exact Ed.
    - destruct (IH (cs0 ++ gen a b) cs' (q + 1) Hcs' Ed) as (I1 & I2 & I3).
      rewrite I1, <- app_assoc. split; [reflexivity|]. split; [exact I2|]. rewrite I3 at 1. rewrite I1, <- app_assoc. reflexivity. }
  destruct (Hg ps [] [] q) as (H1 & H2 & H3).
  { rewrite firstn_nil. reflexivity. }
  { cbn. rewrite andb_false_r. reflexivity. }
  split; [exact H1|]. split; [exact H2|]. intros _. rewrite H3, !andb_true_iff, !negb_true_iff, Nat.eqb_neq, Nat.leb_le.
  destruct (contacts C (fst (run (default_collision C max cost gen) (CData C [] false q) ps))) as [|x l].
  - split; [intros [[_ H] _]; exfalso; apply H; reflexivity|intros (_ & H & _); congruence].
  - split; [intros [[A _] B]; split; [exact A|split; [discriminate|exact B]]|].
    intros (A & _ & B). split; [split; [exact A|discriminate]|exact B].
Qed.
Print Assumptions default_collision_run.

(** Once it has answered true it never calls collide() again. *)
Theorem default_collision_done : forall C max cost (gen : obj -> obj -> list C) d a b d',
  default_collision C max cost gen d a b = (d', true) ->
  forall ps, ps <> [] -> run (default_collision C max cost gen) d' ps = (d', true).
Proof.
  intros C max cost gen d a b d' E ps Hps.
  assert (Hd : done C d' = true).
  { unfold default_collision in E. destruct (done C d) eqn:Ed; [congruence|]. cbn zeta in E. injection E as E1 E2. rewrite <- E1. exact E2. }
  destruct ps as [|[x y] ps]; [congruence|]. cbn [run]. unfold default_collision. rewrite Hd. reflexivity.
Qed.
Print Assumptions default_collision_done.

(** Run by any manager whose query calls back each pair of [R] at least once: a
    collision is reported iff some pair has a contact ([1 <= max]). *)
Theorem default_collision_manager : forall C max cost (gen : obj -> obj -> list C) (Q : query) (R : obj -> obj -> Prop),
  1 <= max -> replays Q -> pairs_once (calls Q) R -> (forall a b, gen a b <> [] -> gen b a <> []) ->
  (contacts C (fst (Q _ (default_collision C max cost gen) (CData C [] false 0))) <> [] <->
   exists a b, R a b /\ gen a b <> []).
Proof.
  intros C max cost gen Q R Hm HR (_ & Hs & Hc) Hsym. rewrite HR.
  destruct (default_collision_run C max cost gen (calls Q) 0) as (H & _). rewrite H.
  destruct max as [|max]; [lia|]. split.
  - intros Hne. destruct (flat_map (fun p => gen (fst p) (snd p)) (calls Q)) as [|c cs] eqn:E; [exfalso; apply Hne; reflexivity|].
    assert (Hi : In c (flat_map (fun p => gen (fst p) (snd p)) (calls Q))) by (rewrite E; left; reflexivity).
    apply in_flat_map in Hi. destruct Hi as ([a b] & Hab & Hi). cbn in Hi. exists a, b.
    split; [apply Hs; exact Hab|]. intros E'. rewrite E' in Hi. contradiction.
  - intros (a & b & Hab & Hg) Hz.
    assert (Hall : flat_map (fun p => gen (fst p) (snd p)) (calls Q) <> []).
    { destruct (Hc a b Hab) as [Hi|Hi].
      - intros E. apply Hg. destruct (gen a b) as [|c cs] eqn:Eg; [reflexivity|].
        assert (In c (flat_map (fun p => gen (fst p) (snd p)) (calls Q))).
        { apply in_flat_map. exists (a, b). split; [exact Hi|]. cbn. rewrite Eg. left. reflexivity. }
        rewrite E in *. contradiction.
      - intros E. apply Hsym in Hg. apply Hg. destruct (gen b a) as [|c cs] eqn:Eg; [reflexivity|].
        assert (In c (flat_map (fun p => gen (fst p) (snd p)) (calls Q))).
        { apply in_flat_map. exists (b, a). split; [exact Hi|]. cbn. rewrite Eg. left. reflexivity. }
        rewrite E in *. contradiction. }
    destruct (flat_map (fun p => gen (fst p) (snd p)) (calls Q)); [congruence|discriminate].
Qed.
Print Assumptions default_collision_manager.

Example default_collision_case :
  let gen a b := if a =? b then [] else repeat (a, b) 2 in
  run (default_collision _ 3 false gen) (CData _ [] false 0) [(1, 1); (1, 2); (2, 3); (3, 4)] =
    (CData _ [(1, 2); (1, 2); (2, 3)] true 3, true).
Proof. vm_compute. reflexivity. Qed.

(** DefaultContinuousCollisionFunction never stops a query by itself. *)
Theorem default_continuous_all : forall R (col : obj -> obj -> R -> R) ps r,
  run (default_continuous R col) (CCData R r false) ps =
    (CCData R (fold_left (fun r p => col (fst p) (snd p) r) ps r) false, false) /\
  (ps <> [] -> run (default_continuous R col) (CCData R r true) ps = (CCData R r true, true)).
Proof.
  intros R col ps. induction ps as [|[a b] ps IH]; intros r; [split; [reflexivity|congruence]|].
  cbn [run fold_left]. unfold default_continuous at 1 2. cbn [cc_done cc_result].
  split; [apply IH|reflexivity].
Qed.
Print Assumptions default_continuous_all.

(** DefaultDistanceFunction, called on the pairs of a list until it answers true:
    an initial part of the list is visited, the result is the minimum of the
    initial value and the distances of the pairs visited, the running minimum of
    the manager is that value, and the rest is left out only if that value is
    not positive. *)
Theorem default_distance_run : forall (D : obj -> obj -> Z) ps m0 q m, exists vis rest,
  let '(st, m', stop) := drun (default_distance D) (DData m0 false q) m ps in
  ps = vis ++ rest /\
  d_result st = fold_right Z.min m0 (map (fun p => D (fst p) (snd p)) vis) /\
  (ps <> [] -> vis <> []) /\ (vis <> [] -> m' = d_result st) /\ d_queries st = q + length vis /\
  (stop = true -> (d_result st <= 0)%Z) /\ (stop = false -> rest = []).
Proof.
  intros D ps m0 q m. revert m0 q m. induction ps as [|[a b] ps IH]; intros m0 q m.
  - exists [], []. cbn. repeat split; auto; try congruence.
  - cbn [drun]. unfold default_distance at 1. cbn [d_done d_result d_queries].
    rewrite orb_false_r. destruct (Z.leb_spec (Z.min m0 (D a b)) 0) as [H|H].
    + exists [(a, b)], ps. cbn. repeat split; auto; try congruence; lia.
    + destruct (IH (Z.min m0 (D a b)) (q + 1) (Z.min m0 (D a b))) as (vis & rest & Hv).
      exists ((a, b) :: vis), rest.
      destruct (drun (default_distance D) (DData (Z.min m0 (D a b)) false (q + 1)) (Z.min m0 (D a b)) ps) as [[st m'] stop] eqn:E.
      destruct Hv as (H1 & H2 & H0 & H3 & H4 & H5 & H6). split; [rewrite H1; reflexivity|].
      assert (Hf : forall l x y, fold_right Z.min (Z.min x y) l = Z.min y (fold_right Z.min x l)).
      { clear. induction l as [|z l IH]; intros x y; cbn; [lia|rewrite IH; lia]. }
      split; [cbn; rewrite H2, Hf; reflexivity|]. split; [discriminate|]. split.
      { intros _. destruct ps as [|p ps]; [cbn in E; injection E as <- <- <-; reflexivity|]. apply H3, H0. discriminate. }
      split; [cbn; lia|]. auto.
Qed.
Print Assumptions default_distance_run.

(** With distances that are not negative it therefore ends with the minimum over
    all pairs, stopping early or not. *)
Theorem default_distance_min : forall (D : obj -> obj -> Z) ps m0,
  (0 <= m0)%Z -> (forall a b, (0 <= D a b)%Z) ->
  d_result (fst (fst (drun (default_distance D) (DData m0 false 0) m0 ps))) =
    fold_right Z.min m0 (map (fun p => D (fst p) (snd p)) ps).
Proof.
  intros D ps m0 Hm HD. destruct (default_distance_run D ps m0 0 m0) as (vis & rest & H).
  destruct (drun (default_distance D) (DData m0 false 0) m0 ps) as [[st m'] stop]. cbn [fst].
  destruct H as (H1 & H2 & _ & _ & _ & H5 & H6). rewrite H1, map_app, fold_right_app.
  destruct stop; [|rewrite H6 by reflexivity; cbn; exact H2].
  specialize (H5 eq_refl).
  assert (Hpos : forall l x, (0 <= x)%Z -> (0 <= fold_right Z.min x (map (fun p => D (fst p) (snd p)) l))%Z).
  { clear - HD. induction l as [|[a b] l IH]; intros x Hx; cbn; [exact Hx|]. specialize (IH x Hx). specialize (HD a b). lia. }
  assert (Hmono : forall l x y, (x <= y)%Z -> (fold_right Z.min x l <= fold_right Z.min y l)%Z).
  { clear. induction l as [|z l IH]; intros x y H; cbn; [exact H|]. specialize (IH x y H). lia. }
  pose proof (Hpos vis _ (Hpos rest m0 Hm)). pose proof (Hpos vis m0 Hm).
  assert (Hle : (fold_right Z.min m0 (map (fun p => D (fst p) (snd p)) rest) <= m0)%Z).
  { clear. induction rest as [|z l IH]; cbn; lia. }
  pose proof (Hmono (map (fun p => D (fst p) (snd p)) vis) _ _ Hle). lia.
Qed.
Print Assumptions default_distance_min.

(** With signed distances the query stops at the first penetrating pair. *)
Theorem default_distance_signed_refuted : exists (D : obj -> obj -> Z) ps,
  let r := drun (default_distance D) (DData 1000 false 0) 1000 ps in
  d_result (fst (fst r)) = (-1)%Z /\ exists p, In p ps /\ D (fst p) (snd p) = (-5)%Z.
Proof.
  exists (fun a _ => if (a =? 0)%nat then (-1)%Z else (-5)%Z), [(0, 1); (1, 2)]. vm_compute. split; [reflexivity|].
  exists (1, 2). auto.
Qed.
Print Assumptions default_distance_signed_refuted.

Example default_distance_case :
  drun (default_distance (fun a b => Z.of_nat (a + b))) (DData 1000 false 0) 1000 [(3, 4); (1, 1); (2, 5)] = (DData 2 false 3, 2%Z, false).
Proof. vm_compute. reflexivity. Qed.

(** ** C52: signed distance of meshes and octrees *)

(** If the first contact collide() finds is deeper than the least positive value,
    min_distance is minus its depth and both nearest points are its position;
    the value returned is still the one of the distance function. *)
Theorem signed_distance_first : forall P tiny res m near d p (rest : list (Z * P)),
  res <> 0%Z -> (m < 0)%Z -> (tiny < d)%Z ->
  signed_part P tiny true true false res m near ((d, p) :: rest) = Some (res, (- d)%Z, Some (p, p)) /\
  signed_part P tiny true false false res m near ((d, p) :: rest) = Some (res, (- d)%Z, near).
Proof.
  intros P tiny res m near d p rest Hr Hm Hd. unfold signed_part.
  apply Z.eqb_neq in Hr. rewrite Hr. apply Z.ltb_lt in Hm. rewrite Hm. cbn [negb andb firstn].
  unfold deepest. cbn. apply Z.ltb_lt in Hd. rewrite Hd. cbn. auto.
Qed.
Print Assumptions signed_distance_first.

(** If it is the only contact, it is the deepest: min_distance is minus the
    maximal penetration depth. *)
Theorem signed_distance_single : forall P tiny res m near d p,
  res <> 0%Z -> (m < 0)%Z -> (tiny < d)%Z ->
  exists r, signed_part P tiny true true false res m near [(d, p)] = Some r /\
    (forall c, In c [(d, p)] -> (- fst c >= snd (fst r))%Z) /\ (exists c, In c [(d, p)] /\ (- fst c = snd (fst r))%Z).
Proof.
  intros P tiny res m near d p Hr Hm Hd.
  destruct (signed_distance_first P tiny res m near d p [] Hr Hm Hd) as [-> _].
  eexists. split; [reflexivity|]. cbn. split; [intros c [<-|[]]; cbn; lia|]. exists (d, p). cbn. auto.
Qed.
Print Assumptions signed_distance_single.

(** Without the request, or with a distance that is not negative, nothing changes. *)
Theorem signed_distance_off : forall P tiny signed want geom res m near (avail : list (Z * P)),
  signed = false \/ (0 <= m)%Z \/ geom = true -> signed_part P tiny signed want geom res m near avail = Some (res, m, near).
Proof.
  intros P tiny signed want geom res m near avail H. unfold signed_part.
  destruct (negb (res =? 0)%Z && (m <? 0)%Z && signed) eqn:E; [|reflexivity].
  rewrite !andb_true_iff in E. destruct E as [[_ E2] E3]. apply Z.ltb_lt in E2.
  destruct H as [->|[H| ->]]; [discriminate|lia|reflexivity].
Qed.
Print Assumptions signed_distance_off.

(** Only one contact is asked for: whenever the first contact found is not the
    deepest, the maximal depth is not reported. *)
Theorem signed_distance_deepest_refuted : forall P tiny res m near d1 d2 (p1 p2 : P),
  res <> 0%Z -> (m < 0)%Z -> (0 < tiny < d1)%Z -> (d1 < d2)%Z ->
  exists r, signed_part P tiny true true false res m near [(d1, p1); (d2, p2)] = Some r /\
    (snd (fst r) <> - d2)%Z /\ (snd (fst r) = - d1)%Z.
Proof.
  intros P tiny res m near d1 d2 p1 p2 Hr Hm Ht Hd.
  destruct (signed_distance_first P tiny res m near d1 p1 [(d2, p2)] Hr Hm ltac:(lia)) as [-> _].
  eexists. split; [reflexivity|]. cbn. split; lia.
Qed.
Print Assumptions signed_distance_deepest_refuted.

(** The value returned is not min_distance. *)
Theorem signed_distance_return_refuted : forall P tiny m near d (p : P), (m < 0)%Z -> (0 < tiny < d)%Z -> d <> 1%Z ->
  exists md nr, signed_part P tiny true true false (-1) m near [(d, p)] = Some ((-1)%Z, md, nr) /\ md <> (-1)%Z.
Proof.
  intros P tiny m near d p Hm Ht Hd.
  destruct (signed_distance_first P tiny (-1) m near d p [] ltac:(lia) Hm ltac:(lia)) as [-> _].
  eexists; eexists. split; [reflexivity|]. lia.
Qed.
Print Assumptions signed_distance_return_refuted.

(** A result reused for a second pair that does not collide: the penetration of
    the first pair (any [m < 0]) is replaced by minus the least positive value,
    and if nearest points are wanted the last element of an empty vector is
    read. *)
Theorem signed_distance_reuse_refuted : forall P tiny res m near, (0 < res)%Z -> (m < - tiny)%Z -> (0 < tiny)%Z ->
  signed_part P tiny true false false res m near [] = Some (res, (- tiny)%Z, near) /\
  signed_part P tiny true true false res m near [] = None.
Proof.
  intros P tiny res m near Hr Hm Ht. unfold signed_part.
  destruct (Z.eqb_spec res 0); [lia|]. destruct (Z.ltb_spec m 0); [|lia]. split; reflexivity.
Qed.
Print Assumptions signed_distance_reuse_refuted.

Example signed_distance_case :
  signed_part nat 1 true true false (-1) (-1) None [(7%Z, 3)] = Some ((-1)%Z, (-7)%Z, Some (3, 3)).
Proof. reflexivity. Qed.
