(** The growing-box distance search shared by the sweep-and-prune, interval-tree and spatial-hash
    managers.

    Models distance_ of
      include/fcl/broadphase/broadphase_SaP-inl.h:650-755,
      include/fcl/broadphase/broadphase_interval_tree-inl.h:428-515 with checkDist 683-725,
      include/fcl/broadphase/broadphase_spatialhash-inl.h:374-455 with
        distanceObjectToObjects 633-665,
    and inTestedSet / insertTestedSet of broadphase_collision_manager-inl.h:98-118.  The three
    functions differ in how the candidates of a box are found, in the box used for a stored object
    (the SaP manager uses its cached copy) and in the order of the two objects in the callback:
    these are parameters here and are instantiated in P_ExpandDist.v.

    Simplifications: coordinates and distances are integers, in a unit in which halves are exact;
    growing never overflows.  The search may run forever: [None] means that the fuel ran out (or
    that the candidates cannot be computed, e.g. interval trees not built). *)
From Coq Require Import ZArith List Bool Lia Permutation.
From Verif Require Import AabbZ Broadphase QueryComb QueryOpt SSaP IntervalManager.
Import ListNotations.
Open Scope Z_scope.

(** enable_tested_set_ and tested_set: [None] when disabled. *)
Definition tset := option (list (obj * obj)).
(** inTestedSet *)
Definition tested (T : tset) (a b : obj) : bool :=
  match T with None => false | Some l => seen_pair (norm_pair a b) l end.
(** insertTestedSet *)
Definition insert (T : tset) (a b : obj) : tset := option_map (cons (norm_pair a b)) T.
(** AABB<S>::equal, AABB-inl.h:319-323. *)
Definition box_equal (a b : aabb) : bool := is_approx (bmin a) (bmin b) && is_approx (bmax a) (bmax b).

Section Search.
  Variable box : obj -> aabb.          (* obj->getAABB() *)
  Variable pd : obj -> obj -> Z.       (* the AABB distance of a stored object to the query object *)
  Variable M : Z.                      (* numeric_limits<S>::max() *)
  Variable swap : bool.                (* the query object comes first in the callback *)
  Variable cand : aabb -> option (list obj).

  Definition ask {St} (cb : dcallback St) st m (a o : obj) := if swap then cb st m o a else cb st m a o.
  (** One pass over the candidates. *)
  Fixpoint xcheck (l : list obj) (o : obj) St (cb : dcallback St) st m (T : tset) : St * Z * bool * tset :=
    match l with
    | [] => (st, m, false, T)
    | a :: r =>
        if Nat.eqb a o || tested T a o then xcheck r o St cb st m T
        else if pd a o <? m then
          let '(st', m', stop) := ask cb st m a o in
          if stop then (st', m', true, T) else xcheck r o St cb st' m' (insert T a o)
        else xcheck r o St cb st m (insert T a o)
    end.
  (** [if(aabb.equal(box)) aabb.expand(delta); else aabb.expand(box, 2.0);] *)
  Definition enlarge (q core : aabb) : aabb :=
    if box_equal q core then expand q (half_extent core) else expand_ratio q core 2.
  (** The while loop. *)
  Fixpoint xloop (fuel : nat) (o : obj) (q : aabb) (status1 : bool) St (cb : dcallback St) st m (T : tset)
    : option (St * Z * bool * tset) :=
    match fuel with
    | O => None
    | S f =>
        match cand q with
        | None => None
        | Some l =>
            let '(st', m', stop, T') := xcheck l o St cb st m T in
            if stop then Some (st', m', true, T')
            else if status1 then
              if m <? M then Some (st', m', false, T')
              else if m' <? m then xloop f o (core_box (box o) (splat m')) false St cb st' m' T'
              else xloop f o (enlarge q (box o)) true St cb st' m' T'
            else Some (st', m', false, T')
        end
    end.
  Definition xstart (o : obj) (m : Z) : aabb := if m <? M then expand (box o) (splat m) else box o.
  Definition xdist (fuel : nat) (o : obj) St (cb : dcallback St) st m T :=
    xloop fuel o (xstart o m) true St cb st m T.
  (** [for(o : os) if(distance_(o)) break;] *)
  Fixpoint xeach (fuel : nat) (os : list obj) St (cb : dcallback St) st m T : option (St * Z * bool * tset) :=
    match os with
    | [] => Some (st, m, false, T)
    | o :: r =>
        match xdist fuel o St cb st m T with
        | None => None
        | Some (st', m', stop, T') => if stop then Some (st', m', true, T') else xeach fuel r St cb st' m' T'
        end
    end.
  (** The whole query, with the tested set [T] at its start. *)
  Definition xquery (fuel : nat) (os : list obj) (T : tset) : odquery := fun St cb st m =>
    option_map fst (xeach fuel os St cb st m T).

  (** ** A callback that answers true is the last one called *)
  Lemma xcheck_stops l o : forall St (cb : dcallback St) st m log T, clean log ->
    let '((_, log'), _, s, _) := xcheck l o _ (dlogging cb) (st, log) m T in stopped s log'.
  Proof.
    induction l as [|a l IH]; intros St cb st m log T HL; cbn [xcheck]; [left; auto|].
    destruct (Nat.eqb a o || tested T a o); [apply IH; auto|].
    destruct (pd a o <? m); [|apply IH; auto]. unfold ask, dlogging at 1 2.
    destruct swap.
    - destruct (cb st m o a) as [[st' m'] [|]]; [right; split; auto; exists log, o, a; auto|]. apply IH, clean_snoc; auto.
    - destruct (cb st m a o) as [[st' m'] [|]]; [right; split; auto; exists log, a, o; auto|]. apply IH, clean_snoc; auto.
  Qed.
  Lemma xloop_stops fuel o : forall q status1 St (cb : dcallback St) st m log T, clean log ->
    match xloop fuel o q status1 _ (dlogging cb) (st, log) m T with
    | None => True | Some ((_, log'), _, s, _) => stopped s log' end.
  Proof.
    induction fuel as [|f IH]; intros q status1 St cb st m log T HL; cbn [xloop]; auto.
    destruct (cand q) as [l|]; auto. pose proof (xcheck_stops l o St cb st m log T HL) as HQ.
    destruct (xcheck l o _ (dlogging cb) (st, log) m T) as [[[[st' log'] m'] stop] T'].
    destruct stop; auto. destruct status1; auto. destruct (m <? M); auto.
    apply stopped_inv in HQ; auto. destruct (m' <? m); apply IH; auto.
  Qed.
  Lemma xeach_stops fuel os : forall St (cb : dcallback St) st m log T, clean log ->
    match xeach fuel os _ (dlogging cb) (st, log) m T with
    | None => True | Some ((_, log'), _, s, _) => stopped s log' end.
  Proof.
    induction os as [|o os IH]; intros St cb st m log T HL; cbn [xeach]; [left; auto|].
    pose proof (xloop_stops fuel o (xstart o m) true St cb st m log T HL) as HQ. unfold xdist.
    destruct (xloop fuel o (xstart o m) true _ (dlogging cb) (st, log) m T) as [[[[[st' log'] m'] stop] T']|]; auto.
    destruct stop; auto. apply IH. apply stopped_inv in HQ; auto.
  Qed.
  Lemma xquery_stops fuel os T : odstops (xquery fuel os T).
  Proof.
    intros St cb st m log HL. unfold xquery. pose proof (xeach_stops fuel os St cb st m log T HL) as HQ.
    destruct (xeach fuel os _ (dlogging cb) (st, log) m T) as [[[[[st' log'] m'] stop] T']|]; auto.
  Qed.

  (** ** The pairs asked about *)
  Variable regs : list obj.
  Hypothesis Hreg : forall q l a, cand q = Some l -> In a l -> In a regs.
  (** [a, b] is a callback for the query object [o]. *)
  Definition asks (o a b : obj) : Prop :=
    let x := if swap then b else a in (if swap then a else b) = o /\ x <> o /\ In x regs.
  Lemma asks_ask o a : a <> o -> In a regs -> if swap then asks o o a else asks o a o.
  Proof. intros H1 H2. unfold asks. destruct swap; auto. Qed.

  Lemma xcheck_sound l o : (forall a, In a l -> In a regs) -> forall St (cb : dcallback St) (Inv : St -> Z -> Prop) st m T,
    (forall s d a b, asks o a b -> Inv s d -> let '(s', d', _) := cb s d a b in Inv s' d') -> Inv st m ->
    let '(s', d', _, _) := xcheck l o St cb st m T in Inv s' d'.
  Proof.
    induction l as [|a l IH]; intros Hl St cb Inv st m T Hcb Hi; cbn [xcheck]; auto.
    assert (Hl' : forall x, In x l -> In x regs) by (intros x Hx; apply Hl; right; auto).
    destruct (Nat.eqb_spec a o) as [E|E]; cbn [orb]; [apply IH; auto|]. destruct (tested T a o); [apply IH; auto|].
    destruct (pd a o <? m); [|apply IH; auto]. pose proof (asks_ask o a E (Hl a (or_introl eq_refl))) as HA.
    unfold ask. destruct swap.
    - pose proof (Hcb st m o a HA Hi) as H1. destruct (cb st m o a) as [[st' m'] [|]]; [auto|apply IH; auto].
    - pose proof (Hcb st m a o HA Hi) as H1. destruct (cb st m a o) as [[st' m'] [|]]; [auto|apply IH; auto].
  Qed.
  Lemma xloop_sound fuel o : forall q status1 St (cb : dcallback St) (Inv : St -> Z -> Prop) st m T,
    (forall s d a b, asks o a b -> Inv s d -> let '(s', d', _) := cb s d a b in Inv s' d') -> Inv st m ->
    match xloop fuel o q status1 St cb st m T with None => True | Some (s', d', _, _) => Inv s' d' end.
  Proof using Hreg.
    induction fuel as [|f IH]; intros q status1 St cb Inv st m T Hcb Hi; cbn [xloop]; auto.
    destruct (cand q) as [l|] eqn:E; auto.
    pose proof (xcheck_sound l o (fun a => Hreg q l a E) St cb Inv st m T Hcb Hi) as HQ.
    destruct (xcheck l o St cb st m T) as [[[st' m'] stop] T'].
    destruct stop; auto. destruct status1; auto. destruct (m <? M); auto. destruct (m' <? m); apply IH; auto.
  Qed.
  Definition asks_any (os : list obj) (a b : obj) : Prop := exists o, In o os /\ asks o a b.
  Lemma xquery_sound fuel os T : odsound (xquery fuel os T) (asks_any os).
  Proof using Hreg.
    intros St cb Inv st m Hcb Hi. unfold xquery. revert st m T Hcb Hi.
    induction os as [|o os IH]; intros st m T Hcb Hi; cbn [xeach option_map fst]; auto.
    pose proof (xloop_sound fuel o (xstart o m) true St cb Inv st m T) as HQ. unfold xdist.
    destruct (xloop fuel o (xstart o m) true St cb st m T) as [[[[st' m'] stop] T']|]; cbn [option_map]; auto.
    assert (Inv st' m') as HI.
    { apply HQ; auto. intros s d a b HA. apply Hcb. exists o. split; [left|]; auto. }
    destruct stop; cbn [option_map fst]; auto. apply IH; auto.
    intros s d a b (o' & Ho' & HA). apply Hcb. exists o'. split; [right|]; auto.
  Qed.

  (** ** Minimality *)
  Variable D : obj -> obj -> Z.
  Variable floor : Z.
  Hypothesis Dsym : forall a b, D a b = D b a.
  (** [R0]: an upper bound of the distances below [M], up to which the candidates are complete. *)
  Variable R0 : Z.
  (** Every pair tested is settled. *)
  Definition settled (T : tset) (m : Z) : Prop := forall a b, tested T a b = true -> m <= D a b.

  Lemma tested_insert T a o x y : tested (insert T a o) x y = true -> tested T x y = true \/ norm_pair x y = norm_pair a o.
  Proof.
    destruct T as [l|]; cbn; [|discriminate]. intros H. apply orb_true_iff in H as [H|H]; auto. right.
    apply andb_true_iff in H as [H1 H2]. apply Nat.eqb_eq in H1, H2. destruct (norm_pair x y), (norm_pair a o); cbn in *; congruence.
  Qed.
  Lemma norm_pair_D x y a o : norm_pair x y = norm_pair a o -> D x y = D a o.
  Proof using Dsym.
    unfold norm_pair. destruct (Nat.ltb x y), (Nat.ltb a o); intros [= -> ->]; auto.
  Qed.
  Lemma settled_insert T m m' a o : settled T m -> m' <= m -> m' <= D a o -> settled (insert T a o) m'.
  Proof using Dsym.
    intros H L1 L2 x y Hx. apply tested_insert in Hx as [Hx|Hx]; [specialize (H x y Hx); lia|].
    rewrite (norm_pair_D _ _ _ _ Hx). auto.
  Qed.

  Lemma xcheck_covers l o : (forall a, In a l -> a <> o -> pd a o <= D a o) ->
    forall St (cb : dcallback St) st m T, honest D floor cb -> settled T m ->
    let '(_, m', stop, T') := xcheck l o St cb st m T in
    m' <= m /\ (m' = m \/ exists a, In a l /\ a <> o /\ m' = D a o) /\ (stop = true -> m' <= floor) /\
    (stop = false -> settled T' m' /\ forall a, In a l -> a <> o -> m' <= D a o).
  Proof using Dsym.
    induction l as [|a l IH]; intros HD St cb st m T Hh HT; cbn [xcheck].
    { split; [lia|]. split; auto. split; [discriminate|]. intros _. split; auto; intros a []. }
    assert (HD' : forall x, In x l -> x <> o -> pd x o <= D x o) by (intros x Hx; apply HD; right; auto).
    assert (Step : forall st1 m1 T1, m1 <= m -> (m1 = m \/ m1 = D a o /\ a <> o) -> (a <> o -> m1 <= D a o) -> settled T1 m1 ->
      let '(_, m', stop, T') := xcheck l o St cb st1 m1 T1 in
      m' <= m /\ (m' = m \/ exists x, In x (a :: l) /\ x <> o /\ m' = D x o) /\ (stop = true -> m' <= floor) /\
      (stop = false -> settled T' m' /\ forall x, In x (a :: l) -> x <> o -> m' <= D x o)).
    { clear HT. intros st1 m1 T1 L1 B1 L2 HT1. specialize (IH HD' St cb st1 m1 T1 Hh HT1).
      destruct (xcheck l o St cb st1 m1 T1) as [[[st' m'] stop] T']. destruct IH as (A & B & C & E).
      split; [lia|]. split; [|split; auto].
      - destruct B as [->|(x & Hx & Nx & ->)]; [|right; exists x; cbn; auto].
        destruct B1 as [->|[-> Na]]; auto. right. exists a. cbn; auto.
      - intros Hs. destruct (E Hs) as [E1 E2]. split; auto. intros x [<-|Hx] Nx; auto. specialize (L2 Nx). lia. }
    destruct (Nat.eqb_spec a o) as [E|E]; cbn [orb]; [apply Step; [lia|auto|intros Nx; destruct (Nx E)|auto]|].
    destruct (tested T a o) eqn:ET; [apply Step; [lia|auto|intros _; apply HT; auto|auto]|].
    specialize (HD a (or_introl eq_refl) E).
    destruct (Z.ltb_spec (pd a o) m) as [L|L]; [|apply Step; [lia|auto|lia|apply (settled_insert T m); auto; lia]].
    assert (HA : let '(_, m', stop) := ask cb st m a o in m' = Z.min m (D a o) /\ (stop = true -> m' <= floor)).
    { unfold ask. destruct swap; [rewrite (Dsym a o); apply (Hh st m o a)|apply (Hh st m a o)]. }
    destruct (ask cb st m a o) as [[st1 m1] stop]. destruct HA as [-> HF]. destruct stop.
    - split; [lia|]. split; [|split; [auto|discriminate]].
      destruct (Z.min_spec m (D a o)) as [[_ ->]|[_ ->]]; auto. right. exists a. cbn; auto.
    - apply Step; [lia|lia|lia|]. apply (settled_insert T m); auto; lia.
  Qed.

  Variable os : list obj.
  (** The distances of interest, and when the candidates of the grown box are complete. *)
  Hypothesis HD : forall a o, In a regs -> In o os -> a <> o -> pd a o <= D a o.
  Hypothesis HR : forall a o, In a regs -> In o os -> a <> o -> D a o < M -> D a o <= R0.
  Hypothesis RM : R0 < M.
  Hypothesis Hcatch : forall a o r, In a regs -> In o os -> a <> o -> pd a o < r -> r <= R0 ->
    exists l, cand (core_box (box o) (splat r)) = Some l /\ In a l.
  Definition level (m : Z) : Prop := m = M \/ m <= R0.

  Lemma xloop_covers fuel o : In o os ->
    forall q (status1 : bool) St (cb : dcallback St) st m T, honest D floor cb -> settled T m -> level m ->
    (status1 = false \/ m < M -> q = core_box (box o) (splat m)) -> (status1 = false -> m < M) ->
    match xloop fuel o q status1 St cb st m T with
    | None => True
    | Some (_, m', stop, T') =>
      m' <= m /\ level m' /\ (m' = m \/ exists a, In a regs /\ a <> o /\ m' = D a o) /\
      (stop = true -> m' <= floor) /\
      (stop = false -> settled T' m' /\ forall a, In a regs -> a <> o -> m' <= D a o)
    end.
  Proof using Dsym HD HR RM Hcatch Hreg.
    intros Ho. induction fuel as [|f IH]; intros q status1 St cb st m T Hh HT HL Hq Hst; cbn [xloop]; auto.
    destruct (cand q) as [l|] eqn:Ec; auto.
    assert (Hl : forall a, In a l -> In a regs) by (intros a; apply Hreg with q; auto).
    pose proof (xcheck_covers l o (fun a Ha Na => HD a o (Hl a Ha) Ho Na) St cb st m T Hh HT) as HC.
    destruct (xcheck l o St cb st m T) as [[[st' m'] stop] T']. destruct HC as (A & B & C & E).
    assert (B' : m' = m \/ exists a, In a regs /\ a <> o /\ m' = D a o).
    { destruct B as [B|(a & Ha & Na & B)]; auto. right. exists a. auto. }
    assert (HL' : level m').
    { destruct B' as [->|(a & Ha & Na & ->)]; auto. destruct (Z.lt_ge_cases (D a o) M); [right; apply HR; auto|].
      left. destruct HL; lia. }
    assert (Full : status1 = false \/ m < M -> stop = false -> forall a, In a regs -> a <> o -> m' <= D a o).
    { intros Hc Hs a Ha Na. destruct (in_dec Nat.eq_dec a l) as [Hin|Hout]; [apply (E Hs); auto|].
      assert (Lm : m < M) by (destruct Hc; auto).
      destruct (Z.lt_ge_cases (pd a o) m) as [L|L]; [|specialize (HD a o Ha Ho Na); lia]. exfalso.
      destruct HL as [HL|HL]; [lia|]. destruct (Hcatch a o m Ha Ho Na L HL) as (l' & El & Hin').
      rewrite <- (Hq Hc), Ec in El. injection El as <-. auto. }
    destruct stop; [split; [auto|]; split; [auto|]; split; [auto|]; split; [auto|discriminate]|].
    destruct (E eq_refl) as [HT' _].
    destruct status1; [|split; [auto|]; split; [auto|]; split; [auto|]; split; [discriminate|]; intros _; split; auto].
    destruct (Z.ltb_spec m M) as [Lm|Lm].
    { split; [auto|]; split; [auto|]; split; [auto|]; split; [discriminate|]. intros _; split; auto. }
    assert (Glue : forall q' st1, (st1 = false \/ m' < M -> q' = core_box (box o) (splat m')) -> (st1 = false -> m' < M) ->
      match xloop f o q' st1 St cb st' m' T' with
      | None => True
      | Some (_, m2, stop, T2) =>
        m2 <= m /\ level m2 /\ (m2 = m \/ exists a, In a regs /\ a <> o /\ m2 = D a o) /\
        (stop = true -> m2 <= floor) /\
        (stop = false -> settled T2 m2 /\ forall a, In a regs -> a <> o -> m2 <= D a o)
      end).
    { intros q' st1 H1 H2. specialize (IH q' st1 St cb st' m' T' Hh HT' HL' H1 H2).
      destruct (xloop f o q' st1 St cb st' m' T') as [[[[st2 m2] s2] T2]|]; auto.
      destruct IH as (A2 & L2 & B2 & C2 & E2). split; [lia|]. split; auto. split; auto.
      destruct B2 as [->|B2]; auto. }
    destruct (Z.ltb_spec m' m) as [L2|L2].
    - apply Glue; auto. intros _. destruct HL' as [HL'|HL'], HL as [HL|HL]; lia.
    - apply Glue; [|discriminate]. intros [?|?]; [discriminate|lia].
  Qed.

  Lemma xeach_covers fuel os' : incl os' os ->
    forall St (cb : dcallback St) st m T, honest D floor cb -> settled T m -> level m ->
    match xeach fuel os' St cb st m T with
    | None => True
    | Some (_, m', stop, T') =>
      m' <= m /\ (m' = m \/ exists a o, In o os' /\ In a regs /\ a <> o /\ m' = D a o) /\
      (stop = true -> m' <= floor) /\
      (stop = false -> forall a o, In o os' -> In a regs -> a <> o -> m' <= D a o)
    end.
  Proof using Dsym HD HR RM Hcatch Hreg.
    induction os' as [|o os' IH]; intros Hi St cb st m T Hh HT HL; cbn [xeach].
    { split; [lia|]. split; auto. split; [discriminate|]. intros _ a o H; destruct H. }
    assert (Ho : In o os) by (apply Hi; left; auto).
    assert (Hq : true = false \/ m < M -> xstart o m = core_box (box o) (splat m)).
    { intros [?|L]; [discriminate|]. unfold xstart. apply Z.ltb_lt in L. rewrite L. reflexivity. }
    pose proof (xloop_covers fuel o Ho (xstart o m) true St cb st m T Hh HT HL Hq ltac:(discriminate)) as HC. unfold xdist.
    destruct (xloop fuel o (xstart o m) true St cb st m T) as [[[[st' m'] stop] T']|]; auto. destruct HC as (A & L' & B & C & E).
    destruct stop.
    - split; [auto|]. split; [|split; [auto|discriminate]]. destruct B as [B|(a & Ha & Na & B)]; auto. right. exists a, o. cbn; auto.
    - destruct (E eq_refl) as [HT' E']. specialize (IH (fun x Hx => Hi x (or_intror Hx)) St cb st' m' T' Hh HT' L').
      destruct (xeach fuel os' St cb st' m' T') as [[[[st2 m2] s2] T2]|]; auto. destruct IH as (A2 & B2 & C2 & E2).
      split; [lia|]. split; [|split; auto].
      + destruct B2 as [->|(a & x & Hx & Ha & Na & ->)]; [|right; exists a, x; cbn; auto].
        destruct B as [B|(a & Ha & Na & B)]; auto. right. exists a, o. cbn; auto.
      + intros Hs a x [<-|Hx] Ha Na; auto. specialize (E' a Ha Na). lia.
  Qed.
End Search.

(** If the query returns, it found the minimum over the pairs asked about. *)
Lemma xquery_min box pd M swap cand regs D R0 os fuel T :
  (forall q l a, cand q = Some l -> In a l -> In a regs) -> (forall a b, D a b = D b a) ->
  (forall a o, In a regs -> In o os -> a <> o -> pd a o <= D a o) ->
  (forall a o, In a regs -> In o os -> a <> o -> D a o < M -> D a o <= R0) -> R0 < M ->
  (forall a o r, In a regs -> In o os -> a <> o -> pd a o < r -> r <= R0 ->
    exists l, cand (core_box (box o) (splat r)) = Some l /\ In a l) ->
  (forall a b, tested T a b = false) ->
  ofinds_min (xquery box pd M swap cand fuel os T) M (asks_any swap regs os) D.
Proof.
  intros H1 H2 H3 H4 H5 H6 H7 St cb st floor Hh Hf. unfold xquery.
  assert (HT : settled D T M) by (intros a b H; rewrite H7 in H; discriminate).
  pose proof (xeach_covers box pd M swap cand regs H1 D floor H2 R0 os H3 H4 H5 H6 fuel os (fun x Hx => Hx) St cb st M T Hh HT (or_introl eq_refl)) as HC.
  destruct (xeach box pd M swap cand fuel os St cb st M T) as [[[[st' m'] stop] T']|]; cbn [option_map fst]; auto.
  destruct HC as (A & B & C & E). split.
  - intros a b HA. destruct stop; [specialize (Hf a b HA); specialize (C eq_refl); lia|].
    destruct HA as (o & Ho & HA). unfold asks in HA. destruct swap; destruct HA as (<- & Nx & Hx); [rewrite H2|]; apply E; auto.
  - destruct B as [B|(a & o & Ho & Ha & Na & B)]; auto. right.
    destruct swap; [exists o, a; rewrite H2|exists a, o]; split; auto; exists o; split; auto; unfold asks; auto.
Qed.

(** ** When the search returns *)
Definition times (n : Z) (v : vec) : vec := V (n * vx v) (n * vy v) (n * vz v).
Lemma core_times0 core : core_box core (times 0 (half_extent core)) = core.
Proof.
  destruct core as [[a b c] [a' b' c']]. unfold core_box, times, vsub, vadd. cbn [bmin bmax vx vy vz]. f_equal; f_equal; lia.
Qed.
Lemma enlarge_times core n : 0 <= n ->
  exists n', enlarge (core_box core (times n (half_extent core))) core = core_box core (times n' (half_extent core)) /\
    n + 1 <= n' /\ (n' <= n + 1 \/ n' <= 2 * n).
Proof.
  intros Hn. unfold enlarge. destruct (box_equal _ core) eqn:E.
  - exists (n + 1). split; [|lia]. set (h := half_extent core). clearbody h.
    destruct core as [[a b c] [a' b' c']], h as [x y z]. unfold expand, core_box, times, vsub, vadd. cbn [bmin bmax vx vy vz].
    f_equal; f_equal; ring.
  - destruct (Z.eq_dec n 0) as [->|N].
    { rewrite core_times0 in E. unfold box_equal in E. rewrite !approx_refl in E. discriminate. }
    exists (2 * n). split; [|lia]. set (h := half_extent core). clearbody h.
    destruct core as [[a b c] [a' b' c']], h as [x y z]. unfold expand_ratio, core_box, times, vsub, vadd. cbn [bmin bmax vx vy vz].
    f_equal; f_equal; ring.
Qed.

Section Returns.
  Variables (box : obj -> aabb) (pd : obj -> obj -> Z) (M : Z) (swap : bool) (cand : aabb -> option (list obj)).
  Variables (regs : list obj) (D : obj -> obj -> Z) (floor R0 : Z) (os : list obj).
  Hypothesis Hreg : forall q l a, cand q = Some l -> In a l -> In a regs.
  Hypothesis Htot : forall q, cand q <> None.
  Hypothesis Dsym : forall a b, D a b = D b a.
  Hypothesis HD : forall a o, In a regs -> In o os -> a <> o -> pd a o <= D a o.

  Lemma xloop_last fuel o q (status1 : bool) St (cb : dcallback St) st m T : (0 < fuel)%nat -> (status1 = false \/ m < M) ->
    xloop box pd M swap cand fuel o q status1 St cb st m T <> None.
  Proof using Htot.
    intros Hf Hm. destruct fuel as [|f]; [lia|]. cbn [xloop]. destruct (cand q) as [l|] eqn:Ec; [|destruct (Htot q Ec)].
    destruct (xcheck pd swap l o St cb st m T) as [[[st' m'] [|]] T']; [discriminate|].
    destruct status1; [|discriminate]. destruct Hm as [|L]; [discriminate|]. apply Z.ltb_lt in L. rewrite L. discriminate.
  Qed.
  (** [a] is met as soon as the box has grown by [K] half extents. *)
  Lemma xloop_returns o a K : In o os -> In a regs -> a <> o -> D a o < M -> 1 <= K ->
    (forall n l, K <= n <= 2 * K -> cand (core_box (box o) (times n (half_extent (box o)))) = Some l -> In a l) ->
    forall St (cb : dcallback St), honest D floor cb -> forall fuel n st T,
      (fuel + Z.to_nat n >= Z.to_nat K + 2)%nat -> (2 <= fuel)%nat -> 0 <= n -> (n = 0 \/ n <= 2 * K) -> settled D T M ->
      match xloop box pd M swap cand fuel o (core_box (box o) (times n (half_extent (box o)))) true St cb st M T with
      | None => False
      | Some (_, m', stop, T') => stop = true \/ m' < M /\ settled D T' m'
      end.
  Proof using Hreg Htot Dsym HD.
    intros Ho Ha Na HM HK Hc St cb Hh. induction fuel as [|f IH]; intros n st T HN H2 Hn Hn2 HT; [lia|]. cbn [xloop].
    set (q := core_box (box o) (times n (half_extent (box o)))). destruct (cand q) as [l|] eqn:Ec; [|destruct (Htot q Ec)].
    assert (Hl : forall x, In x l -> In x regs) by (intros x; apply Hreg with q; auto).
    pose proof (xcheck_covers pd swap D floor Dsym l o (fun x Hx Nx => HD x o (Hl x Hx) Ho Nx) St cb st M T Hh HT) as HC.
    destruct (xcheck pd swap l o St cb st M T) as [[[st' m'] stop] T']. destruct HC as (A & B & C & E).
    destruct stop; auto. rewrite Z.ltb_irrefl. destruct (E eq_refl) as [HT' E'].
    destruct (Z.ltb_spec m' M) as [L|L].
    - destruct f as [|f']; [lia|]. cbn [xloop]. destruct (cand (core_box (box o) (splat m'))) as [l2|] eqn:Ec2; [|destruct (Htot _ Ec2)].
      assert (Hl2 : forall x, In x l2 -> In x regs) by (intros x; apply Hreg with (1 := Ec2)).
      pose proof (xcheck_covers pd swap D floor Dsym l2 o (fun x Hx Nx => HD x o (Hl2 x Hx) Ho Nx) St cb st' m' T' Hh HT') as HC.
      destruct (xcheck pd swap l2 o St cb st' m' T') as [[[st2 m2] stop2] T2]. destruct HC as (A2 & _ & _ & E2).
      destruct stop2; auto. right. split; [lia|]. apply E2; auto.
    - assert (m' = M) as -> by lia.
      assert (Ln : n < K).
      { destruct (Z.lt_ge_cases n K); auto. exfalso. destruct Hn2 as [->|Hn2]; [lia|].
        specialize (E' a (Hc n l (conj H Hn2) Ec) Na). lia. }
      destruct (enlarge_times (box o) n Hn) as (n' & En & L1 & L2). fold q in En. rewrite En. apply IH; auto; lia.
  Qed.
  Lemma xeach_finite fuel : (0 < fuel)%nat -> forall os' St (cb : dcallback St) st m T, incl os' os -> honest D floor cb -> settled D T m -> m < M ->
    xeach box pd M swap cand fuel os' St cb st m T <> None.
  Proof using Htot Hreg Dsym HD.
    intros Hf. induction os' as [|o os' IH]; intros St cb st m T Hi Hh HT Hm; cbn [xeach]; [discriminate|]. unfold xdist.
    assert (Ho : In o os) by (apply Hi; left; auto).
    destruct fuel as [|f]; [lia|]. cbn [xloop]. destruct (cand (xstart box M o m)) as [l|] eqn:Ec; [|destruct (Htot _ Ec)].
    assert (Hl : forall x, In x l -> In x regs) by (intros x; apply Hreg with (1 := Ec)).
    pose proof (xcheck_covers pd swap D floor Dsym l o (fun x Hx Nx => HD x o (Hl x Hx) Ho Nx) St cb st m T Hh HT) as HC.
    destruct (xcheck pd swap l o St cb st m T) as [[[st' m'] stop] T']. destruct HC as (A & B & C & E).
    destruct stop; [discriminate|]. assert (Lm := Hm). apply Z.ltb_lt in Lm. rewrite Lm.
    apply IH; [intros x Hx; apply Hi; right; auto|auto|apply E; auto|lia].
  Qed.
  (** The query returns if, from its first object, one other object is reached. *)
  Lemma xquery_returns T o r a K : (forall x y, tested T x y = false) -> os = o :: r ->
    In a regs -> a <> o -> D a o < M -> 1 <= K ->
    (forall n l, K <= n <= 2 * K -> cand (core_box (box o) (times n (half_extent (box o)))) = Some l -> In a l) ->
    forall St (cb : dcallback St) st fuel, honest D floor cb -> (Z.to_nat K + 2 <= fuel)%nat ->
      xquery box pd M swap cand fuel os T St cb st M <> None.
  Proof using Hreg Htot Dsym HD.
    intros HT Eos Ha Na HM HK Hc St cb st fuel Hh Hf. unfold xquery.
    assert (Ho : In o os) by (rewrite Eos; left; auto).
    assert (HT0 : settled D T M) by (intros x y H; rewrite HT in H; discriminate).
    pose proof (xloop_returns o a K Ho Ha Na HM HK Hc St cb Hh fuel 0 st T ltac:(lia) ltac:(lia) ltac:(lia) ltac:(auto) HT0) as HQ.
    rewrite core_times0 in HQ. rewrite Eos. cbn [xeach]. unfold xdist, xstart. rewrite Z.ltb_irrefl.
    destruct (xloop box pd M swap cand fuel o (box o) true St cb st M T) as [[[[st' m'] stop] T']|] eqn:EL; [|tauto].
    destruct stop; [discriminate|]. destruct HQ as [HQ|[HQ HS]]; [discriminate|].
    enough (xeach box pd M swap cand fuel r St cb st' m' T' <> None) as HE
      by (destruct (xeach box pd M swap cand fuel r St cb st' m' T'); [discriminate|tauto]).
    apply xeach_finite; auto; [lia|]. rewrite Eos. intros x Hx; right; auto.
  Qed.
End Returns.

(** ** When it does not *)
Section Hangs.
  Variables (box : obj -> aabb) (pd : obj -> obj -> Z) (M : Z) (swap : bool) (cand : aabb -> option (list obj)).
  Lemma xcheck_own l o St (cb : dcallback St) st m T : (forall a, In a l -> a = o) -> xcheck pd swap l o St cb st m T = (st, m, false, T).
  Proof.
    induction l as [|a l IH]; intros H; cbn [xcheck]; auto. rewrite (H a (or_introl eq_refl)), Nat.eqb_refl. cbn [orb].
    apply IH. intros x Hx. apply H. right; auto.
  Qed.
  (** No candidates but the object itself, however large the box. *)
  Lemma xquery_alone o r T : (forall q l a, cand q = Some l -> In a l -> a = o) ->
    forall fuel St (cb : dcallback St) st, xquery box pd M swap cand fuel (o :: r) T St cb st M = None.
  Proof.
    intros H fuel St cb st. unfold xquery. cbn [xeach]. unfold xdist. generalize (xstart box M o M) as q.
    enough (E : forall q, xloop box pd M swap cand fuel o q true St cb st M T = None) by (intros q; rewrite E; reflexivity).
    induction fuel as [|f IH]; intros q; cbn [xloop]; auto. destruct (cand q) as [l|] eqn:Ec; auto.
    rewrite xcheck_own by (intros a; apply H with (1 := Ec)). rewrite !Z.ltb_irrefl. apply IH.
  Qed.
  (** A box without extent never grows. *)
  Lemma xquery_flat o r T : bmin (box o) = bmax (box o) -> (forall l a, cand (box o) = Some l -> In a l -> a = o) ->
    forall fuel St (cb : dcallback St) st, xquery box pd M swap cand fuel (o :: r) T St cb st M = None.
  Proof.
    intros HF H fuel St cb st. unfold xquery. cbn [xeach]. unfold xdist, xstart. rewrite Z.ltb_irrefl.
    enough (E : xloop box pd M swap cand fuel o (box o) true St cb st M T = None) by (rewrite E; reflexivity).
    assert (EN : enlarge (box o) (box o) = box o).
    { unfold enlarge, box_equal. rewrite !approx_refl. cbn [andb]. unfold expand, half_extent. rewrite HF, !Z.sub_diag.
      change (0 / 2) with 0. destruct (box o) as [[a b c] [a' b' c']]; cbn in *. injection HF as -> -> ->.
      unfold vsub, vadd; cbn. f_equal; f_equal; lia. }
    induction fuel as [|f IH]; cbn [xloop]; auto. destruct (cand (box o)) as [l|] eqn:Ec; auto.
    rewrite xcheck_own by (intros a; apply H; auto). rewrite !Z.ltb_irrefl, EN. apply IH.
  Qed.
End Hangs.
