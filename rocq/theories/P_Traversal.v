(** * Properties C28-C32: traversal of a pair of hierarchies *)

From Coq Require Import List Arith Lia ZArith Bool Permutation.
From Verif Require Import BvhBuild Traversal TraversalDist TraversalMesh.
Import ListNotations.

(** ** C28: collision traversal is complete and sound *)

(** For every pair of hierarchies, every descent rule that respects leaves, every
    volume test, every primitive test and every stopping rule: the traversal
    performs, in some order, a part of a list [L] of primitive tests; [L] is free
    of repetition, has only pairs whose own volumes overlap, and contains every
    pair of leaves whose volumes overlap all the way up.  The part is all of [L]
    unless the stopping rule was satisfied. *)
Theorem collision_traversal : forall n bvt S (leaf_test : nat -> nat -> S -> S) can_stop t1 t2 fuel,
  over_ok n -> shaped1 n t1 -> shaped2 n t2 -> NoDup (tids t1) -> NoDup (tids t2) ->
  2 * (length (lids t1) * length (lids t2)) <= fuel ->
  exists L, NoDup L /\
    (forall i j, In (i, j) L -> In i (lids t1) /\ In j (lids t2) /\ bvt i j = false) /\
    (forall i j, In i (lids t1) -> In j (lids t2) -> unsep bvt t1 t2 i j -> In (i, j) L) /\
    forall s, exists P Q, L = P ++ Q /\
      crec n bvt S leaf_test can_stop fuel (tid t1) (tid t2) None s =
        Some (None, fold_left (fun s p => leaf_test (fst p) (snd p) s) P s) /\
      (Q = [] \/ can_stop (fold_left (fun s p => leaf_test (fst p) (snd p) s) P s) = true).
Proof.
  intros n bvt S leaf_test can_stop t1 t2 fuel Ho H1 H2 N1 N2 Hf.
  destruct (crec_spec n bvt S leaf_test can_stop Ho fuel t1 t2) as (L & F & (G1 & G2 & G3) & _ & _ & R); try assumption.
  { unfold weight. cbn [fst snd]. lia. }
  exists L. split; [exact G1|]. split.
  { intros i j H. apply G2 in H. rewrite in_cells in H. tauto. }
  split. { intros i j Hi Hj Hu. apply G3; [apply in_cells; auto|exact Hu]. }
  intros s. destruct (R None s) as (s' & E & P & Q & EL & -> & Hq & _). exists P, Q. auto.
Qed.
Print Assumptions collision_traversal.

(** Two stored hierarchies whose volumes enclose their primitives: the recorded
    pairs are, in some order, exactly the intersecting pairs of primitives, each
    once, when nothing limits the number of contacts. *)
Theorem mesh_collision_exact : forall BV size (E1 E2 : BV -> nat -> Prop) (disjoint : BV -> BV -> bool)
  (hit : nat -> nat -> bool) b1 b2 t1 t2 fuel,
  good E1 b1 t1 0 -> good E2 b2 t2 0 -> tid t1 = 0 -> tid t2 = 0 -> NoDup (tids t1) -> NoDup (tids t2) ->
  (forall v1 v2 p q, E1 v1 p -> E2 v2 q -> hit p q = true -> disjoint v1 v2 = false) ->
  2 * (length (lids t1) * length (lids t2)) <= fuel ->
  exists R, collide_node (mesh_iface size b1 b2) (on_bvs true disjoint b1 b2) (list (nat * nat))
      (fun i j s => if hit (primn b1 i) (primn b2 j) then s ++ [(primn b1 i, primn b2 j)] else s)
      (fun _ => false) fuel None [] = Some (None, R) /\
    Permutation R (filter (fun pq => hit (fst pq) (snd pq)) (list_prod (tleaves t1) (tleaves t2))).
Proof.
  intros BV size E1 E2 disjoint hit b1 b2 t1 t2 fuel G1 G2 Z1 Z2 N1 N2 Hd Hf.
  set (lt := fun i j (s : list (nat * nat)) => if hit (primn b1 i) (primn b2 j) then s ++ [(primn b1 i, primn b2 j)] else s).
  destruct (collision_traversal (mesh_iface size b1 b2) (on_bvs true disjoint b1 b2) _ lt (fun _ => false) t1 t2 fuel)
    as (L & HN & HS & HC & R); try assumption.
  { apply mesh_over_ok. }
  { unfold shaped1. cbn. eapply good_shaped; exact G1. }
  { unfold shaped2. cbn. eapply good_shaped; exact G2. }
  destruct (R []) as (P & Q & EL & Er & Hq). destruct Hq as [->|Hq]; [|discriminate]. rewrite app_nil_r in EL. subst P.
  rewrite Z1, Z2 in Er. eexists. split; [exact Er|].
  set (h := fun p : nat * nat => hit (primn b1 (fst p)) (primn b2 (snd p))).
  set (pr := fun p : nat * nat => (primn b1 (fst p), primn b2 (snd p))).
  assert (Hfold : forall L s, fold_left (fun s p => lt (fst p) (snd p) s) L s = s ++ map pr (filter h L)).
  { clear. induction L as [|[i j] L IH]; intros s; cbn [fold_left filter map]; [rewrite app_nil_r; reflexivity|].
    rewrite IH. unfold lt, h, pr. cbn [fst snd]. destruct (hit (primn b1 i) (primn b2 j)); [|reflexivity].
    cbn [map]. rewrite <- app_assoc. reflexivity. }
  rewrite Hfold. cbn [app].
  rewrite <- (good_cells _ _ _ _ _ _ _ _ G1 G2). fold pr.
  assert (Hmf : forall l, filter (fun pq => hit (fst pq) (snd pq)) (map pr l) = map pr (filter h l)).
  { clear. induction l as [|p l IH]; [reflexivity|]. cbn [map filter].
    change (hit (fst (pr p)) (snd (pr p))) with (h p). rewrite IH. destruct (h p); reflexivity. }
  rewrite Hmf. apply Permutation_map. apply NoDup_Permutation.
  - apply NoDup_filter. exact HN.
  - apply NoDup_filter. apply cells_NoDup; assumption.
  - intros [i j]. rewrite !filter_In, in_cells. split.
    + intros [H Hh]. apply HS in H. tauto.
    + intros [[Hi Hj] Hh]. split; [|exact Hh]. apply HC; [exact Hi|exact Hj|].
      eapply (good_unsep E1 E2 disjoint (fun p q => hit p q = true)); eassumption.
Qed.
Print Assumptions mesh_collision_exact.

(** ** C29: the contact limit *)

(** collide() with limit [max] on two stored hierarchies and any generator of
    contacts: the contacts [c0] already in the result are kept, and the new ones
    are the first [max - |c0|] of the contacts of all intersecting pairs, listed
    in some order. *)
Theorem contact_limit : forall BV size (E1 E2 : BV -> nat -> Prop) (disjoint : BV -> BV -> bool)
  C max cost (gen : nat -> nat -> list C) b1 b2 t1 t2 fuel,
  good E1 b1 t1 0 -> good E2 b2 t2 0 -> tid t1 = 0 -> tid t2 = 0 -> NoDup (tids t1) -> NoDup (tids t2) ->
  (forall v1 v2 p q, E1 v1 p -> E2 v2 q -> gen p q <> [] -> disjoint v1 v2 = false) ->
  2 * (length (lids t1) * length (lids t2)) <= fuel ->
  exists pairs, Permutation pairs (list_prod (tleaves t1) (tleaves t2)) /\
  forall c0, collide_node (mesh_iface size b1 b2) (on_bvs true disjoint b1 b2) (list C)
      (leaf_contacts C max gen (primn b1) (primn b2)) (satisfied C max cost) fuel None c0 =
    Some (None, c0 ++ firstn (max - length c0) (flat_map (fun pq => gen (fst pq) (snd pq)) pairs)).
Proof.
  intros BV size E1 E2 disjoint C max cost gen b1 b2 t1 t2 fuel G1 G2 Z1 Z2 N1 N2 Hd Hf.
  destruct (crec_spec (mesh_iface size b1 b2) (on_bvs true disjoint b1 b2) (list C)
      (leaf_contacts C max gen (primn b1) (primn b2)) (satisfied C max cost) (mesh_over_ok size b1 b2) fuel t1 t2)
    as (L & F & (H1 & H2 & H3) & _ & _ & R); try assumption.
  { unfold weight. cbn [fst snd]. lia. }
  { unfold shaped1. cbn. eapply good_shaped; exact G1. }
  { unfold shaped2. cbn. eapply good_shaped; exact G2. }
  set (pr := fun p : nat * nat => (primn b1 (fst p), primn b2 (snd p))).
  set (rest := filter (fun c => negb (if in_dec dec2 c L then true else false)) (cells (t1, t2))).
  exists (map pr (L ++ rest)).
  assert (HP : Permutation (L ++ rest) (cells (t1, t2))).
  { apply NoDup_Permutation.
    - apply NoDup_app_mk; [exact H1|apply NoDup_filter, cells_NoDup; assumption|].
      intros x Hx Hy. unfold rest in Hy. apply filter_In in Hy. destruct (in_dec dec2 x L); [destruct Hy; discriminate|auto].
    - apply cells_NoDup; assumption.
    - intros [i j]. rewrite in_app_iff. unfold rest. rewrite filter_In. split.
      + intros [H|[H _]]; [apply H2 in H; tauto|exact H].
      + intros H. destruct (in_dec dec2 (i, j) L); [auto|right; split; [exact H|reflexivity]]. }
  split. { rewrite <- (good_cells _ _ _ _ _ _ _ _ G1 G2). apply Permutation_map. exact HP. }
  intros c0. destruct (R None c0) as (s' & E & T). rewrite Z1, Z2 in E. cbn [collide_node]. rewrite E. cbn [option_map].
  apply stop_contacts in T. rewrite T. repeat f_equal.
  assert (Hfm : forall l, flat_map (fun pq => gen (fst pq) (snd pq)) (map pr l) = all_contacts C gen (primn b1) (primn b2) l).
  { clear. induction l as [|p l IH]; [reflexivity|]. cbn [map flat_map]. rewrite IH. reflexivity. }
  rewrite Hfm. unfold all_contacts. rewrite flat_map_app.
  assert (Hz : flat_map (fun p => gen (primn b1 (fst p)) (primn b2 (snd p))) rest = []).
  { assert (Hall : forall p, In p rest -> gen (primn b1 (fst p)) (primn b2 (snd p)) = []).
    { intros [i j] Hp. unfold rest in Hp. apply filter_In in Hp. destruct Hp as [Hc Hn]. cbn [fst snd].
      destruct (gen (primn b1 i) (primn b2 j)) as [|c cs] eqn:Eg; [reflexivity|]. exfalso.
      destruct (in_dec dec2 (i, j) L) as [Hi|Hi]; [discriminate|]. apply Hi. apply H3; [exact Hc|].
      eapply (good_unsep E1 E2 disjoint (fun p q => gen p q <> [])); [eassumption..|]. rewrite Eg. discriminate. }
    clear - Hall. induction rest as [|p l IH]; [reflexivity|]. cbn. rewrite Hall by (left; reflexivity).
    apply IH. intros q Hq. apply Hall. right. exact Hq. }
  rewrite Hz, app_nil_r. reflexivity.
Qed.
Print Assumptions contact_limit.

Definition available {C} (gen : nat -> nat -> list C) (t1 t2 : btree) : nat :=
  list_sum (map (fun pq => length (gen (fst pq) (snd pq))) (list_prod (tleaves t1) (tleaves t2))).

(** In numbers: starting from an empty result, min(max, available) contacts are
    found, so a collision is reported iff one exists as soon as [1 <= max]. *)
Theorem contact_count : forall BV size (E1 E2 : BV -> nat -> Prop) (disjoint : BV -> BV -> bool)
  C max cost (gen : nat -> nat -> list C) b1 b2 t1 t2 fuel,
  good E1 b1 t1 0 -> good E2 b2 t2 0 -> tid t1 = 0 -> tid t2 = 0 -> NoDup (tids t1) -> NoDup (tids t2) ->
  (forall v1 v2 p q, E1 v1 p -> E2 v2 q -> gen p q <> [] -> disjoint v1 v2 = false) ->
  2 * (length (lids t1) * length (lids t2)) <= fuel ->
  exists R, collide_node (mesh_iface size b1 b2) (on_bvs true disjoint b1 b2) (list C)
      (leaf_contacts C max gen (primn b1) (primn b2)) (satisfied C max cost) fuel None [] = Some (None, R) /\
    length R = Nat.min max (available gen t1 t2) /\
    (1 <= max -> (R <> [] <-> exists p q, In p (tleaves t1) /\ In q (tleaves t2) /\ gen p q <> [])).
Proof.
  intros BV size E1 E2 disjoint C max cost gen b1 b2 t1 t2 fuel G1 G2 Z1 Z2 N1 N2 Hd Hf.
  destruct (contact_limit BV size E1 E2 disjoint C max cost gen b1 b2 t1 t2 fuel) as (pairs & HP & R); try assumption.
  eexists. split; [apply R|]. cbn [app length]. rewrite Nat.sub_0_r.
  assert (Hlen : forall l, length (flat_map (fun pq => gen (fst pq) (snd pq)) l) =
      list_sum (map (fun pq : nat * nat => length (gen (fst pq) (snd pq))) l)).
  { clear. induction l as [|p l IH]; [reflexivity|]. cbn [flat_map map]. rewrite app_length, IH. reflexivity. }
  assert (Hav : length (flat_map (fun pq => gen (fst pq) (snd pq)) pairs) = available gen t1 t2).
  { rewrite Hlen. unfold available. apply (Permutation_map (fun pq => length (gen (fst pq) (snd pq)))) in HP.
    clear - HP. unfold list_sum. induction HP; cbn [fold_right]; lia. }
  split; [rewrite firstn_length, Hav; reflexivity|].
  intros Hm. destruct max as [|max]; [lia|]. split.
  - intros Hne. destruct (flat_map (fun pq => gen (fst pq) (snd pq)) pairs) as [|c cs] eqn:Ef; [exfalso; apply Hne; reflexivity|].
    assert (Hc : In c (flat_map (fun pq => gen (fst pq) (snd pq)) pairs)) by (rewrite Ef; left; reflexivity).
    apply in_flat_map in Hc. destruct Hc as ([p q] & Hpq & Hc). cbn in Hc.
    apply (Permutation_in _ HP) in Hpq. apply in_prod_iff in Hpq. exists p, q. split; [tauto|]. split; [tauto|].
    intros E. rewrite E in Hc. contradiction.
  - intros (p & q & Hp & Hq & Hg) E.
    assert (Hpq : In (p, q) pairs).
    { apply (Permutation_in _ (Permutation_sym HP)). apply in_prod_iff. auto. }
    destruct (gen p q) as [|c cs] eqn:Eg; [congruence|].
    assert (Hc : In c (flat_map (fun pq => gen (fst pq) (snd pq)) pairs)).
    { apply in_flat_map. exists (p, q). split; [exact Hpq|]. cbn. rewrite Eg. left. reflexivity. }
    destruct (flat_map (fun pq => gen (fst pq) (snd pq)) pairs); [contradiction|discriminate].
Qed.
Print Assumptions contact_count.

(** Whatever is in the result and whatever the front list, interface and volume
    test: a result within the limit stays within the limit. *)
Theorem contact_never_exceeds : forall n bvt C max cost (gen : nat -> nat -> list C) f g fuel c0 fl fl' R,
  length c0 <= max ->
  collide_node n bvt (list C) (leaf_contacts C max gen f g) (satisfied C max cost) fuel fl c0 = Some (fl', R) ->
  length R <= max.
Proof.
  intros n bvt C max cost gen f g fuel c0 fl fl' R Hc E.
  set (lt := leaf_contacts C max gen f g) in *.
  assert (Hlt : forall i j s, length s <= max -> length (lt i j s) <= max).
  { intros i j s H. unfold lt, leaf_contacts, add_contacts. rewrite app_length, firstn_length. lia. }
  assert (Hcrec : forall fuel a b fl s fl' R, length s <= max ->
     crec n bvt (list C) lt (satisfied C max cost) fuel a b fl s = Some (fl', R) -> length R <= max).
  { clear E Hc. induction fuel0 as [|k IH]; intros a b fl0 s fl1 R0 Hs E; [discriminate|]. cbn [crec] in E.
    destruct (leaf1 n a && leaf2 n b); [destruct (bvt a b); injection E as <- <-; auto|].
    destruct (bvt a b); [injection E as <- <-; auto|].
    destruct (if over n a b then _ else _) as [[[a1 x1] a2] x2].
    destruct (crec _ _ _ _ _ k a1 x1 fl0 s) as [[f1 s1]|] eqn:E1; [|discriminate].
    pose proof (IH _ _ _ _ _ _ Hs E1) as H1.
    destruct (stop_now _ _ f1 s1); [injection E as <- <-; exact H1|eapply IH; eassumption]. }
  assert (Hprop : forall fuel rfuel todo kept app s l R, length s <= max ->
     prop_loop n bvt (list C) lt (satisfied C max cost) fuel rfuel todo kept app s = Some (l, R) -> length R <= max).
  { clear E Hc. induction fuel0 as [|k IH]; intros rfuel todo kept ap s l R0 Hs E; destruct todo as [|[a b] todo]; cbn [prop_loop] in E;
      try discriminate; try (injection E as <- <-; exact Hs).
    destruct (leaf1 n a && leaf2 n b).
    { destruct (crec _ _ _ _ _ rfuel a b (Some ap) s) as [[[f1|] s1]|] eqn:E1; try discriminate.
      eapply IH; [|exact E]. eapply Hcrec; eassumption. }
    destruct (bvt a b); [eapply IH; eassumption|].
    destruct (if over n a b then _ else _) as [[[a1 x1] a2] x2].
    destruct (crec _ _ _ _ _ rfuel a1 x1 (Some todo) s) as [[[f1|] s1]|] eqn:E1; try discriminate.
    destruct (crec _ _ _ _ _ rfuel a2 x2 (Some f1) s1) as [[[f2|] s2]|] eqn:E2; try discriminate.
    eapply IH; [|exact E]. eapply Hcrec; [|exact E2]. eapply Hcrec; eassumption. }
  destruct fl as [[|x l]|]; cbn [collide_node] in E; try (eapply Hcrec; eassumption).
  destruct (prop_loop _ _ _ _ _ fuel fuel (x :: l) [] [] c0) as [[l' s']|] eqn:E1; [|discriminate].
  injection E as <- <-. eapply Hprop; eassumption.
Qed.
Print Assumptions contact_never_exceeds.

(** *** Cases *)

(** Hierarchies over intervals of a line: four unit cells 0, 1, 2, 3 and two
    cells 2, 5. *)
Definition ex_leaf (p : nat) (lo hi : Z) : option (node (Z * Z)) := Some (Node (lo, hi) p 1 (- (Z.of_nat p + 1))%Z).
Definition ex_b1 : list (option (node (Z * Z))) :=
  [Some (Node (0, 3)%Z 0 4 1%Z); Some (Node (0, 1)%Z 0 2 3%Z); Some (Node (2, 3)%Z 2 2 5%Z);
   ex_leaf 0 0 0; ex_leaf 1 1 1; ex_leaf 2 2 2; ex_leaf 3 3 3].
Definition ex_b2 : list (option (node (Z * Z))) :=
  [Some (Node (2, 5)%Z 0 2 1%Z); ex_leaf 0 2 2; ex_leaf 1 5 5].
Definition ex_t1 := BNode 0 (BNode 1 (BLeaf 3 0) (BLeaf 4 1)) (BNode 2 (BLeaf 5 2) (BLeaf 6 3)).
Definition ex_t2 := BNode 0 (BLeaf 1 0) (BLeaf 2 1).
Definition ex_in (f : nat -> Z) (v : Z * Z) (p : nat) : Prop := (fst v <= f p <= snd v)%Z.
Definition ex_disj (a b : Z * Z) : bool := ((snd a <? fst b) || (snd b <? fst a))%Z.
Definition ex_f1 (p : nat) : Z := Z.of_nat p.
Definition ex_f2 (p : nat) : Z := if p =? 0 then 2%Z else 5%Z.
Definition ex_hit (p q : nat) : bool := Z.eqb (ex_f1 p) (ex_f2 q).

Example ex_good1 : good (ex_in ex_f1) ex_b1 ex_t1 0.
Proof.
  cbn. unfold ex_in, ex_f1.
  repeat match goal with
  | |- _ /\ _ => split
  | |- exists bv child, _ => eexists; eexists; split; [reflexivity|split; [cbn; intros p Hp; intuition (subst; cbn; lia)|cbn; auto; lia]]
  | |- True => exact I
  end.
Qed.

Example ex_good2 : good (ex_in ex_f2) ex_b2 ex_t2 0.
Proof.
  cbn. unfold ex_in, ex_f2.
  repeat match goal with
  | |- _ /\ _ => split
  | |- exists bv child, _ => eexists; eexists; split; [reflexivity|split; [cbn; intros p Hp; intuition (subst; cbn; lia)|cbn; auto; lia]]
  | |- True => exact I
  end.
Qed.

Example ex_nodup : NoDup (tids ex_t1) /\ NoDup (tids ex_t2).
Proof. cbn. split; repeat constructor; cbn; intuition discriminate. Qed.

(** The hypotheses of the theorems above hold for them, and the only pair that
    meets, (2, 0), is found. *)
Example mesh_collision_case :
  exists R, collide_node (mesh_iface (fun v => snd v - fst v)%Z ex_b1 ex_b2) (on_bvs true ex_disj ex_b1 ex_b2) (list (nat * nat))
      (fun i j s => if ex_hit (primn ex_b1 i) (primn ex_b2 j) then s ++ [(primn ex_b1 i, primn ex_b2 j)] else s)
      (fun _ => false) 16 None [] = Some (None, R) /\
    Permutation R (filter (fun pq => ex_hit (fst pq) (snd pq)) (list_prod (tleaves ex_t1) (tleaves ex_t2))) /\ R = [(2, 0)].
Proof.
  destruct (mesh_collision_exact (Z * Z) (fun v => snd v - fst v)%Z (ex_in ex_f1) (ex_in ex_f2) ex_disj ex_hit
              ex_b1 ex_b2 ex_t1 ex_t2 16) as (R & E & P); try reflexivity.
  - exact ex_good1.
  - exact ex_good2.
  - exact (proj1 ex_nodup).
  - exact (proj2 ex_nodup).
  - intros v1 v2 p q H1 H2 Hh. unfold ex_hit in Hh. apply Z.eqb_eq in Hh. unfold ex_in in *. unfold ex_disj.
    apply orb_false_iff. split; apply Z.ltb_ge; lia.
  - exists R. split; [exact E|]. split; [exact P|]. vm_compute in E. congruence.
Qed.

(** Two contacts per meeting pair and limits 1 and 5. *)
Example contact_case :
  let run max := collide_node (mesh_iface (fun v => snd v - fst v)%Z ex_b1 ex_b1) (on_bvs true ex_disj ex_b1 ex_b1) (list (nat * nat))
      (leaf_contacts _ max (fun p q => if p =? q then [(p, 0); (p, 1)] else []) (primn ex_b1) (primn ex_b1))
      (satisfied _ max false) 32 None [] in
  run 1 = Some (None, [(0, 0)]) /\ run 5 = Some (None, [(0, 0); (0, 1); (1, 0); (1, 1); (2, 0)]) /\
  available (fun p q => if p =? q then [(p, 0); (p, 1)] else []) ex_t1 ex_t1 = 8.
Proof. vm_compute. auto. Qed.

(** ** C30: distance traversal returns the minimum *)

(** The minimum of the initial value and the distances of all pairs. *)
Definition min_over (dist : nat -> nat -> Z) (m0 : Z) (ps qs : list nat) (m : Z) : Prop :=
  (m <= m0)%Z /\ (forall p q, In p ps -> In q qs -> (m <= dist p q)%Z) /\
  (m = m0 \/ exists p q, In p ps /\ In q qs /\ m = dist p q).

(** Within the tolerances: the result is the initial value or the distance of
    some pair, and no pair undercuts it by more than the absolute tolerance or by
    more than the relative tolerance [rel_p / rel_q]. *)
Definition within (abs_err rel_p rel_q : Z) (dist : nat -> nat -> Z) (m0 : Z) (ps qs : list nat) (m : Z) : Prop :=
  (m <= m0)%Z /\ (m = m0 \/ exists p q, In p ps /\ In q qs /\ m = dist p q) /\
  forall p q, In p ps -> In q qs ->
    (m <= dist p q)%Z \/ (m - abs_err <= dist p q /\ m * rel_q <= dist p q * (rel_q + rel_p))%Z.

Section MeshDistance.
Variables (BV : Type) (size : BV -> Z) (E1 E2 : BV -> nat -> Prop) (D : BV -> BV -> Z) (dist : nat -> nat -> Z).
Variables (b1 b2 : list (option (node BV))) (t1 t2 : btree).
Hypothesis G1 : good E1 b1 t1 0.
Hypothesis G2 : good E2 b2 t2 0.
Hypothesis N1 : NoDup (tids t1).
Hypothesis N2 : NoDup (tids t2).
Hypothesis Hlow : forall v1 v2 p q, E1 v1 p -> E2 v2 q -> (D v1 v2 <= dist p q)%Z.

Lemma mesh_proper : proper (mesh_iface size b1 b2) (on_bvs 0%Z D b1 b2) (fun i j => dist (primn b1 i) (primn b2 j)) t1 t2.
Proof using G1 G2 N1 N2 Hlow.
  split; [|split; [|split; [exact N1|split; [exact N2|]]]].
  - unfold shaped1. cbn. eapply good_shaped; exact G1.
  - unfold shaped2. cbn. eapply good_shaped; exact G2.
  - eapply good_lower; eassumption.
Qed.

Lemma visited_within : forall abs_err rel_p rel_q m m',
  visited (fun i j => dist (primn b1 i) (primn b2 j)) (tol_stop abs_err rel_p rel_q) (cells (t1, t2)) m m' ->
  within abs_err rel_p rel_q dist m (tleaves t1) (tleaves t2) m'.
Proof using G1 G2.
  intros abs_err rel_p rel_q m m' (L & -> & _ & HI & HV). split; [apply fold_upd_le|]. split.
  - destruct (fold_upd_in (fun i j => dist (primn b1 i) (primn b2 j)) L m) as [E|(i & j & Hi & E)]; [auto|right].
    apply HI in Hi. apply in_cells in Hi. exists (primn b1 i), (primn b2 j).
    rewrite <- (good_prim _ _ _ _ G1), <- (good_prim _ _ _ _ G2). split; [apply in_map; tauto|]. split; [apply in_map; tauto|exact E].
  - intros p q Hp Hq. rewrite <- (good_prim _ _ _ _ G1) in Hp. rewrite <- (good_prim _ _ _ _ G2) in Hq.
    apply in_map_iff in Hp. destruct Hp as (i & <- & Hi). apply in_map_iff in Hq. destruct Hq as (j & <- & Hj).
    destruct (HV i j) as [H|H]; [apply in_cells; auto| |].
    + left. apply (proj2 (fold_upd_le (fun i j => dist (primn b1 i) (primn b2 j)) L m)) in H. exact H.
    + right. unfold tol_stop in H. apply andb_true_iff in H. rewrite !Z.leb_le in H. exact H.
Qed.
End MeshDistance.

(** Both variants, any queue size, any priority queue, any non-negative
    tolerances; no assumption on the order in which children are visited. *)
Theorem mesh_distance_tolerance : forall BV size (E1 E2 : BV -> nat -> Prop) (D : BV -> BV -> Z) dist b1 b2 t1 t2 pop
  abs_err rel_p rel_q qsize fuel m,
  good E1 b1 t1 0 -> good E2 b2 t2 0 -> tid t1 = 0 -> tid t2 = 0 -> NoDup (tids t1) -> NoDup (tids t2) ->
  (forall v1 v2 p q, E1 v1 p -> E2 v2 q -> (D v1 v2 <= dist p q)%Z) -> pop_ok pop ->
  (0 < rel_q)%Z -> (0 <= rel_p)%Z ->
  4 * (length (lids t1) * length (lids t2)) <= fuel ->
  exists m', distance_node (mesh_iface size b1 b2) (on_bvs 0%Z D b1 b2) (fun i j => dist (primn b1 i) (primn b2 j))
      (tol_stop abs_err rel_p rel_q) pop qsize fuel m = Some m' /\
    within abs_err rel_p rel_q dist m (tleaves t1) (tleaves t2) m'.
Proof.
  intros BV size E1 E2 D dist b1 b2 t1 t2 pop abs_err rel_p rel_q qsize fuel m G1 G2 Z1 Z2 N1 N2 Hlow Hpop Hq Hp Hf.
  pose proof (mesh_proper BV size E1 E2 D dist b1 b2 t1 t2 G1 G2 N1 N2 Hlow) as HP.
  assert (Hw : weight (t1, t2) <= 2 * (length (lids t1) * length (lids t2))) by (unfold weight; cbn [fst snd]; lia).
  unfold distance_node. destruct (Nat.leb_spec qsize 2) as [Hs|Hs].
  - destruct (drec_spec (mesh_iface size b1 b2) (on_bvs 0%Z D b1 b2) (fun i j => dist (primn b1 i) (primn b2 j))
        (tol_stop abs_err rel_p rel_q) (mesh_over_ok size b1 b2) (tol_stop_mono _ _ _ Hq Hp) fuel t1 t2 m) as (m' & E & V);
      [lia|exact HP|].
    rewrite Z1, Z2 in E. exists m'. split; [exact E|]. eapply visited_within; eassumption.
  - destruct (dqueue_spec (mesh_iface size b1 b2) (on_bvs 0%Z D b1 b2) (fun i j => dist (primn b1 i) (primn b2 j))
        (tol_stop abs_err rel_p rel_q) pop (mesh_over_ok size b1 b2) (tol_stop_mono _ _ _ Hq Hp) Hpop qsize ltac:(lia)
        fuel [] [] t1 t2 m) as (m' & E & V).
    + change (sumw []) with 0. lia.
    + exact HP.
    + constructor.
    + cbn [flat_map]. rewrite app_nil_r. apply cells_NoDup; assumption.
    + rewrite Z1, Z2 in E. exists m'. split; [exact E|]. cbn [flat_map] in V. rewrite app_nil_r in V.
      eapply visited_within; eassumption.
Qed.
Print Assumptions mesh_distance_tolerance.

Theorem mesh_distance_exact : forall BV size (E1 E2 : BV -> nat -> Prop) (D : BV -> BV -> Z) dist b1 b2 t1 t2 pop qsize fuel m,
  good E1 b1 t1 0 -> good E2 b2 t2 0 -> tid t1 = 0 -> tid t2 = 0 -> NoDup (tids t1) -> NoDup (tids t2) ->
  (forall v1 v2 p q, E1 v1 p -> E2 v2 q -> (D v1 v2 <= dist p q)%Z) -> pop_ok pop ->
  4 * (length (lids t1) * length (lids t2)) <= fuel ->
  exists m', distance_node (mesh_iface size b1 b2) (on_bvs 0%Z D b1 b2) (fun i j => dist (primn b1 i) (primn b2 j))
      (tol_stop 0 0 1) pop qsize fuel m = Some m' /\
    min_over dist m (tleaves t1) (tleaves t2) m'.
Proof.
  intros BV size E1 E2 D dist b1 b2 t1 t2 pop qsize fuel m G1 G2 Z1 Z2 N1 N2 Hlow Hpop Hf.
  destruct (mesh_distance_tolerance BV size E1 E2 D dist b1 b2 t1 t2 pop 0 0 1 qsize fuel m) as (m' & E & A & B & C); auto; try lia.
  exists m'. split; [exact E|]. split; [exact A|]. split; [|exact B].
  intros p q Hp Hq. destruct (C p q Hp Hq); lia.
Qed.
Print Assumptions mesh_distance_exact.

(** distanceQueueRecurse itself needs room for two entries: with a queue size of
    0 or 1 it calls itself forever on any pair that is not a pair of leaves, for
    every amount of fuel.  (distance() switches to distanceRecurse for sizes up
    to 2.) *)
Theorem distance_queue_small_refuted : forall n bvd pd can_stop pop qsize fuel a b m,
  qsize <= 1 -> leaf1 n a && leaf2 n b = false -> dqueue n bvd pd can_stop pop qsize fuel [] a b m = None.
Proof. intros. apply dqueue_diverges; assumption. Qed.
Print Assumptions distance_queue_small_refuted.

(** A priority queue: take the first entry of least distance. *)
Fixpoint ex_pop (q : list (Z * (nat * nat))) : option ((Z * (nat * nat)) * list (Z * (nat * nat))) :=
  match q with
  | [] => None
  | e :: r => match ex_pop r with
              | None => Some (e, [])
              | Some (x, r') => if (fst x <? fst e)%Z then Some (x, e :: r') else Some (e, x :: r')
              end
  end.

Example ex_pop_ok : pop_ok ex_pop.
Proof.
  split; [reflexivity|]. induction q as [|e r IH]; intros H; [congruence|]. cbn [ex_pop].
  destruct r as [|e1 r1].
  { exists e, []. split; [reflexivity|]. split; [reflexivity|]. intros y [<-|[]]. lia. }
  destruct (IH ltac:(discriminate)) as (x & r' & -> & HP & Hm).
  destruct (Z.ltb_spec (fst x) (fst e)).
  - exists x, (e :: r'). split; [reflexivity|]. split; [rewrite HP; apply perm_swap|].
    intros y [<-|Hy]; [lia|auto].
  - exists e, (x :: r'). split; [reflexivity|]. split; [rewrite HP; reflexivity|].
    intros y [<-|Hy]; [lia|]. apply Hm in Hy. lia.
Qed.

(** The two example hierarchies moved 10 apart: the distance is 9 (3 to 12). *)
Example mesh_distance_case : forall qsize,
  exists m', distance_node (mesh_iface (fun v => snd v - fst v)%Z ex_b1 ex_b2)
      (on_bvs 0%Z (fun u v => fst v + 10 - snd u)%Z ex_b1 ex_b2)
      (fun i j => ex_f2 (primn ex_b2 j) + 10 - ex_f1 (primn ex_b1 i))%Z (tol_stop 0 0 1) ex_pop qsize 32 1000 = Some m' /\
    min_over (fun p q => ex_f2 q + 10 - ex_f1 p)%Z 1000 [0; 1; 2; 3] [0; 1] m' /\ m' = 9%Z.
Proof.
  intros qsize.
  destruct (mesh_distance_exact (Z * Z) (fun v => snd v - fst v)%Z (ex_in ex_f1) (ex_in ex_f2) (fun u v => fst v + 10 - snd u)%Z
     (fun p q => ex_f2 q + 10 - ex_f1 p)%Z ex_b1 ex_b2 ex_t1 ex_t2 ex_pop qsize 32 1000%Z) as (m' & E & H); try reflexivity.
  - exact ex_good1.
  - exact ex_good2.
  - exact (proj1 ex_nodup).
  - exact (proj2 ex_nodup).
  - intros v1 v2 p q H1 H2. unfold ex_in in *. lia.
  - exact ex_pop_ok.
  - exists m'. split; [exact E|]. split; [exact H|]. destruct H as (_ & Hm & [->|(p & q & Hp & Hq & ->)]).
    + specialize (Hm 3 0 ltac:(cbn; auto) ltac:(cbn; auto)). cbn in Hm. lia.
    + specialize (Hm 3 0 ltac:(cbn; auto) ltac:(cbn; auto)). unfold ex_f1, ex_f2 in *. cbn in Hm, Hp, Hq.
      destruct Hp as [<-|[<-|[<-|[<-|[]]]]]; destruct Hq as [<-|[<-|[]]]; cbn in *; lia.
Qed.

(** ** C31: front lists *)

Notation log := (list (nat * nat)).
Definition log_test (i j : nat) (s : log) : log := s ++ [(i, j)].

(** A sequence of queries on the same hierarchies, each with the volumes of its
    time; every query is started with an empty result and the front list the
    previous one left.  Returned: the primitive tests of each query. *)
Fixpoint frames (n : iface) (fuel : nat) (bvts : list (nat -> nat -> bool)) (fl : list (nat * nat)) : option (list log) :=
  match bvts with
  | [] => Some []
  | bvt :: rest =>
      match collide_node n bvt log log_test (fun _ => false) fuel (Some fl) [] with
      | Some (Some fl', s) => option_map (cons s) (frames n fuel rest fl')
      | _ => None
      end
  end.

Lemma tests_log : forall L s, tests log log_test L s = s ++ L.
Proof.
  induction L as [|[i j] L IH]; intros s; [cbn; rewrite app_nil_r; reflexivity|].
  change (tests log log_test ((i, j) :: L) s) with (tests log log_test L (log_test i j s)). rewrite IH. unfold log_test.
  rewrite <- app_assoc. reflexivity.
Qed.

(** The tests of one query are right for the volumes of its time. *)
Definition right_log (bvt : nat -> nat -> bool) (t1 t2 : btree) (s : log) : Prop :=
  (forall i j, In (i, j) s -> In i (lids t1) /\ In j (lids t2) /\ bvt i j = false) /\
  (forall i j, In i (lids t1) -> In j (lids t2) -> unsep bvt t1 t2 i j -> In (i, j) s) /\
  (forall x, count_occ dec2 s x <= 2).

Lemma front_step : forall n bvt t1 t2 fuel S (lt : nat -> nat -> S -> S) cs F s,
  over_ok n -> shaped1 n t1 -> shaped2 n t2 -> NoDup (tids t1) -> NoDup (tids t2) ->
  2 * (length (lids t1) * length (lids t2)) <= fuel -> is_front t1 t2 F ->
  exists F' T, prop_loop n bvt S lt cs fuel fuel (map ids F) [] [] s = Some (map ids F', tests S lt T s) /\
    is_front t1 t2 F' /\ right_log bvt t1 t2 T.
Proof.
  intros n bvt t1 t2 fuel S lt cs F s Ho H1 H2 N1 N2 Hf [F1 F2].
  assert (Hlc : length (cells (t1, t2)) = length (lids t1) * length (lids t2)).
  { unfold cells. cbn [fst snd]. apply prod_length. }
  destruct (prop_spec n bvt S lt cs t1 t2 Ho H1 H2 N1 N2 fuel ltac:(unfold weight; cbn [fst snd]; lia)
              F [] fuel [] [] s F1) as (K & A & T & E & I & P & [T1 T2] & O).
  - intros u v [].
  - intros u v [].
  - pose proof (length_flat_cells F). rewrite (Permutation_length F2), Hlc in *. cbn [length]. lia.
  - rewrite app_nil_r in *. cbn [app] in E. exists (K ++ A), T. split; [rewrite map_app; exact E|].
    assert (HPc : forall x, In x (flat_map cells F) <-> In x (cells (t1, t2))).
    { intros x. split; apply Permutation_in; [exact F2|symmetry; exact F2]. }
    split. { split; [exact I|]. rewrite P. exact F2. }
    split.
    { intros i j H. apply T1 in H. rewrite HPc, in_cells in H. tauto. }
    split.
    { intros i j Hi Hj Hu. apply T2; [apply HPc, in_cells; auto|exact Hu]. }
    intros x. specialize (O x). cbn [flat_map count_occ] in O. rewrite (proj1 (Permutation_count_occ dec2 _ _) F2 x) in O.
    pose proof (proj1 (NoDup_count_occ dec2 _) (cells_NoDup t1 t2 N1 N2) x). lia.
Qed.

Lemma front_nonempty : forall t1 t2 F, is_front t1 t2 F -> F <> [].
Proof.
  intros t1 t2 F [_ H] ->. apply Permutation_length in H. unfold cells in H. cbn [fst snd flat_map length] in H.
  rewrite prod_length in H. pose proof (prod_pos t1 t2). lia.
Qed.

(** For every sequence of volume configurations of two hierarchies: no query
    loses a pair whose volumes overlap all the way up at its time, none performs
    the test of a pair whose volumes are disjoint, and no test is performed more
    than twice. *)
Theorem front_list_complete : forall n t1 t2 fuel bvts,
  over_ok n -> shaped1 n t1 -> shaped2 n t2 -> NoDup (tids t1) -> NoDup (tids t2) -> tid t1 = 0 -> tid t2 = 0 ->
  2 * (length (lids t1) * length (lids t2)) <= fuel ->
  exists logs, frames n fuel bvts [] = Some logs /\ Forall2 (fun bvt s => right_log bvt t1 t2 s) bvts logs.
Proof.
  intros n t1 t2 fuel bvts Ho H1 H2 N1 N2 Z1 Z2 Hf.
  assert (Hnext : forall bvts F, is_front t1 t2 F ->
     exists logs, frames n fuel bvts (map ids F) = Some logs /\ Forall2 (fun bvt s => right_log bvt t1 t2 s) bvts logs).
  { clear bvts. induction bvts as [|bvt rest IH]; intros F HF; [exists []; split; [reflexivity|constructor]|].
    destruct (front_step n bvt t1 t2 fuel log log_test (fun _ => false) F []) as (F' & T & E & HF' & HR); try assumption.
    destruct (IH F' HF') as (logs & El & Hl). exists (T :: logs). cbn [frames].
    pose proof (front_nonempty _ _ _ HF) as Hne. destruct F as [|e F]; [congruence|]. cbn [map] in *. cbn [collide_node].
    rewrite E, tests_log, El. split; [reflexivity|constructor; assumption]. }
  destruct bvts as [|bvt rest]; [exists []; split; [reflexivity|constructor]|].
  destruct (crec_spec n bvt log log_test (fun _ => false) Ho fuel t1 t2) as (L & F & (G1 & G2 & G3) & HF & _ & R);
    try assumption; [unfold weight; cbn [fst snd]; lia|].
  destruct (R (Some []) []) as (s' & E & ->). rewrite Z1, Z2 in E. cbn [option_map app] in E. rewrite tests_log in E.
  destruct (Hnext rest F HF) as (logs & El & Hl). exists (L :: logs). cbn [frames collide_node]. rewrite E, El.
  split; [reflexivity|]. constructor; [|exact Hl]. split.
  { intros i j H. apply G2 in H. rewrite in_cells in H. tauto. }
  split; [intros i j Hi Hj Hu; apply G3; [apply in_cells; auto|exact Hu]|].
  intros x. pose proof (proj1 (NoDup_count_occ dec2 _) G1 x). cbn [app]. lia.
Qed.
Print Assumptions front_list_complete.

(** Twice does happen: when a separated pair of inner nodes comes to overlap, its
    new entries are appended to the list being traversed, reached again, and
    their pairs of leaves tested a second time.  With contacts switched on, the
    contact of the pair is reported twice. *)
Theorem front_list_once_refuted : exists n t1 t2 bvta bvtb,
  over_ok n /\ shaped1 n t1 /\ shaped2 n t2 /\ NoDup (tids t1) /\ NoDup (tids t2) /\ tid t1 = 0 /\ tid t2 = 0 /\
  frames n 32 [bvta; bvtb] [] = Some [[]; [(1, 1); (1, 1)]].
Proof.
  exists (mesh_iface (fun v => snd v - fst v)%Z ex_b2 ex_b2), ex_t2, ex_t2, (fun _ _ => true),
    (fun i j => negb ((i <=? 1) && (j <=? 1))).
  split; [apply mesh_over_ok|]. split; [unfold shaped1; cbn; auto 10|]. split; [unfold shaped2; cbn; auto 10|].
  destruct ex_nodup as [_ H]. split; [exact H|]. split; [exact H|]. split; [reflexivity|]. split; [reflexivity|].
  vm_compute. reflexivity.
Qed.
Print Assumptions front_list_once_refuted.

Theorem front_list_contact_refuted :
  let run fl := collide_node (mesh_iface (fun v => snd v - fst v)%Z ex_b2 ex_b2) (on_bvs true ex_disj ex_b2 ex_b2) (list (nat * nat))
      (leaf_contacts _ 10 (fun p q => if p =? q then [(p, q)] else []) (primn ex_b2) (primn ex_b2)) (satisfied _ 10 false) 32 fl [] in
  run None = Some (None, [(0, 0); (1, 1)]) /\
  match run (Some [(0, 0)]) with Some (_, R) => R = [(0, 0); (1, 1); (0, 0); (1, 1)] | None => False end.
Proof. vm_compute. auto. Qed.
Print Assumptions front_list_contact_refuted.

(** Three frames of the two example hierarchies: apart, touching, apart. *)
Example front_list_case :
  let n := mesh_iface (fun v => snd v - fst v)%Z ex_b1 ex_b2 in
  match frames n 16 [fun _ _ => true; on_bvs true ex_disj ex_b1 ex_b2; fun i j => (i =? 5)] [] with
  | Some [a; b; c] => a = [] /\ In (5, 1) b /\ Forall (fun p => fst p <> 5) c
  | _ => False
  end.
Proof. vm_compute. repeat split; auto; repeat constructor; discriminate. Qed.

(** ** C32: self-collision *)

Theorem self_collision : forall n bvt S (leaf_test : nat -> nat -> S -> S) can_stop t fuel,
  over_ok n -> shaped1 n t -> shaped2 n t -> NoDup (tids t) ->
  2 * (length (lids t) * length (lids t)) <= fuel ->
  exists L, NoDup L /\
    (forall i j, In (i, j) L -> In i (lids t) /\ In j (lids t) /\ i <> j /\ bvt i j = false /\ ~ In (j, i) L) /\
    (forall i j, In i (lids t) -> In j (lids t) -> i <> j -> unsep bvt t t i j -> unsep bvt t t j i ->
       In (i, j) L \/ In (j, i) L) /\
    forall s, exists P Q, L = P ++ Q /\
      srec n bvt S leaf_test can_stop fuel (tid t) None s =
        Some (None, fold_left (fun s p => leaf_test (fst p) (snd p) s) P s) /\
      (Q = [] \/ can_stop (fold_left (fun s p => leaf_test (fst p) (snd p) s) P s) = true).
Proof.
  intros n bvt S leaf_test can_stop t fuel Ho H1 H2 N Hf.
  destruct (srec_spec n bvt S leaf_test can_stop Ho fuel t) as (L & F & (G1 & G2 & G3) & _ & _ & _ & R); try assumption.
  { unfold weight. cbn [fst snd]. lia. }
  exists L. split; [exact G1|]. split.
  { intros i j H. pose proof (G2 _ _ H) as [Hs Hb]. pose proof (spairs_in _ _ _ Hs) as [Hi Hj].
    assert (Hne : i <> j) by (intros <-; eapply spairs_irrefl; eassumption).
    split; [exact Hi|]. split; [exact Hj|]. split; [exact Hne|]. split; [exact Hb|].
    intros H'. apply G2 in H'. destruct H' as [H' _]. apply (proj2 (spairs_one t N i j Hi Hj Hne)). auto. }
  split.
  { intros i j Hi Hj Hne Hu Hu'. destruct (proj1 (spairs_one t N i j Hi Hj Hne)) as [H|H]; [left|right]; apply G3; assumption. }
  intros s. destruct (R None s) as (s' & E & P & Q & EL & -> & Hq & _). exists P, Q. auto.
Qed.
Print Assumptions self_collision.

Example self_collision_case :
  srec (mesh_iface (fun v => snd v - fst v)%Z ex_b1 ex_b1) (fun _ _ => false) log log_test (fun _ => false) 32 0 None [] =
    Some (None, [(3, 4); (5, 6); (3, 5); (4, 5); (3, 6); (4, 6)]) /\
  shaped1 (mesh_iface (fun v => snd v - fst v)%Z ex_b1 ex_b1) ex_t1.
Proof. split; [vm_compute; reflexivity|unfold shaped1; cbn; auto 10]. Qed.
