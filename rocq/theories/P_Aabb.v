(** C01, C02: properties of axis-aligned boxes (include/fcl/math/bv/AABB-inl.h). *)
From Coq Require Import ZArith List Bool Lia Permutation.
From Verif Require Import AabbZ.
Import ListNotations.
Open Scope Z_scope.

(** C01: overlap() holds exactly when the two boxes have a common point. *)
Theorem aabb_overlap_exact : forall a b, nonempty a -> nonempty b ->
  (overlap a b = true <-> exists p, in_box p a /\ in_box p b).
Proof. exact overlap_iff_share. Qed.
Print Assumptions aabb_overlap_exact.

(** C01: the test is symmetric. *)
Theorem aabb_overlap_sym : forall a b, overlap a b = overlap b a.
Proof. exact overlap_sym. Qed.
Print Assumptions aabb_overlap_sym.

(** C01: the overlap part is filled exactly when the boxes share a point, with exactly
    the common points. *)
Theorem aabb_overlap_part_exact : forall a b, nonempty a -> nonempty b ->
  match overlap_part a b with
  | Some c => (exists p, in_box p a /\ in_box p b) /\ forall p, in_box p c <-> in_box p a /\ in_box p b
  | None => forall p, ~ (in_box p a /\ in_box p b)
  end.
Proof.
  intros a b Ha Hb. pose proof (overlap_part_spec a b) as H. pose proof (aabb_overlap_exact a b Ha Hb) as E.
  destruct (overlap_part a b).
  - destruct H as [H1 H2]. split; auto. apply E; auto.
  - intros p Hp. assert (overlap a b = true) by (apply E; eauto). congruence.
Qed.
Print Assumptions aabb_overlap_part_exact.

(** C01: overlap() is the conjunction of axisOverlap over the three axes. *)
Theorem aabb_axis_overlap : forall a b,
  overlap a b = true <-> (forall i, (i < 3)%nat -> axis_overlap a b i = true).
Proof. exact axis_overlap_iff. Qed.
Print Assumptions aabb_axis_overlap.

(** Two boxes touching in a single corner satisfy the hypotheses of C01. *)
Example aabb_overlap_touching :
  let a := Box (V 0 0 0) (V 1 2 3) in let b := Box (V 1 2 3) (V 5 5 5) in
  nonempty a /\ nonempty b /\ overlap a b = true /\
  overlap a (Box (V 2 2 3) (V 5 5 5)) = false.
Proof. cbn. repeat split; try (exists (V 1 2 3); unfold in_box; cbn; lia). Qed.

(** C02: point and box containment tests mean what they say. *)
Theorem aabb_contain_exact :
  (forall a p, contain_pt a p = true <-> in_box p a) /\
  (forall a b, nonempty b -> (contain a b = true <-> subbox b a)).
Proof. split; [exact contain_pt_iff | exact contain_iff_subbox]. Qed.
Print Assumptions aabb_contain_exact.

(** C02: merging a finite sequence of boxes, starting from any box, gives a box that
    contains each of them and is contained in every box containing each of them. *)
Theorem aabb_merge_least : forall a l c,
  contain (fold_left merge l a) a = true /\
  (forall b, In b l -> contain (fold_left merge l a) b = true) /\
  (contain c a = true -> (forall b, In b l -> contain c b = true) ->
   contain c (fold_left merge l a) = true).
Proof.
  intros a l; revert a. induction l as [|x l IH]; intros a c; cbn.
  - split; [apply contain_refl|split; [intros b []|auto]].
  - destruct (IH (merge a x) c) as (H1 & H2 & H3). repeat split.
    + eapply contain_trans; [exact H1|apply merge_contains_l].
    + intros b [->|Hb]; [|auto]. eapply contain_trans; [exact H1|apply merge_contains_r].
    + intros Ha Hl. apply H3; [apply merge_least; auto|auto].
Qed.
Print Assumptions aabb_merge_least.

(** C02: the result does not depend on the order of merging. *)
Theorem aabb_merge_order : forall l1 l2 a, Permutation l1 l2 ->
  fold_left merge l1 a = fold_left merge l2 a.
Proof.
  intros l1 l2 a H; revert a; induction H; intros a; cbn; auto.
  - rewrite !merge_assoc, (merge_comm y x). reflexivity.
  - rewrite IHPermutation1. apply IHPermutation2.
Qed.
Print Assumptions aabb_merge_order.

(** C02: adding points one at a time to a default constructed box gives the least box
    around them. *)
Theorem aabb_points_least : forall M l p0, bounded M p0 -> (forall p, In p l -> bounded M p) ->
  let b := fold_left add_pt (p0 :: l) (empty_box M) in
  (forall p, In p (p0 :: l) -> in_box p b) /\
  (forall c, (forall p, In p (p0 :: l) -> in_box p c) -> subbox b c).
Proof.
  intros M l p0 H0 Hl; cbn zeta.
  assert (E : fold_left add_pt (p0 :: l) (empty_box M)
              = fold_left merge (map point_box l) (point_box p0)).
  { cbn [fold_left]. rewrite add_pt_merge, merge_empty by assumption.
    clear. generalize (point_box p0). induction l; intros q; cbn; auto. }
  rewrite E. split.
  - intros p Hp.
    assert (Hc : contain (fold_left merge (map point_box l) (point_box p0)) (point_box p) = true).
    { destruct (aabb_merge_least (point_box p0) (map point_box l) (point_box p0)) as (A & B & _).
      destruct Hp as [->|Hp]; auto. apply B. apply in_map; exact Hp. }
    rewrite contain_iff_subbox in Hc.
    + apply Hc. unfold in_box; cbn; lia.
    + exists p; unfold in_box; cbn; lia.
  - intros c Hc.
    assert (G : contain c (fold_left merge (map point_box l) (point_box p0)) = true).
    { apply aabb_merge_least.
      - apply contain_iff_subbox; [exists p0; unfold in_box; cbn; lia|].
        intros q Hq. assert (q = p0) as -> by (apply vec_ext; unfold in_box in Hq; cbn in Hq; lia).
        apply Hc; left; auto.
      - intros b Hb. apply in_map_iff in Hb as (p & <- & Hp).
        apply contain_iff_subbox; [exists p; unfold in_box; cbn; lia|].
        intros q Hq. assert (q = p) as -> by (apply vec_ext; unfold in_box in Hq; cbn in Hq; lia).
        apply Hc; right; auto. }
    apply contain_iff_subbox; [|exact G].
    exists p0. destruct (aabb_merge_least (point_box p0) (map point_box l) (point_box p0)) as (A & _).
    apply contain_iff_subbox in A; [apply A|exists p0]; unfold in_box; cbn; lia.
Qed.
Print Assumptions aabb_points_least.

(** C02: expanding by a non-negative vector only enlarges the box, and does so by exactly
    that amount on each side. *)
Theorem aabb_expand_enlarges : forall a d p q,
  0 <= vx d -> 0 <= vy d -> 0 <= vz d ->
  in_box p a ->
  (vx p - vx d <= vx q <= vx p + vx d) ->
  (vy p - vy d <= vy q <= vy p + vy d) ->
  (vz p - vz d <= vz q <= vz p + vz d) ->
  in_box q (expand a d).
Proof. intros; destruct_boxes; box_unfold; lia. Qed.
Print Assumptions aabb_expand_enlarges.

(** C02, failing part: expand(core, ratio) "expands the AABB by increasing its thickness by a
    ratio" (AABB.h), but with ratio 1 on a box equal to its core it collapses the box to the
    origin. *)
Theorem aabb_expand_ratio_refuted :
  exists a p, nonempty a /\ in_box p a /\ ~ in_box p (expand_ratio a a 1).
Proof.
  exists (Box (V 1 1 1) (V 3 3 3)), (V 2 2 2). repeat split; try (exists (V 1 1 1)); unfold in_box; cbn; lia.
Qed.
Print Assumptions aabb_expand_ratio_refuted.

Example aabb_merge_case :
  fold_left merge [Box (V 0 0 0) (V 1 1 1); Box (V (-3) 2 0) (V 0 9 0)] (point_box (V 4 4 4))
  = Box (V (-3) 0 0) (V 4 9 4).
Proof. reflexivity. Qed.
