(** C03: AABB::distance. *)
From Coq Require Import Reals Lra Psatz List.
From Verif Require Import VecR AabbDist.
Open Scope R_scope.

(** distance(other) is the least distance of a point of one box to a point of the other. *)
Theorem aabb_distance_is_min : forall a b, nonemptyR a -> nonemptyR b ->
  (forall p q, in_boxR p a -> in_boxR q b -> box_distance a b <= dist p q) /\
  (exists p q, in_boxR p a /\ in_boxR q b /\ dist p q = box_distance a b).
Proof.
  intros a b Ha Hb. split.
  - intros p q (P0 & P1 & P2) (Q0 & Q1 & Q2). unfold box_distance, dist, norm.
    apply sqrt_le_1; [|apply norm2_nonneg|].
    + pose proof (axis_d2_nonneg (c0 (lo a)) (c0 (hi a)) (c0 (lo b)) (c0 (hi b))).
      pose proof (axis_d2_nonneg (c1 (lo a)) (c1 (hi a)) (c1 (lo b)) (c1 (hi b))).
      pose proof (axis_d2_nonneg (c2 (lo a)) (c2 (hi a)) (c2 (lo b)) (c2 (hi b))). lra.
    + pose proof (axis_d2_le _ _ _ _ _ _ P0 Q0). pose proof (axis_d2_le _ _ _ _ _ _ P1 Q1).
      pose proof (axis_d2_le _ _ _ _ _ _ P2 Q2). unfold norm2, dot, vsub; cbn [c0 c1 c2]. lra.
  - apply nonemptyR_ineq in Ha as (A0 & A1 & A2). apply nonemptyR_ineq in Hb as (B0 & B1 & B2).
    destruct (axis_d2_attained _ _ _ _ A0 B0) as (p0 & q0 & ? & ? & E0).
    destruct (axis_d2_attained _ _ _ _ A1 B1) as (p1 & q1 & ? & ? & E1).
    destruct (axis_d2_attained _ _ _ _ A2 B2) as (p2 & q2 & ? & ? & E2).
    exists (mk3 p0 p1 p2), (mk3 q0 q1 q2). split; [unfold in_boxR; cbn; auto|]. split; [unfold in_boxR; cbn; auto|].
    unfold dist, norm, box_distance. f_equal. rewrite <- E0, <- E1, <- E2. unfold norm2, dot, vsub; cbn. ring.
Qed.
Print Assumptions aabb_distance_is_min.

(** It is zero exactly when the boxes share a point, and symmetric. *)
Theorem aabb_distance_zero : forall a b, nonemptyR a -> nonemptyR b ->
  (box_distance a b = 0 <-> exists p, in_boxR p a /\ in_boxR p b) /\ box_distance a b = box_distance b a.
Proof.
  intros a b Ha Hb. split; [split|].
  - intros H. destruct (aabb_distance_is_min a b Ha Hb) as [_ (p & q & Hp & Hq & E)]. rewrite H in E.
    apply dist_zero in E. subst q. eauto.
  - intros (p & Hp & Hq). apply Rle_antisym; [|apply sqrt_pos].
    destruct (aabb_distance_is_min a b Ha Hb) as [H _]. specialize (H p p Hp Hq). rewrite dist_refl in H. auto.
  - apply nonemptyR_ineq in Ha as (A0 & A1 & A2). apply nonemptyR_ineq in Hb as (B0 & B1 & B2).
    unfold box_distance. rewrite (axis_d2_sym (c0 (lo a))), (axis_d2_sym (c1 (lo a))), (axis_d2_sym (c2 (lo a))); auto.
Qed.
Print Assumptions aabb_distance_zero.

(** The two-argument form returns the same value, and its points are at that distance. *)
Theorem aabb_nearest_points_distance : forall a b,
  let '(d, p, q) := box_distance_pts a b in d = box_distance a b /\ dist p q = d.
Proof.
  intros a b. unfold box_distance_pts. split; auto.
  pose proof (axis_pq_dist (c0 (lo a)) (c0 (hi a)) (c0 (lo b)) (c0 (hi b))) as E0.
  pose proof (axis_pq_dist (c1 (lo a)) (c1 (hi a)) (c1 (lo b)) (c1 (hi b))) as E1.
  pose proof (axis_pq_dist (c2 (lo a)) (c2 (hi a)) (c2 (lo b)) (c2 (hi b))) as E2.
  destruct (axis_pq (c0 (lo a)) _ _ _), (axis_pq (c1 (lo a)) _ _ _), (axis_pq (c2 (lo a)) _ _ _). cbn [fst snd].
  unfold dist, norm, box_distance. f_equal. rewrite <- E0, <- E1, <- E2. unfold norm2, dot, vsub; cbn. ring.
Qed.
Print Assumptions aabb_nearest_points_distance.

(** On one axis, the box that starts first also ends first: neither interval reaches past
    the other's end while starting no later. *)
Definition staggered (i : nat) (a b : boxR) : Prop :=
  (comp i (lo a) <= comp i (lo b) -> comp i (hi a) <= comp i (hi b)) /\
  (comp i (lo b) < comp i (lo a) -> comp i (hi b) <= comp i (hi a)).

(** If the overlapping axes are staggered, the points belong to their boxes... *)
Theorem aabb_nearest_points_inside : forall a b, nonemptyR a -> nonemptyR b ->
  (forall i, (i < 3)%nat -> staggered i a b) ->
  let '(_, p, q) := box_distance_pts a b in in_boxR p a /\ in_boxR q b.
Proof.
  intros a b Ha Hb HN. apply nonemptyR_ineq in Ha as (A0 & A1 & A2). apply nonemptyR_ineq in Hb as (B0 & B1 & B2).
  assert (HA : forall amin amax bmin bmax, amin <= amax -> bmin <= bmax ->
    (amin <= bmin -> amax <= bmax) /\ (bmin < amin -> bmax <= amax) ->
    let (p, q) := axis_pq amin amax bmin bmax in amin <= p <= amax /\ bmin <= q <= bmax).
  { intros amin amax bmin bmax Ha Hb [N1 N2]. unfold axis_pq.
    destruct (Rgt_dec amin bmax), (Rgt_dec bmin amax), (Rge_dec bmin amin); try (repeat split; lra). }
  pose proof (HA _ _ _ _ A0 B0 (HN 0%nat ltac:(auto))) as H0.
  pose proof (HA _ _ _ _ A1 B1 (HN 1%nat ltac:(auto))) as H1.
  pose proof (HA _ _ _ _ A2 B2 (HN 2%nat ltac:(auto))) as H2.
  unfold box_distance_pts, in_boxR.
  destruct (axis_pq (c0 (lo a)) _ _ _), (axis_pq (c1 (lo a)) _ _ _), (axis_pq (c2 (lo a)) _ _ _). cbn in *. tauto.
Qed.
Print Assumptions aabb_nearest_points_inside.

(** ... but not in general: a box inside the other on every axis gets a "nearest point" outside
    itself. *)
Theorem aabb_nearest_points_refuted : exists a b, nonemptyR a /\ nonemptyR b /\
  let '(_, p, q) := box_distance_pts a b in in_boxR p a /\ ~ in_boxR q b.
Proof.
  exists (BoxR (mk3 0 0 0) (mk3 10 10 10)), (BoxR (mk3 1 1 1) (mk3 2 2 2)).
  split; [apply nonemptyR_ineq; cbn; lra|]. split; [apply nonemptyR_ineq; cbn; lra|].
  unfold box_distance_pts, in_boxR, axis_pq. cbn [lo hi c0 c1 c2].
  destruct (Rgt_dec 0 2); [lra|]. destruct (Rgt_dec 1 10); [lra|]. destruct (Rge_dec 1 0); [|lra].
  cbn [fst snd c0 c1 c2]. lra.
Qed.
Print Assumptions aabb_nearest_points_refuted.

(** Boxes three and four apart on two axes are five apart; the points returned. *)
Example aabb_distance_case :
  box_distance (BoxR (mk3 0 0 0) (mk3 1 1 1)) (BoxR (mk3 4 5 0) (mk3 6 6 1)) = 5.
Proof.
  unfold box_distance, axis_d2; cbn [lo hi c0 c1 c2].
  destruct (Rgt_dec 0 6); [lra|]. destruct (Rgt_dec 4 1); [|lra]. destruct (Rgt_dec 5 1); [|lra].
  destruct (Rgt_dec 0 1); [lra|].
  replace (0 + (1 - 4) * (1 - 4) + (1 - 5) * (1 - 5) + 0) with (5 * 5) by ring. apply sqrt_square. lra.
Qed.
