(** AABB<S>::distance over the reals (include/fcl/math/bv/AABB-inl.h:237-315). *)
From Coq Require Import Reals Lra Psatz List.
From Verif Require Import VecR.
Open Scope R_scope.

Record boxR := BoxR { lo : v3; hi : v3 }.

(** One iteration of the loop, AABB-inl.h:295-311: the contribution to [result]. *)
Definition axis_d2 (amin amax bmin bmax : R) : R :=
  if Rgt_dec amin bmax then (bmax - amin) * (bmax - amin)
  else if Rgt_dec bmin amax then (amax - bmin) * (amax - bmin)
  else 0.
(** distance(other), AABB-inl.h:291-315. *)
Definition box_distance (a b : boxR) : R :=
  sqrt (0 + axis_d2 (c0 (lo a)) (c0 (hi a)) (c0 (lo b)) (c0 (hi b))
          + axis_d2 (c1 (lo a)) (c1 (hi a)) (c1 (lo b)) (c1 (hi b))
          + axis_d2 (c2 (lo a)) (c2 (hi a)) (c2 (lo b)) (c2 (hi b))).
(** The coordinates written to P and Q, AABB-inl.h:248-282 (both pointers non-null). *)
Definition axis_pq (amin amax bmin bmax : R) : R * R :=
  if Rgt_dec amin bmax then (amin, bmax)
  else if Rgt_dec bmin amax then (amax, bmin)
  else if Rge_dec bmin amin then (/ 2 * (amax + bmin), / 2 * (amax + bmin))
  else (/ 2 * (amin + bmax), / 2 * (amin + bmax)).
(** distance(other, P, Q), AABB-inl.h:236-287: value, *P, *Q. *)
Definition box_distance_pts (a b : boxR) : R * v3 * v3 :=
  let x := axis_pq (c0 (lo a)) (c0 (hi a)) (c0 (lo b)) (c0 (hi b)) in
  let y := axis_pq (c1 (lo a)) (c1 (hi a)) (c1 (lo b)) (c1 (hi b)) in
  let z := axis_pq (c2 (lo a)) (c2 (hi a)) (c2 (lo b)) (c2 (hi b)) in
  (box_distance a b, mk3 (fst x) (fst y) (fst z), mk3 (snd x) (snd y) (snd z)).

(** ** Specification *)
Definition in_boxR (p : v3) (b : boxR) : Prop :=
  c0 (lo b) <= c0 p <= c0 (hi b) /\ c1 (lo b) <= c1 p <= c1 (hi b) /\ c2 (lo b) <= c2 p <= c2 (hi b).
Definition nonemptyR (b : boxR) : Prop := exists p, in_boxR p b.

Lemma nonemptyR_ineq b : nonemptyR b <-> c0 (lo b) <= c0 (hi b) /\ c1 (lo b) <= c1 (hi b) /\ c2 (lo b) <= c2 (hi b).
Proof.
  split.
  - intros (p & ? & ? & ?). lra.
  - intros H. exists (lo b). unfold in_boxR. lra.
Qed.

Lemma axis_d2_le amin amax bmin bmax p q : amin <= p <= amax -> bmin <= q <= bmax ->
  axis_d2 amin amax bmin bmax <= (p - q) * (p - q).
Proof.
  intros Hp Hq. unfold axis_d2. destruct (Rgt_dec amin bmax) as [H|H]; [|destruct (Rgt_dec bmin amax) as [H'|H']].
  - assert (0 <= amin - bmax <= p - q) by lra. nra.
  - assert (0 <= bmin - amax <= q - p) by lra. nra.
  - apply Rle_0_sqr.
Qed.
Lemma axis_d2_nonneg amin amax bmin bmax : 0 <= axis_d2 amin amax bmin bmax.
Proof.
  unfold axis_d2. destruct (Rgt_dec amin bmax); [|destruct (Rgt_dec bmin amax)]; [| |lra];
    apply Rle_0_sqr.
Qed.
Lemma axis_d2_attained amin amax bmin bmax : amin <= amax -> bmin <= bmax ->
  exists p q, amin <= p <= amax /\ bmin <= q <= bmax /\ (p - q) * (p - q) = axis_d2 amin amax bmin bmax.
Proof.
  intros Ha Hb. unfold axis_d2. destruct (Rgt_dec amin bmax) as [H|H].
  - exists amin, bmax. split; [lra|]. split; [lra|]. ring.
  - destruct (Rgt_dec bmin amax) as [H'|H'].
    + exists amax, bmin. split; [lra|]. split; [lra|]. ring.
    + exists (Rmax amin bmin), (Rmax amin bmin). unfold Rmax. destruct (Rle_dec amin bmin); split; try lra; split; try lra; ring.
Qed.
Lemma axis_d2_zero amin amax bmin bmax : axis_d2 amin amax bmin bmax = 0 <-> amin <= bmax /\ bmin <= amax.
Proof.
  unfold axis_d2. destruct (Rgt_dec amin bmax) as [H|H]; [|destruct (Rgt_dec bmin amax) as [H'|H']].
  - split; [|lra]. intros E. apply Rsqr_0_uniq in E. lra.
  - split; [|lra]. intros E. apply Rsqr_0_uniq in E. lra.
  - split; intros; [lra|auto].
Qed.
Lemma axis_d2_sym amin amax bmin bmax : amin <= amax -> bmin <= bmax ->
  axis_d2 amin amax bmin bmax = axis_d2 bmin bmax amin amax.
Proof. intros Ha Hb. unfold axis_d2. destruct (Rgt_dec amin bmax), (Rgt_dec bmin amax); try lra. Qed.
Lemma axis_pq_dist amin amax bmin bmax : let (p, q) := axis_pq amin amax bmin bmax in
  (p - q) * (p - q) = axis_d2 amin amax bmin bmax.
Proof.
  unfold axis_pq, axis_d2. destruct (Rgt_dec amin bmax), (Rgt_dec bmin amax), (Rge_dec bmin amin); ring.
Qed.
