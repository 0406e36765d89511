(** Real 3-vectors and 3x3 matrices: the mathematics of Eigen's Vector3<S> and Matrix3<S>
    (include/fcl/common/types.h) without rounding. *)
From Coq Require Import Reals Lra Psatz List.
Import ListNotations.
Open Scope R_scope.

Record v3 := mk3 { c0 : R; c1 : R; c2 : R }.
Definition vzero := mk3 0 0 0.
Definition vadd (a b : v3) := mk3 (c0 a + c0 b) (c1 a + c1 b) (c2 a + c2 b).
Definition vsub (a b : v3) := mk3 (c0 a - c0 b) (c1 a - c1 b) (c2 a - c2 b).
Definition vneg (a : v3) := mk3 (- c0 a) (- c1 a) (- c2 a).
Definition vscale (k : R) (a : v3) := mk3 (k * c0 a) (k * c1 a) (k * c2 a).
Definition dot (a b : v3) := c0 a * c0 b + c1 a * c1 b + c2 a * c2 b.
Definition cross (a b : v3) :=
  mk3 (c1 a * c2 b - c2 a * c1 b) (c2 a * c0 b - c0 a * c2 b) (c0 a * c1 b - c1 a * c0 b).
Definition norm2 (a : v3) := dot a a.
Definition norm (a : v3) := sqrt (norm2 a).
Definition dist (a b : v3) := norm (vsub a b).
(** Component access v[i], i in {0,1,2}. *)
Definition comp (i : nat) (v : v3) : R := match i with 0%nat => c0 v | 1%nat => c1 v | _ => c2 v end.

(** Column matrices: m0, m1, m2 are the columns. *)
Record mat3 := mkm { m0 : v3; m1 : v3; m2 : v3 }.
Definition col (i : nat) (m : mat3) : v3 := match i with 0%nat => m0 m | 1%nat => m1 m | _ => m2 m end.
Definition mapply (m : mat3) (v : v3) : v3 :=
  vadd (vscale (c0 v) (m0 m)) (vadd (vscale (c1 v) (m1 m)) (vscale (c2 v) (m2 m))).
(** Transpose times vector. *)
Definition mtapply (m : mat3) (v : v3) : v3 := mk3 (dot (m0 m) v) (dot (m1 m) v) (dot (m2 m) v).
Definition mmul (a b : mat3) : mat3 := mkm (mapply a (m0 b)) (mapply a (m1 b)) (mapply a (m2 b)).
Definition mid : mat3 := mkm (mk3 1 0 0) (mk3 0 1 0) (mk3 0 0 1).
(** Orthonormal columns. *)
Definition ortho (m : mat3) : Prop :=
  dot (m0 m) (m0 m) = 1 /\ dot (m1 m) (m1 m) = 1 /\ dot (m2 m) (m2 m) = 1 /\
  dot (m0 m) (m1 m) = 0 /\ dot (m0 m) (m2 m) = 0 /\ dot (m1 m) (m2 m) = 0.
Definition det (m : mat3) : R := dot (m0 m) (cross (m1 m) (m2 m)).

(** Rigid transforms, Transform3<S> restricted to isometries. *)
Record tf := mktf { tf_rot : mat3; tf_tr : v3 }.
Definition tf_apply (t : tf) (v : v3) : v3 := vadd (mapply (tf_rot t) v) (tf_tr t).
(** Inverse of an isometry. *)
Definition tf_inv_apply (t : tf) (v : v3) : v3 := mtapply (tf_rot t) (vsub v (tf_tr t)).

Ltac vunf := unfold dist, norm, norm2, tf_apply, tf_inv_apply, mapply, mtapply, mmul, mid, ortho, det, comp, dot, cross,
  vadd, vsub, vneg, vscale, vzero in *; cbn [c0 c1 c2 m0 m1 m2 tf_rot tf_tr] in *.
Ltac vdestr := repeat match goal with
  | t : tf |- _ => destruct t as [? ?]
  | m : mat3 |- _ => destruct m as [? ? ?]
  | v : v3 |- _ => destruct v as [? ? ?] end.
Ltac vring := intros; vdestr; vunf; try (f_equal; ring); try ring.

Lemma v3_ext a b : c0 a = c0 b -> c1 a = c1 b -> c2 a = c2 b -> a = b.
Proof. destruct a, b; cbn; intros; subst; auto. Qed.

Lemma dot_comm a b : dot a b = dot b a. Proof. vring. Qed.
Lemma dot_add_l a b c : dot (vadd a b) c = dot a c + dot b c. Proof. vring. Qed.
Lemma dot_add_r a b c : dot a (vadd b c) = dot a b + dot a c. Proof. vring. Qed.
Lemma dot_sub_l a b c : dot (vsub a b) c = dot a c - dot b c. Proof. vring. Qed.
Lemma dot_sub_r a b c : dot a (vsub b c) = dot a b - dot a c. Proof. vring. Qed.
Lemma dot_scale_l k a b : dot (vscale k a) b = k * dot a b. Proof. vring. Qed.
Lemma dot_scale_r k a b : dot a (vscale k b) = k * dot a b. Proof. vring. Qed.
Lemma dot_neg_l a b : dot (vneg a) b = - dot a b. Proof. vring. Qed.
Lemma dot_neg_r a b : dot a (vneg b) = - dot a b. Proof. vring. Qed.
Lemma vsub_self a : vsub a a = vzero. Proof. vring. Qed.
Lemma norm2_nonneg a : 0 <= norm2 a. Proof. vdestr; vunf; nra. Qed.
Lemma norm2_zero a : norm2 a = 0 -> a = vzero.
Proof. destruct a as [x y z]. vunf. intros H. assert (x = 0) by nra. assert (y = 0) by nra. assert (z = 0) by nra. subst; auto. Qed.
Lemma norm_nonneg a : 0 <= norm a. Proof. apply sqrt_pos. Qed.
Lemma norm_sq a : norm a * norm a = norm2 a. Proof. apply sqrt_sqrt, norm2_nonneg. Qed.
Lemma norm_zero a : norm a = 0 -> a = vzero.
Proof. intros H. apply norm2_zero. rewrite <- norm_sq, H. ring. Qed.
Lemma norm_pos a : a <> vzero -> 0 < norm a.
Proof. intros H. destruct (norm_nonneg a) as [L|L]; auto. symmetry in L. apply norm_zero in L. contradiction. Qed.
Lemma norm_vzero : norm vzero = 0.
Proof. unfold norm. replace (norm2 vzero) with 0 by vring. apply sqrt_0. Qed.
Lemma norm2_scale k a : norm2 (vscale k a) = k * k * norm2 a. Proof. vring. Qed.
Lemma norm_scale k a : norm (vscale k a) = Rabs k * norm a.
Proof.
  unfold norm. rewrite norm2_scale, sqrt_mult; [|nra|apply norm2_nonneg].
  f_equal. rewrite <- sqrt_Rsqr_abs. reflexivity.
Qed.
Lemma norm2_neg a : norm2 (vneg a) = norm2 a. Proof. vring. Qed.
Lemma norm_neg a : norm (vneg a) = norm a. Proof. unfold norm. rewrite norm2_neg; auto. Qed.
Lemma norm2_sub_sym a b : norm2 (vsub a b) = norm2 (vsub b a). Proof. vring. Qed.
Lemma dist_sym a b : dist a b = dist b a. Proof. unfold dist, norm. rewrite norm2_sub_sym; auto. Qed.
Lemma dist_refl a : dist a a = 0. Proof. unfold dist. rewrite vsub_self. apply norm_vzero. Qed.
Lemma dist_nonneg a b : 0 <= dist a b. Proof. apply norm_nonneg. Qed.
Lemma dist_zero a b : dist a b = 0 -> a = b.
Proof. intros H. apply norm_zero in H. destruct a, b. unfold vsub, vzero in H. cbn in H. injection H as H0 H1 H2. f_equal; lra. Qed.

(** x^2 <= y^2 with y >= 0 *)
Lemma sq_le x y : 0 <= y -> x * x <= y * y -> x <= y. Proof. intros. nra. Qed.
Lemma norm_le_sq a k : 0 <= k -> (norm a <= k <-> norm2 a <= k * k).
Proof. intros Hk. rewrite <- norm_sq. pose proof (norm_nonneg a). split; intros; nra. Qed.
Lemma norm_ge_sq a k : 0 <= k -> (k <= norm a <-> k * k <= norm2 a).
Proof. intros Hk. rewrite <- norm_sq. pose proof (norm_nonneg a). split; intros; nra. Qed.
Lemma norm_mono a b : norm2 a <= norm2 b -> norm a <= norm b.
Proof. intros H. apply sqrt_le_1; auto using norm2_nonneg. Qed.

(** Lagrange's identity gives Cauchy-Schwarz. *)
Lemma lagrange a b : dot a b * dot a b + norm2 (cross a b) = norm2 a * norm2 b. Proof. vring. Qed.
Lemma cauchy_schwarz a b : dot a b <= norm a * norm b.
Proof.
  apply sq_le; [apply Rmult_le_pos; apply norm_nonneg|].
  replace (norm a * norm b * (norm a * norm b)) with ((norm a * norm a) * (norm b * norm b)) by ring.
  rewrite !norm_sq, <- (lagrange a b). pose proof (norm2_nonneg (cross a b)). lra.
Qed.
Lemma cauchy_schwarz_abs a b : Rabs (dot a b) <= norm a * norm b.
Proof.
  apply Rabs_le. split; [|apply cauchy_schwarz].
  pose proof (cauchy_schwarz (vneg a) b) as H. rewrite norm_neg, dot_neg_l in H. lra.
Qed.
Lemma norm_triangle a b : norm (vadd a b) <= norm a + norm b.
Proof.
  apply norm_le_sq; [pose proof (norm_nonneg a); pose proof (norm_nonneg b); lra|].
  replace (norm2 (vadd a b)) with (norm2 a + norm2 b + 2 * dot a b) by vring.
  rewrite <- !norm_sq. pose proof (cauchy_schwarz a b). nra.
Qed.
Lemma dist_triangle a b c : dist a c <= dist a b + dist b c.
Proof. unfold dist. replace (vsub a c) with (vadd (vsub a b) (vsub b c)) by vring. apply norm_triangle. Qed.
Lemma norm_sub_ge a b : norm a - norm b <= norm (vsub a b).
Proof. pose proof (norm_triangle (vsub a b) b) as H. replace (vadd (vsub a b) b) with a in H by vring. lra. Qed.
Lemma comp_le_norm i a : Rabs (comp i a) <= norm a.
Proof.
  apply Rabs_le. assert (H : comp i a * comp i a <= norm2 a) by (destruct i as [|[|i]]; vdestr; vunf; nra).
  rewrite <- norm_sq in H. pose proof (norm_nonneg a). split; nra.
Qed.

(** Unit vectors. *)
Definition unit (a : v3) : Prop := norm2 a = 1.
Lemma unit_norm a : unit a -> norm a = 1.
Proof. intros H. unfold norm. rewrite H. apply sqrt_1. Qed.
Lemma normalize_unit a : a <> vzero -> unit (vscale (/ norm a) a).
Proof.
  intros H. unfold unit. rewrite norm2_scale, <- norm_sq. pose proof (norm_pos a H). field. lra.
Qed.

(** Orthonormal matrices preserve dot products. *)
Lemma mapply_dot m a b : ortho m -> dot (mapply m a) (mapply m b) = dot a b.
Proof.
  intros (H0 & H1 & H2 & H01 & H02 & H12). unfold mapply.
  repeat rewrite ?dot_add_l, ?dot_add_r, ?dot_scale_l, ?dot_scale_r.
  rewrite H0, H1, H2, H01, H02, H12, (dot_comm (m1 m) (m0 m)), (dot_comm (m2 m) (m0 m)), (dot_comm (m2 m) (m1 m)), H01, H02, H12.
  unfold dot. ring.
Qed.
Lemma mapply_sub m a b : mapply m (vsub a b) = vsub (mapply m a) (mapply m b). Proof. vring. Qed.
Lemma mapply_add m a b : mapply m (vadd a b) = vadd (mapply m a) (mapply m b). Proof. vring. Qed.
Lemma mapply_scale m k a : mapply m (vscale k a) = vscale k (mapply m a). Proof. vring. Qed.
Lemma mapply_norm2 m a : ortho m -> norm2 (mapply m a) = norm2 a.
Proof. apply mapply_dot. Qed.
Lemma mapply_norm m a : ortho m -> norm (mapply m a) = norm a.
Proof. intros H. unfold norm. rewrite mapply_norm2; auto. Qed.
Lemma mapply_dist m a b : ortho m -> dist (mapply m a) (mapply m b) = dist a b.
Proof. intros H. unfold dist. rewrite <- mapply_sub. apply mapply_norm; auto. Qed.
Lemma mt_mapply m a : ortho m -> mtapply m (mapply m a) = a.
Proof.
  intros (H0 & H1 & H2 & H01 & H02 & H12). unfold mtapply, mapply.
  rewrite ?dot_add_r, ?dot_scale_r, H0, H1, H2, H01, H02, H12, (dot_comm (m1 m) (m0 m)), (dot_comm (m2 m) (m0 m)), (dot_comm (m2 m) (m1 m)), H01, H02, H12.
  destruct a; cbn; f_equal; ring.
Qed.
Lemma tf_dist t a b : ortho (tf_rot t) -> dist (tf_apply t a) (tf_apply t b) = dist a b.
Proof.
  intros H. unfold tf_apply, dist.
  replace (vsub (vadd (mapply (tf_rot t) a) (tf_tr t)) (vadd (mapply (tf_rot t) b) (tf_tr t)))
    with (mapply (tf_rot t) (vsub a b)) by vring.
  apply mapply_norm; auto.
Qed.
Lemma tf_inv_left t a : ortho (tf_rot t) -> tf_inv_apply t (tf_apply t a) = a.
Proof.
  intros H. unfold tf_inv_apply, tf_apply.
  replace (vsub (vadd (mapply (tf_rot t) a) (tf_tr t)) (tf_tr t)) with (mapply (tf_rot t) a) by vring.
  apply mt_mapply; auto.
Qed.

(** The columns of an orthonormal matrix span: det^2 = 1, hence m m^T = 1. *)
Lemma det_sq m : ortho m -> det m * det m = 1.
Proof.
  intros (H0 & H1 & H2 & H01 & H02 & H12).
  assert (E : det m * det m =
    dot (m0 m) (m0 m) * (dot (m1 m) (m1 m) * dot (m2 m) (m2 m) - dot (m1 m) (m2 m) * dot (m1 m) (m2 m))
    - dot (m0 m) (m1 m) * (dot (m0 m) (m1 m) * dot (m2 m) (m2 m) - dot (m1 m) (m2 m) * dot (m0 m) (m2 m))
    + dot (m0 m) (m2 m) * (dot (m0 m) (m1 m) * dot (m1 m) (m2 m) - dot (m1 m) (m1 m) * dot (m0 m) (m2 m))).
  { destruct m as [[a b c] [d e f] [g h i]]. vunf. ring. }
  rewrite E, H0, H1, H2, H01, H02, H12. ring.
Qed.
(** A vector is the sum of its components along the columns. *)
Lemma mapply_mt m a : ortho m -> mapply m (mtapply m a) = a.
Proof.
  intros HO. pose proof (det_sq m HO) as HD.
  (* Cramer: det m * (a - m m^T a) has zero dot products with all columns *)
  set (r := vsub a (mapply m (mtapply m a))).
  destruct HO as (H0 & H1 & H2 & H01 & H02 & H12).
  assert (Z0 : dot (m0 m) r = 0).
  { unfold r, mapply, mtapply. rewrite dot_sub_r, !dot_add_r, !dot_scale_r. cbn [c0 c1 c2]. rewrite H0, H01, H02. ring. }
  assert (Z1 : dot (m1 m) r = 0).
  { unfold r, mapply, mtapply. rewrite dot_sub_r, !dot_add_r, !dot_scale_r. cbn [c0 c1 c2]. rewrite H1, H12, (dot_comm (m1 m) (m0 m)), H01. ring. }
  assert (Z2 : dot (m2 m) r = 0).
  { unfold r, mapply, mtapply. rewrite dot_sub_r, !dot_add_r, !dot_scale_r. cbn [c0 c1 c2]. rewrite H2, (dot_comm (m2 m) (m0 m)), (dot_comm (m2 m) (m1 m)), H02, H12. ring. }
  assert (Cr : vscale (det m) r = vadd (vscale (dot (m0 m) r) (cross (m1 m) (m2 m)))
     (vadd (vscale (dot (m1 m) r) (cross (m2 m) (m0 m))) (vscale (dot (m2 m) r) (cross (m0 m) (m1 m))))).
  { clear. generalize r; intros [x y z]. destruct m as [[a0 b c] [d e f] [g h i]]. vunf. f_equal; ring. }
  rewrite Z0, Z1, Z2 in Cr.
  assert (R0 : r = vzero).
  { apply norm2_zero. assert (det m * det m * norm2 r = 0).
    { rewrite <- norm2_scale, Cr. vring. }
    rewrite HD in H. lra. }
  unfold r in R0. assert (A : forall u v, vsub u v = vzero -> v = u).
  { intros [? ? ?] [? ? ?] E. unfold vsub, vzero in E; cbn in E. injection E as E0 E1 E2. f_equal; lra. }
  apply A; auto.
Qed.
Lemma mt_dot m a b : ortho m -> dot (mtapply m a) (mtapply m b) = dot a b.
Proof. intros H. rewrite <- (mapply_dot m _ _ H), !mapply_mt; auto. Qed.
Lemma mt_norm2 m a : ortho m -> norm2 (mtapply m a) = norm2 a. Proof. apply mt_dot. Qed.
Lemma mt_norm m a : ortho m -> norm (mtapply m a) = norm a.
Proof. intros H. unfold norm. rewrite mt_norm2; auto. Qed.
Lemma mtapply_sub m a b : mtapply m (vsub a b) = vsub (mtapply m a) (mtapply m b). Proof. vring. Qed.
Lemma tf_inv_right t a : ortho (tf_rot t) -> tf_apply t (tf_inv_apply t a) = a.
Proof.
  intros H. unfold tf_inv_apply, tf_apply. rewrite mapply_mt by auto. vring.
Qed.
Lemma tf_inv_dist t a b : ortho (tf_rot t) -> dist (tf_inv_apply t a) (tf_inv_apply t b) = dist a b.
Proof. intros H. rewrite <- (tf_dist t) by auto. rewrite !tf_inv_right; auto. Qed.
Lemma ortho_mid : ortho mid. Proof. unfold ortho. vunf. lra. Qed.
