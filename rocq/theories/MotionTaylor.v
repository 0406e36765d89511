(** Taylor models of the motions and the swept box made from them: getTaylorModel of
    include/fcl/math/motion/interp_motion-inl.h, screw_motion-inl.h, spline_motion-inl.h,
    and ContinuousCollisionObject::computeAABB
    (include/fcl/narrowphase/continuous_collision_object-inl.h).  Real arithmetic. *)
From Coq Require Import Reals Lra Psatz List.
From Verif Require Import VecR Interval Taylor Motion.
Import ListNotations.
Open Scope R_scope.

(** Vectors and matrices by entries and rows, as the Taylor types hold them. *)
Definition tri_of (v : v3) : tri R := T3 (VecR.c0 v) (VecR.c1 v) (VecR.c2 v).
Definition rows (m : mat3) : tri (tri R) := tcols (T3 (tri_of (VecR.m0 m)) (tri_of (VecR.m1 m)) (tri_of (VecR.m2 m))).

(** hat (include/fcl/math/geometry-inl.h 453-456) *)
Definition hat (k : v3) : tri (tri R) :=
  T3 (T3 0 (- VecR.c2 k) (VecR.c1 k)) (T3 (VecR.c2 k) 0 (- VecR.c0 k)) (T3 (- VecR.c1 k) (VecR.c0 k) 0).
Definition ident : tri (tri R) := T3 (T3 1 0 0) (T3 0 1 0) (T3 0 0 1).

(** delta_R of getTaylorModel (interp_motion-inl.h 164-176, screw_motion-inl.h 131-143),
    on fresh models, with the library's Matrix3 * TaylorModel. *)
Definition delta_model (T : tint) (k : v3) (w : R) : tri (tri tm) :=
  tmadd_r (tmsub (rm_tm (hat k) (gen_sin T w 0 (Iv 0 0))) (rm_tm (rmm (hat k) (hat k)) (tsub_r (gen_cos T w 0) 1))) ident.
Definition lin_model (v : v3) : tri tm := T3 (gen_linear 0 (VecR.c0 v)) (gen_linear 0 (VecR.c1 v)) (gen_linear 0 (VecR.c2 v)).

(** InterpMotion::getTaylorModel (interp_motion-inl.h 162-185) *)
Definition interp_taylor (T : tint) (m : interp) : tri (tri tm) * tri tm :=
  let d := delta_model T (i_axis m) (i_ang m) in
  (tmm_r d (rows (tf_rot (i_tf1 m))),
   tvsub (tvadd_r (lin_model (i_lin m)) (tri_of (tf_apply (i_tf1 m) (i_ref m))))
         (tmv_r d (tri_of (mapply (tf_rot (i_tf1 m)) (i_ref m))))).
(** ScrewMotion::getTaylorModel (screw_motion-inl.h 129-152) *)
Definition screw_taylor (T : tint) (m : screw) : tri (tri tm) * tri tm :=
  let d := delta_model T (s_axis m) (s_ang m) in
  (tmm_r d (rows (tf_rot (s_tf1 m))),
   tvadd (tmv_r d (tri_of (tf_tr (s_tf1 m))))
         (tvadd (trvsub (tri_of (s_p m)) (tmv_r d (tri_of (s_p m)))) (lin_model (vscale (s_lin m) (s_axis m))))).
(** SplineMotion::getTaylorModel, the translation (spline_motion-inl.h 172-186), on a
    fresh vector of models. *)
Definition spline_coeffs (d : quad) : v3 * v3 * v3 * v3 :=
  (vscale (1 / 6) (vadd (vadd (vadd (q0 d) (vscale 4 (q1 d))) (q2 d)) (q3 d)),
   vscale (/ 2) (vadd (vneg (q0 d)) (q2 d)),
   vscale (/ 2) (vadd (vsub (q0 d) (vscale 2 (q1 d))) (q2 d)),
   vscale (1 / 6) (vadd (vsub (vadd (vneg (q0 d)) (vscale 3 (q1 d))) (vscale 3 (q2 d))) (q3 d))).
Definition spline_taylor (d : quad) : tri tm :=
  let '(a, b, c, e) := spline_coeffs d in
  T3 (TM (VecR.c0 a) (VecR.c0 b) (VecR.c0 c) (VecR.c0 e) (Iv 0 0))
     (TM (VecR.c1 a) (VecR.c1 b) (VecR.c1 c) (VecR.c1 e) (Iv 0 0))
     (TM (VecR.c2 a) (VecR.c2 b) (VecR.c2 c) (VecR.c2 e) (Iv 0 0)).

(** ContinuousCollisionObject::computeAABB (continuous_collision_object-inl.h 97-137):
    the hull of the tight bounds of the eight corners, in the code's order. *)
Definition corner_bound (T : tint) (r : tri (tri tm)) (v : tri tm) (p : tri R) : tri ivl := tvtight T (tvadd (tmv_r r p) v).
Definition corner_list (mn mx : tri R) : list (tri R) :=
  [T3 (e0 mn) (e1 mn) (e2 mx); T3 (e0 mn) (e1 mx) (e2 mn); T3 (e0 mn) (e1 mx) (e2 mx);
   T3 (e0 mx) (e1 mn) (e2 mn); T3 (e0 mx) (e1 mn) (e2 mx); T3 (e0 mx) (e1 mx) (e2 mn); T3 (e0 mx) (e1 mx) (e2 mx)].
Definition swept (T : tint) (r : tri (tri tm)) (v : tri tm) (mn mx : tri R) : tri ivl :=
  fold_left (fun box p => ivbound box (corner_bound T r v p)) (corner_list mn mx) (corner_bound T r v mn).
(** Entries of Rodrigues' matrix and of hat. *)
Lemma rod_11 : forall k a, e1 (e1 (rows (rodm k a))) = cos a + (1 - cos a) * (VecR.c1 k * VecR.c1 k).
Proof. intros [x y z] a. unfold rodm, rod. cbn. unfold dot. cbn. ring. Qed.
Lemma rod_22 : forall k a, e2 (e2 (rows (rodm k a))) = cos a + (1 - cos a) * (VecR.c2 k * VecR.c2 k).
Proof. intros [x y z] a. unfold rodm, rod. cbn. unfold dot. cbn. ring. Qed.
Lemma hat_12 : forall k, e2 (e1 (hat k)) = - VecR.c0 k.
Proof. reflexivity. Qed.
Lemma hat_00 : forall k, e0 (e0 (hat k)) = 0.
Proof. reflexivity. Qed.
Lemma hat_02 : forall k, e2 (e0 (hat k)) = VecR.c1 k.
Proof. reflexivity. Qed.
Lemma hat2_00 : forall k, e0 (e0 (rmm (hat k) (hat k))) = - (VecR.c1 k * VecR.c1 k + VecR.c2 k * VecR.c2 k).
Proof. intros k. transitivity (rdot (T3 0 (- VecR.c2 k) (VecR.c1 k)) (T3 0 (VecR.c2 k) (- VecR.c1 k))); [reflexivity|]. unfold rdot. cbn [e0 e1 e2]. ring. Qed.
Lemma hat2_02 : forall k, e2 (e0 (rmm (hat k) (hat k))) = VecR.c0 k * VecR.c2 k.
Proof. intros k. transitivity (rdot (T3 0 (- VecR.c2 k) (VecR.c1 k)) (T3 (VecR.c1 k) (- VecR.c0 k) 0)); [reflexivity|]. unfold rdot. cbn [e0 e1 e2]. ring. Qed.
Lemma hat2_12 : forall k, e2 (e1 (rmm (hat k) (hat k))) = VecR.c1 k * VecR.c2 k.
Proof. intros k. transitivity (rdot (T3 (VecR.c2 k) 0 (- VecR.c0 k)) (T3 (VecR.c1 k) (- VecR.c0 k) 0)); [reflexivity|]. unfold rdot. cbn [e0 e1 e2]. ring. Qed.

(** The entries of the model of a rotation. *)
Lemma delta_cols : forall H H2 S C J (p : forall A, tri A -> A), p = @e0 \/ p = @e1 \/ p = @e2 ->
  p _ (tmadd_r (tmsub (rm_tm H S) (rm_tm H2 C)) J) =
  T3 (tadd_r (tsub (tscale S (e0 (p _ H))) (tscale C (e0 (p _ H2)))) (e0 (p _ J)))
     (tadd_r (tsub (tscale S (e2 (p _ H))) (tscale C (e2 (p _ H2)))) (e1 (p _ J)))
     (tadd_r (tsub (tconst 0) (tconst 0)) (e2 (p _ J))).
Proof. intros H H2 S C J p [->|[->| ->]]; reflexivity. Qed.
Lemma tscale_0 : forall m, tscale m 0 = tconst 0.
Proof. intros m. unfold tscale, iscale, tconst. destruct (Rle_dec 0 0) as [_|N]; [|lra]. rewrite !Rmult_0_r. reflexivity. Qed.
Lemma tconst_sub : forall a b, tsub (tconst a) (tconst b) = tconst (a - b).
Proof. intros. unfold tsub, tconst, isub. cbn [k0 k1 k2 k3 rem lo hi]. rewrite !Rminus_0_r. reflexivity. Qed.
Lemma tconst_add : forall a b, tadd (tconst a) (tconst b) = tconst (a + b).
Proof. intros. unfold tadd, tconst, iadd. cbn [k0 k1 k2 k3 rem lo hi]. rewrite !Rplus_0_r. reflexivity. Qed.
Lemma tconst_add_r : forall a b, tadd_r (tconst a) b = tconst (a + b).
Proof. reflexivity. Qed.
Lemma tconst_scale : forall a b, tscale (tconst a) b = tconst (a * b).
Proof. intros. unfold tscale, iscale, tconst. cbn [k0 k1 k2 k3 rem lo hi]. destruct (Rle_dec 0 b); rewrite !Rmult_0_l; reflexivity. Qed.
Lemma inside_const : forall a t x, inside (x - tpoly (tconst a) t) (rem (tconst a)) -> x = a.
Proof. intros a t x. unfold inside, tpoly, poly, tconst. cbn [k0 k1 k2 k3 rem lo hi]. lra. Qed.
