(** Motions of rigid bodies (include/fcl/math/motion/): screw_motion-inl.h,
    interp_motion-inl.h, translation_motion-inl.h, spline_motion-inl.h, and the motion
    bounds of triangle_motion_bound_visitor-inl.h and tbv_motion_bound_visitor-inl.h.

    Real arithmetic without rounding.  Eigen's conversions between AngleAxis,
    Quaternion and matrices are given by Rodrigues' formula [rod] (see [quat_rod]); the
    conversion of a rotation matrix to an AngleAxis is a parameter with its contract
    [aa_of]. *)
From Coq Require Import Reals Lra Psatz List.
From Verif Require Import VecR.
Import ListNotations.
Open Scope R_scope.

(** ** Rotations *)

(** Rotation by the angle a about the axis k. *)
Definition rod (k : v3) (a : R) (v : v3) : v3 :=
  vadd (vscale (cos a) v) (vadd (vscale (sin a) (cross k v)) (vscale ((1 - cos a) * dot k v) k)).
Definition rodm (k : v3) (a : R) : mat3 := mkm (rod k a (mk3 1 0 0)) (rod k a (mk3 0 1 0)) (rod k a (mk3 0 0 1)).

(** Quaternion<S>(AngleAxis(a, k)) = (cos (a/2), sin (a/2) k); Eigen rotates a vector by
    v + 2 w (u x v) + 2 u x (u x v). *)
Definition quat_apply (w : R) (u v : v3) : v3 :=
  vadd v (vadd (vscale (2 * w) (cross u v)) (vscale 2 (cross u (cross u v)))).

Lemma rodm_apply : forall k a v, mapply (rodm k a) v = rod k a v.
Proof. intros. unfold rodm, rod. generalize (cos a) (sin a). vring. Qed.
Lemma rod_0 : forall k v, rod k 0 v = v.
Proof. intros. unfold rod. rewrite cos_0, sin_0. vring. Qed.
Lemma rod_add : forall k a v w, rod k a (vadd v w) = vadd (rod k a v) (rod k a w).
Proof. intros. unfold rod. generalize (cos a) (sin a). vring. Qed.
Lemma rod_sub : forall k a v w, rod k a (vsub v w) = vsub (rod k a v) (rod k a w).
Proof. intros. unfold rod. generalize (cos a) (sin a). vring. Qed.
Lemma rod_scale : forall k a v x, rod k a (vscale x v) = vscale x (rod k a v).
Proof. intros. unfold rod. generalize (cos a) (sin a). vring. Qed.
Lemma dot_cross_l : forall k v, dot k (cross k v) = 0. Proof. vring. Qed.
Lemma cross_cross : forall k v, cross k (cross k v) = vsub (vscale (dot k v) k) (vscale (dot k k) v). Proof. vring. Qed.
Lemma rod_axis : forall k a, unit k -> rod k a k = k.
Proof.
  intros k a H. unfold unit, norm2 in H. unfold rod. rewrite H. replace (cross k k) with vzero by vring.
  generalize (cos a) (sin a). vring.
Qed.
(** The part of v across k, and its quarter turn, turn in their plane. *)
Lemma rod_cross : forall k a v, unit k -> cross k (rod k a v) =
  vadd (vscale (cos a) (cross k v)) (vscale (sin a) (vsub (vscale (dot k v) k) v)).
Proof.
  intros k a v H. unfold rod.
  replace (cross k (vadd (vscale (cos a) v) (vadd (vscale (sin a) (cross k v)) (vscale ((1 - cos a) * dot k v) k))))
    with (vadd (vscale (cos a) (cross k v)) (vscale (sin a) (cross k (cross k v)))) by (generalize (cos a) (sin a); vring).
  rewrite cross_cross. unfold unit, norm2 in H. rewrite H. f_equal. f_equal. f_equal. vring.
Qed.
Lemma rod_dot_axis : forall k a v, unit k -> dot k (rod k a v) = dot k v.
Proof.
  intros k a v H. unfold rod. rewrite !dot_add_r, !dot_scale_r, dot_cross_l. unfold unit, norm2 in H. rewrite H. ring.
Qed.
Lemma rod_plus : forall k a b v, unit k -> rod k a (rod k b v) = rod k (a + b) v.
Proof.
  intros k a b v H. unfold rod at 1. rewrite rod_cross, rod_dot_axis by assumption. unfold rod. rewrite cos_plus, sin_plus.
  generalize (cos a) (sin a) (cos b) (sin b). vring.
Qed.
Lemma rod_dot : forall k a v w, unit k -> dot (rod k a v) (rod k a w) = dot v w.
Proof.
  intros k a v w H. unfold unit, norm2 in H.
  assert (E : dot (rod k a v) (rod k a w) =
    cos a * cos a * dot v w + sin a * sin a * (dot k k * dot v w - dot k v * dot k w)
    + (1 - cos a) * (1 - cos a) * dot k v * dot k w * dot k k + 2 * cos a * (1 - cos a) * dot k v * dot k w).
  { unfold rod. generalize (cos a) (sin a). vring. }
  rewrite E, H. pose proof (sin2_cos2 a) as S. unfold Rsqr in S.
  replace (sin a * sin a) with (1 - cos a * cos a) by lra. ring.
Qed.
Lemma rodm_ortho : forall k a, unit k -> ortho (rodm k a).
Proof. intros k a H. unfold ortho, rodm. cbn [m0 m1 m2]. rewrite !rod_dot by assumption. vunf. repeat split; ring. Qed.
Lemma rodm_ortho_zero : forall k, ortho (rodm k 0).
Proof. intros k. unfold rodm. rewrite !rod_0. apply ortho_mid. Qed.
Lemma mmul_apply : forall m n v, mapply (mmul m n) v = mapply m (mapply n v).
Proof. intros m n v. unfold mmul, mapply. cbn [m0 m1 m2]. vring. Qed.
Lemma mmul_ortho : forall m n, ortho m -> ortho n -> ortho (mmul m n).
Proof. intros m n Hm (A & B & C & D & E & F). unfold ortho, mmul. cbn [m0 m1 m2]. rewrite !(mapply_dot m) by assumption. auto 10. Qed.

(** Eigen's quaternion of an angle and an axis rotates by Rodrigues' formula. *)
Lemma quat_rod : forall k a v, unit k -> quat_apply (cos (a / 2)) (vscale (sin (a / 2)) k) v = rod k a v.
Proof.
  intros k a v H. unfold quat_apply, rod.
  replace (cross (vscale (sin (a / 2)) k) (cross (vscale (sin (a / 2)) k) v))
    with (vscale (sin (a / 2) * sin (a / 2)) (cross k (cross k v))) by (generalize (sin (a / 2)); vring).
  rewrite cross_cross. unfold unit, norm2 in H. rewrite H.
  replace (cos a) with (1 - 2 * (sin (a / 2) * sin (a / 2))).
  2:{ replace a with (2 * (a / 2)) at 3 by field. rewrite cos_2a_sin. ring. }
  replace (sin a) with (2 * sin (a / 2) * cos (a / 2)).
  2:{ replace a with (2 * (a / 2)) at 3 by field. rewrite sin_2a. ring. }
  generalize (cos (a / 2)) (sin (a / 2)). vring.
Qed.

(** ** Chords *)

Lemma one_minus_cos : forall a, 2 * (1 - cos a) <= a * a.
Proof.
  intros a. replace a with (2 * (a / 2)) at 1 by field. rewrite cos_2a_sin.
  assert (P : forall x, 0 <= x -> sin x * sin x <= x * x).
  { intros x [Hx|Hx]; [|subst; rewrite sin_0; lra].
    destruct (Rle_dec x 1) as [L|L]; [|pose proof (SIN_bound x); nra].
    assert (0 < sin x) by (apply sin_gt_0; [lra|pose proof PI2_3_2; lra]). pose proof (sin_lt_x x Hx). nra. }
  destruct (Rle_dec 0 (a / 2)) as [L|L]; [specialize (P (a / 2) L); nra|].
  specialize (P (- (a / 2)) ltac:(lra)). rewrite sin_neg in P. nra.
Qed.
(** Turning v by a moves it by at most |a| times its distance from the axis. *)
Lemma rod_chord : forall k a v, unit k -> norm (vsub (rod k a v) v) <= Rabs a * norm (cross v k).
Proof.
  intros k a v H. apply norm_le_sq; [apply Rmult_le_pos; [apply Rabs_pos|apply norm_nonneg]|].
  replace (Rabs a * norm (cross v k) * (Rabs a * norm (cross v k))) with ((Rabs a * Rabs a) * (norm (cross v k) * norm (cross v k))) by ring.
  rewrite norm_sq. replace (Rabs a * Rabs a) with (a * a) by (unfold Rabs; destruct (Rcase_abs a); ring).
  assert (E : norm2 (vsub (rod k a v) v) = 2 * (1 - cos a) * norm2 (cross v k)).
  { unfold norm2 at 1. rewrite dot_sub_l, !dot_sub_r, rod_dot, (dot_comm v (rod k a v)) by assumption.
    assert (E1 : dot (rod k a v) v = cos a * dot v v + (1 - cos a) * dot k v * dot k v) by (unfold rod; generalize (cos a) (sin a); vring).
    rewrite E1. pose proof (lagrange v k) as L. unfold unit, norm2 in *. rewrite H in L. rewrite (dot_comm v k) in L. nra. }
  rewrite E. pose proof (one_minus_cos a). pose proof (norm2_nonneg (cross v k)). nra.
Qed.
Lemma rod_chord_axis : forall k a v, unit k -> dot k (vsub (rod k a v) v) = 0.
Proof. intros. rewrite dot_sub_r, rod_dot_axis by assumption. ring. Qed.
(** A vector across the unit axis k projects on n by at most |k x n| times its length. *)
Lemma across_dot : forall k n x, unit k -> dot k x = 0 -> dot n x <= norm (cross k n) * norm x.
Proof.
  intros k n x H Hx. set (m := vsub n (vscale (dot k n) k)).
  assert (E : dot n x = dot m x) by (unfold m; rewrite dot_sub_l, dot_scale_l, Hx; ring).
  assert (N : norm m = norm (cross k n)).
  { unfold norm. f_equal. pose proof (lagrange k n) as L. unfold unit in H. rewrite H in L.
    unfold m. unfold norm2 at 1. rewrite dot_sub_l, !dot_sub_r, !dot_scale_l, !dot_scale_r, (dot_comm n k).
    unfold norm2 in *. rewrite H. lra. }
  rewrite E, <- N. apply cauchy_schwarz.
Qed.
Lemma rod_cross_norm : forall k a v, unit k -> norm (cross (rod k a v) k) = norm (cross v k).
Proof.
  intros k a v H. unfold norm. f_equal. pose proof (lagrange (rod k a v) k) as A. pose proof (lagrange v k) as B.
  rewrite (dot_comm (rod k a v) k), rod_dot_axis in A by assumption. rewrite (dot_comm v k) in B.
  unfold norm2 in *. rewrite rod_dot in A by assumption. lra.
Qed.
Lemma rod_moves : forall k n a b y, unit k -> a <= b ->
  dot n (vsub (rod k b y) (rod k a y)) <= norm (cross k n) * ((b - a) * norm (cross (rod k a y) k)).
Proof.
  intros k n a b y H L. replace b with ((b - a) + a) at 1 by ring. rewrite <- rod_plus by assumption.
  apply Rle_trans with (norm (cross k n) * norm (vsub (rod k (b - a) (rod k a y)) (rod k a y))).
  - apply across_dot; [assumption|apply rod_chord_axis; assumption].
  - apply Rmult_le_compat_l; [apply norm_nonneg|]. pose proof (rod_chord k (b - a) (rod k a y) H) as C.
    rewrite Rabs_right in C by lra. exact C.
Qed.

(** ** Motions *)

(** AngleAxis<S>(M): what Eigen promises of the axis and angle of a rotation matrix
    (angle 2 atan2(|q.vec|, |q.w|), in [0, pi]). *)
Definition aa_of (M : mat3) (k : v3) (a : R) : Prop :=
  unit k /\ 0 <= a <= PI /\ forall v, rod k a v = mapply M v.
(** tf2.linear() * tf1.linear().transpose() *)
Definition mtrans (m : mat3) : mat3 :=
  mkm (mk3 (c0 (m0 m)) (c0 (m1 m)) (c0 (m2 m))) (mk3 (c1 (m0 m)) (c1 (m1 m)) (c1 (m2 m))) (mk3 (c2 (m0 m)) (c2 (m1 m)) (c2 (m2 m))).
Definition turn (a b : tf) : mat3 := mmul (tf_rot b) (mtrans (tf_rot a)).

(** if(dt > 1) dt = 1 *)
Definition clip (dt : R) : R := if Rlt_dec 1 dt then 1 else dt.

(** TranslationMotion (translation_motion-inl.h 55-91): constructor from two
    transforms, integrate. *)
Record transm := Trans { tr_rot : mat3; tr_start : v3; tr_range : v3 }.
Definition trans_of (a b : tf) : transm := Trans (tf_rot a) (tf_tr a) (vsub (tf_tr b) (tf_tr a)).
Definition trans_at (m : transm) (dt : R) : tf :=
  mktf (tr_rot m) (vadd (tr_start m) (vscale (clip dt) (tr_range m))).

(** InterpMotion (interp_motion-inl.h 64-139, 187-218): computeVelocity with the
    result (k, a) of AngleAxis, integrate. *)
Record interp := Interp { i_tf1 : tf; i_ref : v3; i_lin : v3; i_axis : v3; i_ang : R }.
Definition interp_of (a b : tf) (ref k : v3) (ang : R) : interp :=
  Interp a ref (vsub (tf_apply b ref) (tf_apply a ref))
    (if Rlt_dec ang 0 then vneg k else k) (if Rlt_dec ang 0 then - ang else ang).
Definition interp_at (m : interp) (dt : R) : tf :=
  let dt := clip dt in
  let rot := mmul (rodm (i_axis m) (dt * i_ang m)) (tf_rot (i_tf1 m)) in
  mktf rot (vsub (vadd (vscale dt (i_lin m)) (tf_apply (i_tf1 m) (i_ref m))) (mapply rot (i_ref m))).

(** ScrewMotion (screw_motion-inl.h 65-105, 156-203): computeScrewParameter with the
    result (k, a) of AngleAxis, integrate.  1 / tan is written cos / sin. *)
Record screw := Screw { s_tf1 : tf; s_axis : v3; s_ang : R; s_lin : R; s_p : v3 }.
Definition eps10 : R := / 10 ^ 10.
Definition screw_of (a b : tf) (k : v3) (ang : R) : screw :=
  let axis := if Rlt_dec ang 0 then vneg k else k in
  let w := if Rlt_dec ang 0 then - ang else ang in
  let o := vsub (tf_tr b) (tf_tr a) in
  if Rlt_dec w eps10 then Screw a o 0 (norm o) (tf_tr a)
  else Screw a axis w (dot o axis)
         (vscale (/ 2) (vadd (vadd (tf_tr a) (tf_tr b)) (vscale (cos (w / 2) / sin (w / 2)) (cross axis o)))).
Definition screw_at (m : screw) (dt : R) : tf :=
  let dt := clip dt in
  mktf (mmul (rodm (s_axis m) (dt * s_ang m)) (tf_rot (s_tf1 m)))
       (vadd (vadd (s_p m) (vscale (dt * s_lin m) (s_axis m))) (rod (s_axis m) (dt * s_ang m) (vsub (tf_tr (s_tf1 m)) (s_p m)))).

(** SplineMotion (spline_motion-inl.h 52-91, 119-139, 456-482): weights, translation and
    rotation vector at dt; the rotation is by the length of the rotation vector about it
    (and about zero by the angle zero). *)
Definition wt0 t := (1 - 3 * t + 3 * t * t - t * t * t) / 6.
Definition wt1 t := (4 - 6 * t * t + 3 * t * t * t) / 6.
Definition wt2 t := (1 + 3 * t + 3 * t * t - 3 * t * t * t) / 6.
Definition wt3 t := t * t * t / 6.
Record quad := Q4 { q0 : v3; q1 : v3; q2 : v3; q3 : v3 }.
Definition blend (d : quad) (t : R) : v3 :=
  vadd (vadd (vadd (vscale (wt0 t) (q0 d)) (vscale (wt1 t) (q1 d))) (vscale (wt2 t) (q2 d))) (vscale (wt3 t) (q3 d)).
Definition spline_at (td rd : quad) (dt : R) : tf :=
  let dt := clip dt in
  let w := blend rd dt in
  let ang := norm w in
  let k := if Rlt_dec 0 ang then vscale (/ ang) w else w in
  mktf (rodm k ang) (blend td dt).

(** ** Motion bounds *)

(** A triangle of the body's frame. *)
Definition in_tri (a b c x : v3) : Prop :=
  exists u v w, 0 <= u /\ 0 <= v /\ 0 <= w /\ u + v + w = 1 /\ x = vadd (vadd (vscale u a) (vscale v b)) (vscale w c).
(** RSS (include/fcl/math/bv/RSS.h 50-75): points within r of a rectangle with corner To
    and sides l0, l1 along the first two axes. *)
Record rss := Rss { To : v3; rax : mat3; rl0 : R; rl1 : R; rr : R }.
Definition rect (b : rss) (x y : R) : v3 := vadd (To b) (vadd (vscale (x * rl0 b) (m0 (rax b))) (vscale (y * rl1 b) (m1 (rax b)))).
Definition in_rss (b : rss) (q : v3) : Prop := exists x y, 0 <= x <= 1 /\ 0 <= y <= 1 /\ dist q (rect b x y) <= rr b.

(** if(tmp > m) m = tmp *)
Definition upd (m t : R) : R := if Rlt_dec m t then t else m.
Definition corners (b : rss) : list v3 :=
  [To b; vadd (To b) (vscale (rl0 b) (m0 (rax b))); vadd (To b) (vscale (rl1 b) (m1 (rax b)));
   vadd (vadd (To b) (vscale (rl0 b) (m0 (rax b)))) (vscale (rl1 b) (m1 (rax b)))].
(** The square root of the greatest of the squared distances from the axis. *)
Definition proj_max (f : v3 -> v3) (k : v3) (l : list v3) : R :=
  match l with [] => 0 | a :: r => sqrt (fold_left (fun m x => upd m (norm2 (cross (f x) k))) r (norm2 (cross (f a) k))) end.

(** TriangleMotionBoundVisitor: screw (triangle_motion_bound_visitor-inl.h 118-151),
    interpolated (160-190); the current transform is [cur]. *)
Definition tri_bound_screw (m : screw) (cur : tf) (a b c n : v3) : R :=
  dot (s_axis m) n * s_lin m + norm (cross (s_axis m) n) * s_ang m *
  proj_max (fun x => vsub (tf_apply cur x) (s_p m)) (s_axis m) [a; b; c].
Definition tri_bound_interp (m : interp) (cur : tf) (a b c n : v3) : R :=
  dot (i_lin m) n + norm (cross (i_axis m) n) * i_ang m *
  proj_max (fun x => mapply (tf_rot cur) (vsub x (i_ref m))) (i_axis m) [a; b; c].
(** TBVMotionBoundVisitor<RSS>: screw (tbv_motion_bound_visitor-inl.h 178-213),
    interpolated (222-256), and both visitors for a translation (266-269; triangle 225-228). *)
Definition rss_bound_screw (m : screw) (cur : tf) (b : rss) (n : v3) : R :=
  dot (s_axis m) n * s_lin m + norm (cross (s_axis m) n) * s_ang m *
  (proj_max (mapply (tf_rot cur)) (s_axis m) (corners b) + rr b + norm (cross (vsub (tf_tr cur) (s_p m)) (s_axis m))).
Definition rss_bound_interp (m : interp) (cur : tf) (b : rss) (n : v3) : R :=
  dot (i_lin m) n + norm (cross (i_axis m) n) * i_ang m *
  (rr b + proj_max (fun x => mapply (tf_rot cur) (vsub x (i_ref m))) (i_axis m) (corners b)).
Definition trans_bound (m : transm) (n : v3) : R := dot (tr_range m) n.

(** SplineMotion::computeTBound (spline_motion-inl.h 286-334) at the current time tc. *)
Definition spline_TA (d : quad) := vsub (vadd (vsub (vscale 3 (q1 d)) (vscale 3 (q2 d))) (q3 d)) (q0 d).
Definition spline_TB (d : quad) := vscale 3 (vadd (vsub (q0 d) (vscale 2 (q1 d))) (q2 d)).
Definition spline_TC (d : quad) := vscale 3 (vsub (q2 d) (q0 d)).
Definition between (t tc : R) : list R := if Rlt_dec t 1 then (if Rlt_dec tc t then [t] else []) else [].
Definition tb_times (a b c tc : R) : list R :=
  [tc; 1] ++
  (if Rle_dec 0 (b * b - 3 * a * c) then
     if Req_EM_T a 0 then if Req_EM_T b 0 then [] else between (- c / (2 * b)) tc
     else between ((- b + sqrt (b * b - 3 * a * c)) / (3 * a)) tc ++ between ((- b - sqrt (b * b - 3 * a * c)) / (3 * a)) tc
   else []).
Definition cubic (a b c t : R) : R := a * t * t * t + b * t * t + c * t.
Definition tbound (a b c tc : R) : R :=
  let l := tb_times a b c tc in
  (fold_left (fun m t => upd m (cubic a b c t)) (tl l) (cubic a b c (hd 0 l)) - cubic a b c tc) / 6.
Definition spline_tbound (d : quad) (tc : R) (n : v3) : R :=
  tbound (dot (spline_TA d) n) (dot (spline_TB d) n) (dot (spline_TC d) n) tc.

(** ** Lemmas *)

Lemma upd_ge : forall m t, m <= upd m t /\ t <= upd m t.
Proof. intros. unfold upd. destruct (Rlt_dec m t); lra. Qed.
Lemma fold_upd_ge : forall A (f : A -> R) l m, m <= fold_left (fun m x => upd m (f x)) l m /\
  forall x, In x l -> f x <= fold_left (fun m x => upd m (f x)) l m.
Proof.
  induction l as [|a l IH]; cbn; intros m; [split; [lra|tauto]|].
  destruct (IH (upd m (f a))) as [I J]. destruct (upd_ge m (f a)). split; [lra|].
  intros x [E|E]; [subst; lra|apply J; assumption].
Qed.
Lemma fold_upd_in : forall A (f : A -> R) l m, fold_left (fun m x => upd m (f x)) l m = m \/
  exists x, In x l /\ fold_left (fun m x => upd m (f x)) l m = f x.
Proof.
  induction l as [|a l IH]; cbn; intros m; [left; reflexivity|].
  destruct (IH (upd m (f a))) as [E|(x & I & E)]; rewrite E; [|right; exists x; auto].
  unfold upd. destruct (Rlt_dec m (f a)); [right; exists a; auto|left; reflexivity].
Qed.
Lemma proj_max_ge : forall f k l x, In x l -> norm (cross (f x) k) <= proj_max f k l.
Proof.
  intros f k [|a l] x; cbn; [tauto|]. intros H. unfold norm. apply sqrt_le_1_alt.
  destruct (fold_upd_ge _ (fun x => norm2 (cross (f x) k)) l (norm2 (cross (f a) k))) as [I J].
  destruct H as [H|H]; [subst; exact I|apply J; assumption].
Qed.
Lemma proj_max_nonneg : forall f k l, 0 <= proj_max f k l.
Proof. intros f k [|a l]; cbn; [lra|apply sqrt_pos]. Qed.

Lemma cross_comb3 : forall a b c k u v w, 0 <= u -> 0 <= v -> 0 <= w ->
  norm (cross (vadd (vadd (vscale u a) (vscale v b)) (vscale w c)) k) <= u * norm (cross a k) + v * norm (cross b k) + w * norm (cross c k).
Proof.
  intros a b c k u v w Hu Hv Hw.
  replace (cross (vadd (vadd (vscale u a) (vscale v b)) (vscale w c)) k)
    with (vadd (vadd (vscale u (cross a k)) (vscale v (cross b k))) (vscale w (cross c k))) by vring.
  eapply Rle_trans; [apply norm_triangle|]. rewrite norm_scale, (Rabs_right w) by lra. apply Rplus_le_compat_r.
  eapply Rle_trans; [apply norm_triangle|]. rewrite !norm_scale, (Rabs_right u), (Rabs_right v) by lra. lra.
Qed.

(** An affine map of a triangle stays within the greatest distance of its corners. *)
Lemma proj_max_tri : forall f k a b c x,
  (forall u v w y1 y2 y3, u + v + w = 1 -> f (vadd (vadd (vscale u y1) (vscale v y2)) (vscale w y3)) =
     vadd (vadd (vscale u (f y1)) (vscale v (f y2))) (vscale w (f y3))) ->
  in_tri a b c x -> norm (cross (f x) k) <= proj_max f k [a; b; c].
Proof.
  intros f k a b c x Hf (u & v & w & Hu & Hv & Hw & S & ->). rewrite Hf by assumption.
  eapply Rle_trans; [apply cross_comb3; assumption|].
  pose proof (proj_max_ge f k [a; b; c] a ltac:(cbn; auto)). pose proof (proj_max_ge f k [a; b; c] b ltac:(cbn; auto)).
  pose proof (proj_max_ge f k [a; b; c] c ltac:(cbn; auto)). set (M := proj_max f k [a; b; c]) in *.
  replace M with (u * M + v * M + w * M) by (rewrite <- !Rmult_plus_distr_r, S; ring). nra.
Qed.

(** A rotated rectangle point stays within the greatest distance of the corners. *)
Lemma proj_max_rect : forall f k b x y, 0 <= x <= 1 -> 0 <= y <= 1 ->
  (forall u v w y1 y2 y3, u + v + w = 1 -> f (vadd (vadd (vscale u y1) (vscale v y2)) (vscale w y3)) =
     vadd (vadd (vscale u (f y1)) (vscale v (f y2))) (vscale w (f y3))) ->
  norm (cross (f (rect b x y)) k) <= proj_max f k (corners b).
Proof.
  intros f k b x y Hx Hy Hf. set (M := proj_max f k (corners b)).
  assert (C : forall z, In z (corners b) -> norm (cross (f z) k) <= M) by (intros; apply proj_max_ge; assumption).
  (* on the two long sides first *)
  assert (L : forall e z1 z2, 0 <= e <= 1 -> norm (cross (f z1) k) <= M -> norm (cross (f z2) k) <= M ->
     norm (cross (f (vadd (vscale (1 - e) z1) (vscale e z2))) k) <= M).
  { intros e z1 z2 He H1 H2.
    replace (vadd (vscale (1 - e) z1) (vscale e z2)) with (vadd (vadd (vscale (1 - e) z1) (vscale e z2)) (vscale 0 z1)) by vring.
    rewrite Hf by ring. eapply Rle_trans; [apply cross_comb3; lra|]. nra. }
  replace (rect b x y) with (vadd (vscale (1 - y) (vadd (vscale (1 - x) (To b)) (vscale x (vadd (To b) (vscale (rl0 b) (m0 (rax b)))))))
     (vscale y (vadd (vscale (1 - x) (vadd (To b) (vscale (rl1 b) (m1 (rax b)))))
        (vscale x (vadd (vadd (To b) (vscale (rl0 b) (m0 (rax b)))) (vscale (rl1 b) (m1 (rax b)))))))).
  2:{ unfold rect. generalize (To b) (m0 (rax b)) (m1 (rax b)) (rl0 b) (rl1 b). clear. vring. }
  apply L; [assumption| |]; (apply L; [assumption| |]); apply C; unfold corners; cbn; auto.
Qed.

Lemma clip_le : forall t, t <= 1 -> clip t = t.
Proof. intros t H. unfold clip. destruct (Rlt_dec 1 t); lra. Qed.
Lemma clip_gt : forall t, 1 <= t -> clip t = 1.
Proof. intros t H. unfold clip. destruct (Rlt_dec 1 t); lra. Qed.

Lemma vadd_swap : forall p c y z, vadd y (vadd (vadd p c) z) = vadd (vadd p c) (vadd y z). Proof. vring. Qed.
Lemma vadd_swap2 : forall l p y z, vadd y (vsub (vadd l p) z) = vadd (vadd p l) (vsub y z). Proof. vring. Qed.
Lemma vsub_vadd : forall a b c, vsub (vadd a b) c = vadd a (vsub b c). Proof. vring. Qed.
(** Positions of a body point along the motions. *)
Lemma screw_point : forall m t x, t <= 1 -> tf_apply (screw_at m t) x =
  vadd (vadd (s_p m) (vscale (t * s_lin m) (s_axis m))) (rod (s_axis m) (t * s_ang m) (vsub (tf_apply (s_tf1 m) x) (s_p m))).
Proof.
  intros m t x H. unfold screw_at. rewrite clip_le by assumption. unfold tf_apply at 1. cbn [tf_rot tf_tr].
  rewrite mmul_apply, rodm_apply. unfold tf_apply.
  rewrite vsub_vadd, rod_add. apply vadd_swap.
Qed.
Lemma interp_point : forall m t x, t <= 1 -> tf_apply (interp_at m t) x =
  vadd (vadd (tf_apply (i_tf1 m) (i_ref m)) (vscale t (i_lin m))) (rod (i_axis m) (t * i_ang m) (mapply (tf_rot (i_tf1 m)) (vsub x (i_ref m)))).
Proof.
  intros m t x H. unfold interp_at. rewrite clip_le by assumption. unfold tf_apply at 1. cbn [tf_rot tf_tr].
  rewrite !mmul_apply, !rodm_apply, mapply_sub, rod_sub.
  apply vadd_swap2.
Qed.
Lemma interp_rot : forall m t x, t <= 1 -> mapply (tf_rot (interp_at m t)) x = rod (i_axis m) (t * i_ang m) (mapply (tf_rot (i_tf1 m)) x).
Proof. intros m t x H. unfold interp_at. rewrite clip_le by assumption. cbn [tf_rot]. rewrite mmul_apply, rodm_apply. reflexivity. Qed.
