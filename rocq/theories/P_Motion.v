(** C55, C56: motions of rigid bodies and the bounds on their speed. *)
From Coq Require Import Reals Lra Psatz List.
From Verif Require Import VecR Interval Taylor Motion.
Import ListNotations.
Open Scope R_scope.

(** ** C55: the motions *)

Lemma mtrans_apply : forall m v, mapply (mtrans m) v = mtapply m v.
Proof. intros [a b c] v. unfold mtrans. cbn [VecR.m0 VecR.m1 VecR.m2]. vring. Qed.
Lemma turn_apply : forall a b v, ortho (tf_rot a) -> mapply (turn a b) (mapply (tf_rot a) v) = mapply (tf_rot b) v.
Proof. intros a b v H. unfold turn. rewrite mmul_apply, mtrans_apply, mt_mapply by assumption. reflexivity. Qed.

Definition moves (p : R -> tf) (a b : tf) : Prop :=
  (forall x, tf_apply (p 0) x = tf_apply a x) /\ (forall t x, 1 <= t -> tf_apply (p t) x = tf_apply b x).
Definition rigid (p : R -> tf) : Prop := forall t, ortho (tf_rot (p t)).

(** A translation motion is linear, and joins two transforms of the same rotation. *)
Theorem translation_motion : forall a b,
  (forall t x, t <= 1 -> tf_apply (trans_at (trans_of a b) t) x = vadd (tf_apply a x) (vscale t (vsub (tf_tr b) (tf_tr a)))) /\
  (ortho (tf_rot a) -> rigid (trans_at (trans_of a b))) /\
  (tf_rot a = tf_rot b -> moves (trans_at (trans_of a b)) a b) /\
  (ortho (tf_rot a) -> ortho (tf_rot b) -> moves (trans_at (trans_of a b)) a b -> tf_rot a = tf_rot b).
Proof.
  intros a b. split; [|split; [|split]].
  - intros t x H. unfold trans_at, trans_of. rewrite clip_le by assumption. unfold tf_apply. cbn [tf_rot tf_tr tr_rot tr_start tr_range]. vring.
  - intros H t. exact H.
  - intros E. split.
    + intros x. unfold trans_at, trans_of. rewrite clip_le by lra. unfold tf_apply. cbn [tf_rot tf_tr tr_rot tr_start tr_range]. vring.
    + intros t x H. unfold trans_at, trans_of. rewrite clip_gt by assumption. unfold tf_apply. cbn [tf_rot tf_tr tr_rot tr_start tr_range].
      rewrite E. vring.
  - intros _ _ [_ H]. unfold trans_at, trans_of, tf_apply in H. cbn [tf_rot tf_tr tr_rot tr_start tr_range] in H.
    assert (G : forall x, mapply (tf_rot a) x = mapply (tf_rot b) x).
    { intros x. specialize (H 1 x (Rle_refl 1)). rewrite clip_gt in H by lra.
      replace (vadd (tf_tr a) (vscale 1 (vsub (tf_tr b) (tf_tr a)))) with (tf_tr b) in H by vring.
      set (u := mapply (tf_rot a) x) in *. set (v := mapply (tf_rot b) x) in *. set (w := tf_tr b) in *. clearbody u v w.
      destruct u, v, w. unfold vadd in H. cbn in H. injection H as H0 H1 H2. f_equal; lra. }
    pose proof (G (mk3 1 0 0)) as G0. pose proof (G (mk3 0 1 0)) as G1. pose proof (G (mk3 0 0 1)) as G2.
    destruct (tf_rot a) as [[a0 a1 a2] [b0 b1 b2] [d0 d1 d2]], (tf_rot b) as [[e0 e1 e2] [f0 f1 f2] [g0 g1 g2]].
    unfold mapply, vadd, vscale in *. cbn in *. injection G0 as ? ? ?. injection G1 as ? ? ?. injection G2 as ? ? ?.
    f_equal; f_equal; lra.
Qed.
Print Assumptions translation_motion.

(** An interpolated motion joins its two transforms rigidly, and its reference point
    moves at constant velocity. *)
Theorem interp_motion : forall a b ref k w, ortho (tf_rot a) -> aa_of (turn a b) k w ->
  let m := interp_of a b ref k w in
  moves (interp_at m) a b /\ rigid (interp_at m) /\
  (forall t, t <= 1 -> tf_apply (interp_at m t) ref = vadd (tf_apply a ref) (vscale t (vsub (tf_apply b ref) (tf_apply a ref)))).
Proof.
  intros a b ref k w Ha (Hk & Hw & Hr) m.
  assert (Em : m = Interp a ref (vsub (tf_apply b ref) (tf_apply a ref)) k w).
  { unfold m, interp_of. destruct (Rlt_dec w 0); [lra|reflexivity]. }
  rewrite Em. clear m Em. split; [|split].
  - split.
    + intros x. rewrite interp_point by lra. cbn [i_tf1 i_ref i_lin i_axis i_ang]. rewrite ?Rmult_0_l, rod_0.
      unfold tf_apply. rewrite mapply_sub. vring.
    + intros t x H. replace (interp_at (Interp a ref (vsub (tf_apply b ref) (tf_apply a ref)) k w) t)
        with (interp_at (Interp a ref (vsub (tf_apply b ref) (tf_apply a ref)) k w) 1)
        by (unfold interp_at; rewrite !clip_gt by lra; reflexivity).
      rewrite interp_point by lra. cbn [i_tf1 i_ref i_lin i_axis i_ang]. rewrite Rmult_1_l, Hr, turn_apply by assumption.
      unfold tf_apply. rewrite mapply_sub. vring.
  - intros t. unfold interp_at. cbn [tf_rot i_axis i_tf1]. apply mmul_ortho; [apply rodm_ortho; assumption|assumption].
  - intros t H. rewrite interp_point by assumption. cbn [i_tf1 i_ref i_lin i_axis i_ang].
    replace (vsub ref ref) with vzero by vring. replace (mapply (tf_rot a) vzero) with vzero by vring.
    replace (rod k (t * w) vzero) with vzero by (unfold rod; generalize (cos (t * w)) (sin (t * w)); vring). vring.
Qed.
Print Assumptions interp_motion.

(** The screw axis found by computeScrewParameter: turning about it takes the start to
    the end, up to the slide along it. *)
Lemma screw_centre : forall k w o, unit k -> 0 < w <= PI ->
  vadd (vscale (dot o k) k) (vsub (rod k w (vneg (vscale (/ 2) (vadd o (vscale (cos (w / 2) / sin (w / 2)) (cross k o))))))
    (vneg (vscale (/ 2) (vadd o (vscale (cos (w / 2) / sin (w / 2)) (cross k o)))))) = o.
Proof.
  intros k w o Hk Hw. set (ct := cos (w / 2) / sin (w / 2)).
  assert (Hs : 0 < sin (w / 2)) by (apply sin_gt_0; lra).
  assert (E1 : cos w - ct * sin w = -1).
  { unfold ct. replace w with (2 * (w / 2)) at 1 4 by field. rewrite cos_2a_cos, sin_2a. field. lra. }
  assert (E2 : sin w + ct * cos w = ct).
  { unfold ct. replace w with (2 * (w / 2)) at 1 4 by field. rewrite cos_2a_sin, sin_2a. field. lra. }
  unfold rod.
  replace (cross k (vneg (vscale (/ 2) (vadd o (vscale ct (cross k o))))))
    with (vneg (vscale (/ 2) (vadd (cross k o) (vscale ct (cross k (cross k o)))))) by vring.
  rewrite cross_cross. unfold unit, norm2 in Hk. rewrite Hk.
  replace (dot k (vneg (vscale (/ 2) (vadd o (vscale ct (cross k o)))))) with (- / 2 * dot k o) by vring.
  rewrite (dot_comm o k). set (d := dot k o). set (x := cross k o).
  assert (K : forall kk oo xx, d * kk + (cos w * - (/ 2 * (oo + ct * xx)) + (sin w * - (/ 2 * (xx + ct * (d * kk - 1 * oo))) +
      (1 - cos w) * (- / 2 * d) * kk) - - (/ 2 * (oo + ct * xx))) = oo).
  { intros kk oo xx.
    replace (d * kk + (cos w * - (/ 2 * (oo + ct * xx)) + (sin w * - (/ 2 * (xx + ct * (d * kk - 1 * oo))) +
      (1 - cos w) * (- / 2 * d) * kk) - - (/ 2 * (oo + ct * xx))))
      with (/ 2 * d * kk * (1 + (cos w - ct * sin w)) + / 2 * oo * (1 - (cos w - ct * sin w)) + / 2 * xx * (ct - (sin w + ct * cos w))) by field.
    rewrite E1, E2. field. }
  apply v3_ext; unfold vadd, vsub, vneg, vscale; cbn [VecR.c0 VecR.c1 VecR.c2]; apply K.
Qed.

Theorem screw_motion : forall a b k w, ortho (tf_rot a) -> aa_of (turn a b) k w -> eps10 <= w ->
  let m := screw_of a b k w in
  moves (screw_at m) a b /\ rigid (screw_at m) /\
  (** it turns about, and slides along, one fixed line *)
  (forall t x c, t <= 1 -> tf_apply a x = vadd (s_p m) (vscale c k) ->
     tf_apply (screw_at m t) x = vadd (s_p m) (vscale (c + t * dot (vsub (tf_tr b) (tf_tr a)) k) k)) /\
  (forall t x, t <= 1 -> norm (cross (vsub (tf_apply (screw_at m t) x) (s_p m)) k) = norm (cross (vsub (tf_apply a x) (s_p m)) k)).
Proof.
  intros a b k w Ha (Hk & Hw & Hr) Hw' m. set (o := vsub (tf_tr b) (tf_tr a)).
  assert (E10 : 0 < eps10) by (unfold eps10; apply Rinv_0_lt_compat; lra).
  set (p := vscale (/ 2) (vadd (vadd (tf_tr a) (tf_tr b)) (vscale (cos (w / 2) / sin (w / 2)) (cross k o)))).
  assert (Em : m = Screw a k w (dot o k) p).
  { unfold m, screw_of. destruct (Rlt_dec w 0); [lra|]. destruct (Rlt_dec w eps10); [lra|reflexivity]. }
  rewrite Em. clear m Em. cbn [s_p].
  split; [|split; [|split]].
  - split.
    + intros x. rewrite screw_point by lra. cbn [s_tf1 s_axis s_ang s_lin s_p]. rewrite ?Rmult_0_l, rod_0.
      generalize (tf_apply a x). generalize p. vring.
    + intros t x H. replace (screw_at (Screw a k w (dot o k) p) t) with (screw_at (Screw a k w (dot o k) p) 1)
        by (unfold screw_at; rewrite !clip_gt by lra; reflexivity).
      rewrite screw_point by lra. cbn [s_tf1 s_axis s_ang s_lin s_p]. rewrite !Rmult_1_l.
      unfold tf_apply. rewrite vsub_vadd, rod_add, Hr, turn_apply by assumption.
      pose proof (screw_centre k w o Hk ltac:(lra)) as C.
      replace (vneg (vscale (/ 2) (vadd o (vscale (cos (w / 2) / sin (w / 2)) (cross k o))))) with (vsub (tf_tr a) p) in C.
      2:{ unfold p, o. generalize (cos (w / 2) / sin (w / 2)). intros z.
          generalize (cross k (vsub (tf_tr b) (tf_tr a))). generalize (tf_tr a) (tf_tr b).
          intros [? ? ?] [? ? ?] [? ? ?]. vunf. f_equal; field. }
      assert (G : forall y q d r0, vadd (vadd q d) (vadd y r0) = vadd y (vadd (vadd d (vsub r0 (vsub (tf_tr a) q))) (tf_tr a))).
      { intros. generalize (tf_tr a). revert y q d r0. vring. }
      rewrite G, C. unfold o. vring.
  - intros t. unfold screw_at. cbn [tf_rot s_axis s_tf1]. apply mmul_ortho; [apply rodm_ortho; assumption|assumption].
  - intros t x c Ht E. rewrite screw_point by assumption. cbn [s_tf1 s_axis s_ang s_lin s_p]. rewrite E.
    replace (vsub (vadd p (vscale c k)) p) with (vscale c k) by (generalize p; vring).
    rewrite rod_scale, rod_axis by assumption. generalize p (dot o k). vring.
  - intros t x Ht. rewrite screw_point by assumption. cbn [s_tf1 s_axis s_ang s_lin s_p].
    replace (cross (vsub (vadd (vadd p (vscale (t * dot o k) k)) (rod k (t * w) (vsub (tf_apply a x) p))) p) k)
      with (cross (rod k (t * w) (vsub (tf_apply a x) p)) k).
    2:{ generalize (rod k (t * w) (vsub (tf_apply a x) p)). generalize p (t * dot o k). vring. }
    apply rod_cross_norm. assumption.
Qed.
Print Assumptions screw_motion.

(** Without a rotation the axis is the translation itself, not its direction: the
    motion goes |d| times too far, and ends where it should only for |d| = 0 or 1. *)
Theorem screw_translation_refuted : forall a b k w, 0 <= w < eps10 ->
  let d := vsub (tf_tr b) (tf_tr a) in
  (forall t x, t <= 1 -> tf_apply (screw_at (screw_of a b k w) t) x = vadd (tf_apply a x) (vscale (t * norm d) d)) /\
  (tf_rot a = tf_rot b -> (moves (screw_at (screw_of a b k w)) a b <-> norm d = 0 \/ norm d = 1)).
Proof.
  intros a b k w Hw d.
  assert (Em : screw_of a b k w = Screw a d 0 (norm d) (tf_tr a)).
  { unfold screw_of. destruct (Rlt_dec w 0); [lra|]. destruct (Rlt_dec w eps10); [reflexivity|lra]. }
  rewrite Em.
  assert (P : forall t x, t <= 1 -> tf_apply (screw_at (Screw a d 0 (norm d) (tf_tr a)) t) x = vadd (tf_apply a x) (vscale (t * norm d) d)).
  { intros t x Ht. rewrite screw_point by assumption. cbn [s_tf1 s_axis s_ang s_lin s_p]. rewrite Rmult_0_r, rod_0.
    generalize (tf_apply a x) (tf_tr a) (t * norm d). generalize d. vring. }
  split; [exact P|]. intros E.
  assert (Q : forall x, tf_apply b x = vadd (tf_apply a x) d) by (intros x; unfold tf_apply, d; rewrite E; vring).
  split.
  - intros [_ H]. specialize (H 1 vzero (Rle_refl 1)). rewrite P, Q in H by lra. rewrite Rmult_1_l in H.
    assert (Z : vscale (norm d - 1) d = vzero).
    { revert H. generalize (norm d). generalize (tf_apply a vzero). destruct d as [d0 d1 d2]. intros [y0 y1 y2] z. unfold vadd, vscale, vzero. cbn.
      intros H. injection H as H0 H1 H2. f_equal; lra. }
    apply (f_equal norm) in Z. rewrite norm_scale, norm_vzero in Z. apply Rmult_integral in Z.
    destruct Z as [Z|Z]; [right|left; exact Z]. unfold Rabs in Z. destruct (Rcase_abs (norm d - 1)); lra.
  - intros H. split.
    + intros x. rewrite P by lra. rewrite Rmult_0_l. vring.
    + intros t x Ht. replace (screw_at (Screw a d 0 (norm d) (tf_tr a)) t) with (screw_at (Screw a d 0 (norm d) (tf_tr a)) 1)
        by (unfold screw_at; rewrite !clip_gt by lra; reflexivity).
      rewrite P, Q by lra. destruct H as [H|H].
      * apply norm_zero in H. rewrite H. vring.
      * rewrite H. vring.
Qed.
Print Assumptions screw_translation_refuted.

(** The screw of a quarter turn about z with a slide of 2: hypotheses are met, and the
    axis passes through (1/2, 1/2). *)
Definition quarter_a : tf := mktf mid (mk3 0 0 0).
Definition quarter_b : tf := mktf (mkm (mk3 0 1 0) (mk3 (-1) 0 0) (mk3 0 0 1)) (mk3 1 0 2).
Example screw_case :
  ortho (tf_rot quarter_a) /\ aa_of (turn quarter_a quarter_b) (mk3 0 0 1) (PI / 2) /\ eps10 <= PI / 2 /\
  s_p (screw_of quarter_a quarter_b (mk3 0 0 1) (PI / 2)) = mk3 (/ 2) (/ 2) 1 /\
  s_lin (screw_of quarter_a quarter_b (mk3 0 0 1) (PI / 2)) = 2.
Proof.
  assert (E : eps10 < 1) by (unfold eps10; rewrite <- Rinv_1; apply Rinv_lt_contravar; lra).
  pose proof PI2_3_2 as P. split; [apply ortho_mid|]. split; [|split; [lra|]].
  - split; [unfold unit; vunf; ring|]. split; [lra|]. intros [x y z]. unfold rod. rewrite cos_PI2, sin_PI2.
    unfold turn, mtrans, quarter_a, quarter_b, mid, mmul, mapply, vadd, vscale, dot, cross.
    cbn [tf_rot VecR.m0 VecR.m1 VecR.m2 VecR.c0 VecR.c1 VecR.c2]. f_equal; ring.
  - unfold screw_of. destruct (Rlt_dec (PI / 2) 0); [lra|]. destruct (Rlt_dec (PI / 2) eps10); [lra|].
    cbn [s_p s_lin]. replace (PI / 2 / 2) with (PI / 4) by field. rewrite cos_PI4, sin_PI4.
    replace (1 / sqrt 2 / (1 / sqrt 2)) with 1.
    + unfold quarter_a, quarter_b. vunf. split; [f_equal; field|ring].
    + field. apply Rgt_not_eq. apply sqrt_lt_R0. lra.
Qed.

(** A spline motion is rigid, and its translation is a convex combination of its four
    control points at every time. *)
Theorem spline_motion : forall td rd, rigid (spline_at td rd) /\
  (forall t, 0 <= t -> exists u0 u1 u2 u3, 0 <= u0 /\ 0 <= u1 /\ 0 <= u2 /\ 0 <= u3 /\ u0 + u1 + u2 + u3 = 1 /\
     tf_tr (spline_at td rd t) = vadd (vadd (vadd (vscale u0 (q0 td)) (vscale u1 (q1 td))) (vscale u2 (q2 td))) (vscale u3 (q3 td))).
Proof.
  intros td rd. split.
  - intros t. unfold spline_at. cbn [tf_rot]. set (w := blend rd (clip t)). destruct (Rlt_dec 0 (norm w)) as [L|L].
    + apply rodm_ortho. apply normalize_unit. intros E. rewrite E, norm_vzero in L. lra.
    + replace (norm w) with 0 by (pose proof (norm_nonneg w); lra). apply rodm_ortho_zero.
  - intros t Ht. assert (C : 0 <= clip t <= 1) by (unfold clip; destruct (Rlt_dec 1 t); lra).
    exists (wt0 (clip t)), (wt1 (clip t)), (wt2 (clip t)), (wt3 (clip t)). unfold wt0, wt1, wt2, wt3. set (u := clip t) in *.
    split; [|split; [|split; [|split; [|split; [field|reflexivity]]]]].
    + replace (1 - 3 * u + 3 * u * u - u * u * u) with ((1 - u) * (1 - u) * (1 - u)) by ring.
      assert (0 <= (1 - u) * (1 - u) * (1 - u)) by (apply Rmult_le_pos; [apply Rmult_le_pos|]; lra). lra.
    + assert (0 <= u * u * u) by (apply Rmult_le_pos; [apply Rmult_le_pos|]; lra). nra.
    + assert (0 <= u * u * (1 - u)) by (apply Rmult_le_pos; [apply Rmult_le_pos|]; lra). nra.
    + assert (0 <= u * u * u) by (apply Rmult_le_pos; [apply Rmult_le_pos|]; lra). lra.
Qed.
Print Assumptions spline_motion.

(** ** C56: motion bounds *)

(** [bounds p n S B]: no point of S moves along n faster than B, from time t on. *)
Definition bounds (p : R -> tf) (n : v3) (P : v3 -> Prop) (t B : R) : Prop :=
  forall x s, P x -> t <= s <= 1 -> dot n (vsub (tf_apply (p s) x) (tf_apply (p t) x)) <= (s - t) * B.

(** A translation: the bound is exact for every body. *)
Theorem motion_bound_translation : forall m n t, t <= 1 ->
  bounds (trans_at m) n (fun _ => True) t (trans_bound m n) /\
  (forall x s, t <= s <= 1 -> dot n (vsub (tf_apply (trans_at m s) x) (tf_apply (trans_at m t) x)) = (s - t) * trans_bound m n).
Proof.
  intros m n t Ht.
  assert (E : forall x s, t <= s <= 1 -> dot n (vsub (tf_apply (trans_at m s) x) (tf_apply (trans_at m t) x)) = (s - t) * trans_bound m n).
  { intros x s Hs. unfold trans_at, trans_bound, tf_apply. cbn [tf_rot tf_tr]. rewrite !clip_le by lra.
    generalize (mapply (tr_rot m) x) (tr_start m) (tr_range m). vring. }
  split; [|exact E]. intros x s _ Hs. rewrite E by assumption. lra.
Qed.
Print Assumptions motion_bound_translation.

Lemma mapply_affine : forall m u v w a b c, mapply m (vadd (vadd (vscale u a) (vscale v b)) (vscale w c)) =
  vadd (vadd (vscale u (mapply m a)) (vscale v (mapply m b))) (vscale w (mapply m c)).
Proof. intros. rewrite !mapply_add, !mapply_scale. reflexivity. Qed.
Lemma sub_affine : forall u v w a b c p, u + v + w = 1 -> vsub (vadd (vadd (vscale u a) (vscale v b)) (vscale w c)) p =
  vadd (vadd (vscale u (vsub a p)) (vscale v (vsub b p))) (vscale w (vsub c p)).
Proof. intros. replace u with (1 - v - w) by lra. vring. Qed.
Lemma add_affine : forall u v w a b c p, u + v + w = 1 -> vadd (vadd (vadd (vscale u a) (vscale v b)) (vscale w c)) p =
  vadd (vadd (vscale u (vadd a p)) (vscale v (vadd b p))) (vscale w (vadd c p)).
Proof. intros. replace u with (1 - v - w) by lra. vring. Qed.

(** What the constructors make: a unit axis and an angle that is not negative, or no
    rotation. *)
Definition good_screw (m : screw) : Prop := (unit (s_axis m) /\ 0 <= s_ang m) \/ s_ang m = 0.
Lemma screw_of_good : forall a b k w, unit k -> 0 <= w -> good_screw (screw_of a b k w).
Proof.
  intros a b k w Hk Hw. unfold good_screw, screw_of. destruct (Rlt_dec w 0); [lra|].
  destruct (Rlt_dec w eps10); [right; reflexivity|left; split; [assumption|assumption]].
Qed.

(** The displacement of one point of a screw motion. *)
Lemma screw_moves : forall m n t s x, good_screw m -> t <= s <= 1 ->
  dot n (vsub (tf_apply (screw_at m s) x) (tf_apply (screw_at m t) x)) <=
  (s - t) * (dot (s_axis m) n * s_lin m + norm (cross (s_axis m) n) * s_ang m * norm (cross (vsub (tf_apply (screw_at m t) x) (s_p m)) (s_axis m))).
Proof.
  intros m n t s x G Hs. rewrite (screw_point m s), (screw_point m t) by lra. set (y := vsub (tf_apply (s_tf1 m) x) (s_p m)).
  replace (dot n (vsub (vadd (vadd (s_p m) (vscale (s * s_lin m) (s_axis m))) (rod (s_axis m) (s * s_ang m) y))
     (vadd (vadd (s_p m) (vscale (t * s_lin m) (s_axis m))) (rod (s_axis m) (t * s_ang m) y))))
    with ((s - t) * (dot (s_axis m) n * s_lin m) + dot n (vsub (rod (s_axis m) (s * s_ang m) y) (rod (s_axis m) (t * s_ang m) y))).
  2:{ generalize (rod (s_axis m) (s * s_ang m) y) (rod (s_axis m) (t * s_ang m) y). generalize (s_p m) (s_axis m) (s_lin m). vring. }
  replace (cross (vsub (vadd (vadd (s_p m) (vscale (t * s_lin m) (s_axis m))) (rod (s_axis m) (t * s_ang m) y)) (s_p m)) (s_axis m))
    with (cross (rod (s_axis m) (t * s_ang m) y) (s_axis m)).
  2:{ generalize (rod (s_axis m) (t * s_ang m) y). generalize (s_p m) (s_axis m) (s_lin m). vring. }
  rewrite Rmult_plus_distr_l. apply Rplus_le_compat_l. destruct G as [[Hk Hw]|Z].
  - eapply Rle_trans; [apply rod_moves; [assumption|nra]|]. apply Req_le. ring.
  - rewrite Z, !Rmult_0_r, !rod_0, vsub_self. replace (dot n vzero) with 0 by vring. lra.
Qed.
Lemma screw_factor : forall m n, good_screw m -> 0 <= norm (cross (s_axis m) n) * s_ang m.
Proof. intros m n [[_ H]|H]; [apply Rmult_le_pos; [apply norm_nonneg|assumption]|rewrite H; lra]. Qed.

Theorem motion_bound_screw_triangle : forall m a b c n t, good_screw m -> t <= 1 ->
  bounds (screw_at m) n (in_tri a b c) t (tri_bound_screw m (screw_at m t) a b c n).
Proof.
  intros m a b c n t G Ht x s Hx Hs. eapply Rle_trans; [apply screw_moves; assumption|].
  apply Rmult_le_compat_l; [lra|]. unfold tri_bound_screw. apply Rplus_le_compat_l.
  apply Rmult_le_compat_l; [apply screw_factor; assumption|].
  apply (proj_max_tri (fun x => vsub (tf_apply (screw_at m t) x) (s_p m))); [|assumption].
  intros u v w y1 y2 y3 E. unfold tf_apply. rewrite mapply_affine, add_affine, sub_affine by assumption. reflexivity.
Qed.
Print Assumptions motion_bound_screw_triangle.

Theorem motion_bound_screw_rss : forall m b n t, good_screw m -> ortho (tf_rot (s_tf1 m)) -> t <= 1 ->
  bounds (screw_at m) n (in_rss b) t (rss_bound_screw m (screw_at m t) b n).
Proof.
  intros m b n t G HO Ht q s (x & y & Hx & Hy & Hd) Hs. eapply Rle_trans; [apply screw_moves; assumption|].
  apply Rmult_le_compat_l; [lra|]. unfold rss_bound_screw. apply Rplus_le_compat_l.
  destruct G as [[Hk Hw]|Z]; [|rewrite Z; lra].
  apply Rmult_le_compat_l; [apply Rmult_le_pos; [apply norm_nonneg|assumption]|].
  set (cur := screw_at m t). assert (OC : ortho (tf_rot cur)).
  { unfold cur, screw_at. cbn [tf_rot]. apply mmul_ortho; [apply rodm_ortho; assumption|assumption]. }
  replace (cross (vsub (tf_apply cur q) (s_p m)) (s_axis m))
    with (vadd (vadd (cross (mapply (tf_rot cur) (rect b x y)) (s_axis m)) (cross (mapply (tf_rot cur) (vsub q (rect b x y))) (s_axis m)))
               (cross (vsub (tf_tr cur) (s_p m)) (s_axis m))).
  2:{ unfold tf_apply. rewrite mapply_sub. generalize (mapply (tf_rot cur) (rect b x y)) (mapply (tf_rot cur) q) (tf_tr cur). generalize (s_p m) (s_axis m). vring. }
  eapply Rle_trans; [apply norm_triangle|]. apply Rplus_le_compat_r.
  eapply Rle_trans; [apply norm_triangle|]. apply Rplus_le_compat.
  - apply proj_max_rect; try assumption. intros u v w y1 y2 y3 _. apply mapply_affine.
  - set (d := mapply (tf_rot cur) (vsub q (rect b x y))).
    assert (N : norm d <= rr b) by (unfold d; rewrite mapply_norm by assumption; exact Hd).
    eapply Rle_trans; [|exact N]. apply norm_mono. pose proof (lagrange d (s_axis m)) as L. unfold unit in Hk. rewrite Hk in L. nra.
Qed.
Print Assumptions motion_bound_screw_rss.

Lemma interp_moves : forall m n t s x, unit (i_axis m) -> 0 <= i_ang m -> t <= s <= 1 ->
  dot n (vsub (tf_apply (interp_at m s) x) (tf_apply (interp_at m t) x)) <=
  (s - t) * (dot (i_lin m) n + norm (cross (i_axis m) n) * i_ang m * norm (cross (mapply (tf_rot (interp_at m t)) (vsub x (i_ref m))) (i_axis m))).
Proof.
  intros m n t s x Hk Hw Hs. rewrite (interp_point m s), (interp_point m t), (interp_rot m t) by lra.
  set (y := mapply (tf_rot (i_tf1 m)) (vsub x (i_ref m))).
  replace (dot n (vsub (vadd (vadd (tf_apply (i_tf1 m) (i_ref m)) (vscale s (i_lin m))) (rod (i_axis m) (s * i_ang m) y))
     (vadd (vadd (tf_apply (i_tf1 m) (i_ref m)) (vscale t (i_lin m))) (rod (i_axis m) (t * i_ang m) y))))
    with ((s - t) * dot (i_lin m) n + dot n (vsub (rod (i_axis m) (s * i_ang m) y) (rod (i_axis m) (t * i_ang m) y))).
  2:{ generalize (rod (i_axis m) (s * i_ang m) y) (rod (i_axis m) (t * i_ang m) y). generalize (tf_apply (i_tf1 m) (i_ref m)) (i_lin m). vring. }
  rewrite Rmult_plus_distr_l. apply Rplus_le_compat_l.
  eapply Rle_trans; [apply rod_moves; [assumption|nra]|]. apply Req_le. ring.
Qed.

Lemma interp_affine : forall m u v w y1 y2 y3 p, u + v + w = 1 ->
  mapply m (vsub (vadd (vadd (vscale u y1) (vscale v y2)) (vscale w y3)) p) =
  vadd (vadd (vscale u (mapply m (vsub y1 p))) (vscale v (mapply m (vsub y2 p)))) (vscale w (mapply m (vsub y3 p))).
Proof. intros. rewrite sub_affine, mapply_affine by assumption. reflexivity. Qed.

Theorem motion_bound_interp_triangle : forall m a b c n t, unit (i_axis m) -> 0 <= i_ang m -> t <= 1 ->
  bounds (interp_at m) n (in_tri a b c) t (tri_bound_interp m (interp_at m t) a b c n).
Proof.
  intros m a b c n t Hk Hw Ht x s Hx Hs. eapply Rle_trans; [apply interp_moves; assumption|].
  apply Rmult_le_compat_l; [lra|]. unfold tri_bound_interp. apply Rplus_le_compat_l.
  apply Rmult_le_compat_l; [apply Rmult_le_pos; [apply norm_nonneg|assumption]|].
  apply (proj_max_tri (fun x => mapply (tf_rot (interp_at m t)) (vsub x (i_ref m)))); [|assumption].
  intros. apply interp_affine. assumption.
Qed.
Print Assumptions motion_bound_interp_triangle.

Theorem motion_bound_interp_rss : forall m b n t, unit (i_axis m) -> 0 <= i_ang m -> ortho (tf_rot (i_tf1 m)) -> t <= 1 ->
  bounds (interp_at m) n (in_rss b) t (rss_bound_interp m (interp_at m t) b n).
Proof.
  intros m b n t Hk Hw HO Ht q s (x & y & Hx & Hy & Hd) Hs. eapply Rle_trans; [apply interp_moves; assumption|].
  apply Rmult_le_compat_l; [lra|]. unfold rss_bound_interp. apply Rplus_le_compat_l.
  apply Rmult_le_compat_l; [apply Rmult_le_pos; [apply norm_nonneg|assumption]|].
  set (cur := interp_at m t). assert (OC : ortho (tf_rot cur)).
  { unfold cur, interp_at. cbn [tf_rot]. apply mmul_ortho; [apply rodm_ortho; assumption|assumption]. }
  replace (mapply (tf_rot cur) (vsub q (i_ref m)))
    with (vadd (mapply (tf_rot cur) (vsub q (rect b x y))) (mapply (tf_rot cur) (vsub (rect b x y) (i_ref m)))).
  2:{ rewrite !mapply_sub. vring. }
  replace (cross (vadd (mapply (tf_rot cur) (vsub q (rect b x y))) (mapply (tf_rot cur) (vsub (rect b x y) (i_ref m)))) (i_axis m))
    with (vadd (cross (mapply (tf_rot cur) (vsub q (rect b x y))) (i_axis m)) (cross (mapply (tf_rot cur) (vsub (rect b x y) (i_ref m))) (i_axis m))) by vring.
  eapply Rle_trans; [apply norm_triangle|]. apply Rplus_le_compat.
  - set (d := mapply (tf_rot cur) (vsub q (rect b x y))).
    assert (N : norm d <= rr b) by (unfold d; rewrite mapply_norm by assumption; exact Hd).
    eapply Rle_trans; [|exact N]. apply norm_mono. pose proof (lagrange d (i_axis m)) as L. unfold unit in Hk. rewrite Hk in L. nra.
  - apply (proj_max_rect (fun x => mapply (tf_rot cur) (vsub x (i_ref m)))); try assumption. intros. apply interp_affine. assumption.
Qed.
Print Assumptions motion_bound_interp_rss.

(** computeTBound is exactly the furthest the spline translation still moves along n:
    never exceeded, and reached. *)
Lemma cubic_poly : forall a b c t, cubic a b c t = poly 0 c b a t.
Proof. intros. unfold cubic, poly. ring. Qed.
Lemma between_in : forall t tc, tc < t -> t < 1 -> In t (between t tc).
Proof. intros t tc H1 H2. unfold between. destruct (Rlt_dec t 1); [|lra]. destruct (Rlt_dec tc t); [cbn; auto|lra]. Qed.
Lemma between_inv : forall t tc s, In s (between t tc) -> tc < s < 1.
Proof. intros t tc s. unfold between. destruct (Rlt_dec t 1); [|cbn; tauto]. destruct (Rlt_dec tc t); cbn; [|tauto]. intros [<-|[]]. lra. Qed.
Lemma tb_times_root : forall a b c tc s, tc < s < 1 -> c + 2 * b * s + 3 * a * s ^ 2 = 0 ->
  In s (tb_times a b c tc) \/ forall u, cubic a b c u = 0.
Proof.
  intros a b c tc s Hs E.
  assert (D : 0 <= b * b - 3 * a * c).
  { replace c with (- (2 * b * s) - 3 * a * s ^ 2) by lra. pose proof (Rle_0_sqr (b + 3 * a * s)) as Q. unfold Rsqr in Q. nra. }
  unfold tb_times. destruct (Rle_dec 0 (b * b - 3 * a * c)) as [_|N]; [|contradiction]. destruct (Req_EM_T a 0) as [A|A].
  - subst a. destruct (Req_EM_T b 0) as [B|B].
    + subst b. right. intros u. assert (c = 0) by lra. subst c. unfold cubic. ring.
    + left. right. right. replace (- c / (2 * b)) with s by (replace c with (- (2 * b * s)) by lra; field; assumption). apply between_in; lra.
  - left. right. right. apply in_or_app. right. apply in_or_app.
    set (q := sqrt (b * b - 3 * a * c)).
    assert (Hq : q * q = b * b - 3 * a * c) by (apply sqrt_sqrt; assumption).
    assert (P : (3 * a * s + b - q) * (3 * a * s + b + q) = 0).
    { replace ((3 * a * s + b - q) * (3 * a * s + b + q)) with ((3 * a * s + b) * (3 * a * s + b) - q * q) by ring. rewrite Hq. nra. }
    apply Rmult_integral in P. destruct P as [P|P].
    + left. replace ((- b + q) / (3 * a)) with s by (replace q with (3 * a * s + b) by lra; field; assumption). apply between_in; lra.
    + right. replace ((- b - q) / (3 * a)) with s by (replace q with (- (3 * a * s) - b) by lra; field; assumption). apply between_in; lra.
Qed.
Lemma tb_times_range : forall a b c tc s, tc <= 1 -> In s (tb_times a b c tc) -> tc <= s <= 1.
Proof.
  intros a b c tc s Ht. unfold tb_times. intros [<-|[<-|H]]; [lra|lra|].
  cbn [app] in H. assert (B : forall t, In s (between t tc) -> tc <= s <= 1) by (intros t I; apply between_inv in I; lra).
  destruct (Rle_dec _ _); [|destruct H]. destruct (Req_EM_T a 0).
  - destruct (Req_EM_T b 0); [destruct H|]. eapply B; eassumption.
  - apply in_app_or in H. destruct H as [H|H]; eapply B; eassumption.
Qed.

Theorem spline_tbound_exact : forall td rd n tc, tc <= 1 ->
  (forall s, tc <= s <= 1 -> dot n (vsub (tf_tr (spline_at td rd s)) (tf_tr (spline_at td rd tc))) <= spline_tbound td tc n) /\
  (exists s, tc <= s <= 1 /\ dot n (vsub (tf_tr (spline_at td rd s)) (tf_tr (spline_at td rd tc))) = spline_tbound td tc n).
Proof.
  intros td rd n tc Htc. set (a := dot (spline_TA td) n). set (b := dot (spline_TB td) n). set (c := dot (spline_TC td) n).
  assert (E : forall s, tc <= s <= 1 -> dot n (vsub (tf_tr (spline_at td rd s)) (tf_tr (spline_at td rd tc))) = (cubic a b c s - cubic a b c tc) / 6).
  { intros s Hs. unfold spline_at. cbn [tf_tr]. rewrite !clip_le by lra. unfold a, b, c, cubic, blend, wt0, wt1, wt2, wt3, spline_TA, spline_TB, spline_TC.
    generalize (q0 td) (q1 td) (q2 td) (q3 td). intros [? ? ?] [? ? ?] [? ? ?] [? ? ?]. destruct n as [? ? ?]. vunf. field. }
  unfold spline_tbound, tbound. fold a b c.
  set (M := fold_left (fun m t => upd m (cubic a b c t)) (tl (tb_times a b c tc)) (cubic a b c (hd 0 (tb_times a b c tc)))).
  destruct (fold_upd_ge _ (cubic a b c) (tl (tb_times a b c tc)) (cubic a b c tc)) as [G0 G1].
  assert (GM : forall s, In s (tb_times a b c tc) -> cubic a b c s <= M).
  { intros s [<-|H]; [exact G0|apply G1; exact H]. }
  split.
  - intros s Hs. rewrite E by assumption. enough (cubic a b c s <= M) by lra. rewrite cubic_poly.
    apply (poly_max 0 c b a tc 1); [assumption| | | |assumption].
    + rewrite <- cubic_poly. apply GM. left. reflexivity.
    + rewrite <- cubic_poly. apply GM. right. left. reflexivity.
    + intros u Hu R0. rewrite <- cubic_poly. destruct (tb_times_root a b c tc u Hu R0) as [I|Z]; [apply GM; exact I|].
      rewrite (Z u), <- (Z tc). apply GM. left. reflexivity.
  - destruct (fold_upd_in _ (cubic a b c) (tl (tb_times a b c tc)) (cubic a b c tc)) as [I|(s & I & F)].
    + exists tc. split; [lra|]. rewrite E by lra. unfold M. cbn [tb_times app hd tl] in *. rewrite I. reflexivity.
    + assert (Hs : tc <= s <= 1) by (apply (tb_times_range a b c); [assumption|right; exact I]).
      exists s. split; [exact Hs|]. rewrite E by assumption. unfold M. cbn [tb_times app hd tl] in *. rewrite F. reflexivity.
Qed.
Print Assumptions spline_tbound_exact.

(** But it is a distance over the rest of the motion, while the other motions give a
    speed and conservative advancement divides a distance by it: a decelerating spline
    covers more than the share of the bound. *)
Theorem spline_speed_refuted : forall rd, exists td,
  ~ bounds (fun t => mktf mid (tf_tr (spline_at td rd t))) (mk3 1 0 0) (fun _ => True) 0 (spline_tbound td 0 (mk3 1 0 0)).
Proof.
  intros rd. exists (Q4 (mk3 (-2) 0 0) (mk3 0 0 0) (mk3 0 0 0) (mk3 0 0 0)). set (td := Q4 _ _ _ _). intros H.
  specialize (H vzero (/ 2) I ltac:(lra)).
  assert (B : spline_tbound td 0 (mk3 1 0 0) <= / 3).
  { destruct (spline_tbound_exact td rd (mk3 1 0 0) 0 ltac:(lra)) as [_ (s & Hs & E)]. rewrite <- E.
    unfold spline_at. cbn [tf_tr]. rewrite !clip_le by lra. unfold blend, wt0, wt1, wt2, wt3, td. cbn [q0 q1 q2 q3]. vunf.
    replace (1 * ((1 - 3 * s + 3 * s * s - s * s * s) / 6 * -2 + (4 - 6 * s * s + 3 * s * s * s) / 6 * 0 + (1 + 3 * s + 3 * s * s - 3 * s * s * s) / 6 * 0 +
     s * s * s / 6 * 0 - ((1 - 3 * 0 + 3 * 0 * 0 - 0 * 0 * 0) / 6 * -2 + (4 - 6 * 0 * 0 + 3 * 0 * 0 * 0) / 6 * 0 + (1 + 3 * 0 + 3 * 0 * 0 - 3 * 0 * 0 * 0) / 6 * 0 + 0 * 0 * 0 / 6 * 0)) + _ + _)
     with (/ 3 - / 3 * ((1 - s) * (1 - s) * (1 - s))) by field.
    assert (0 <= (1 - s) * (1 - s) * (1 - s)) by (apply Rmult_le_pos; [apply Rmult_le_pos|]; lra). lra. }
  set (B0 := spline_tbound td 0 (mk3 1 0 0)) in *. clearbody B0.
  unfold spline_at in H. cbn [tf_tr] in H. rewrite !clip_le in H by lra.
  unfold blend, wt0, wt1, wt2, wt3, tf_apply, mid in H. cbn [tf_rot tf_tr td q0 q1 q2 q3] in H. unfold td in H. cbn [q0 q1 q2 q3] in H.
  unfold mapply, vadd, vsub, vscale, dot, vzero in H. cbn [VecR.c0 VecR.c1 VecR.c2 VecR.m0 VecR.m1 VecR.m2] in H. lra.
Qed.
Print Assumptions spline_speed_refuted.
