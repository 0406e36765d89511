(** C68: queries of shapes against half-spaces. *)
From Coq Require Import Reals Lra Lia List Bool.
From Verif Require Import VecR Motion Eigen3 Obb Fit Prim P_Prim AabbDist ShapeBV P_ShapeBV BoundVerts P_BoundVerts HalfBV P_HalfBV HalfQuery.
Import ListNotations.
Open Scope R_scope.

(** ** What the answers mean *)
Definition meets (K H : v3 -> Prop) : Prop := exists p, K p /\ H p.
(** A deepest point [q] of the shape; the contact is half way to the boundary along [w]. *)
Definition deepest_contact (nrm w : v3) (K : v3 -> Prop) (h : flat) (c : contact) : Prop :=
  cnorm c = nrm /\ exists q, K q /\ cdepth c = - sd h q /\ (forall p, K p -> - sd h p <= cdepth c) /\
  cpos c = vadd q (vscale (cdepth c / 2) w).
Definition half_ok (nrm w : v3) (K : v3 -> Prop) (s : flat) (X2 : tf) (res : option contact) : Prop :=
  (res = None <-> ~ meets K (placed X2 (in_half s))) /\
  (forall c, res = Some c -> deepest_contact nrm w K (flat_transform s X2) c).

Lemma sd_half : forall s X2 p, ortho (tf_rot X2) -> dot (fn s) (fn s) = 1 -> (sd (flat_transform s X2) p <= 0 <-> placed X2 (in_half s) p).
Proof. intros s X2 p O U. rewrite <- (proj1 (flat_transform_exact s X2 p O U)). unfold sd, in_half. split; lra. Qed.
Lemma half_finish : forall nrm w (K : v3 -> Prop) s X2 q res, ortho (tf_rot X2) -> dot (fn s) (fn s) = 1 ->
  let h := flat_transform s X2 in
  K q -> (forall p, K p -> sd h q <= sd h p) ->
  (0 <= - sd h q -> res = Some (mkct nrm (vadd q (vscale (- sd h q / 2) w)) (- sd h q))) ->
  (0 < sd h q -> res = None) -> half_ok nrm w K s X2 res.
Proof.
  intros nrm w K s X2 q res O U h Kq Min HS HN. destruct (Rle_dec 0 (- sd h q)) as [P|N]; [|apply Rnot_le_lt in N].
  - rewrite (HS P). split.
    + split; [discriminate|]. intros H. exfalso. apply H. exists q. split; [exact Kq|]. apply sd_half; [assumption..|]. fold h. lra.
    + intros c E. injection E as <-. split; [reflexivity|]. exists q. cbn [cnorm cpos cdepth]. fold h. split; [exact Kq|split; [reflexivity|split; [|reflexivity]]]. intros p Hp. specialize (Min p Hp). lra.
  - rewrite HN by lra. split; [|discriminate]. split; [|reflexivity]. intros _ (p & Kp & Hp). apply sd_half in Hp; [|assumption..]. specialize (Min p Kp). fold h in Hp. lra.
Qed.

(** ** The half-space in the frame of the shape *)
Definition loc (h : flat) (X : tf) : flat := Flat (mtapply (tf_rot X) (fn h)) (fd h - dot (fn h) (tf_tr X)).
Lemma adjoint : forall m a b, dot a (mapply m b) = dot (mtapply m a) b. Proof. vring. Qed.
Lemma sd_loc : forall h X p, sd h (tf_apply X p) = sd (loc h X) p.
Proof. intros h X p. unfold sd, loc, tf_apply. cbn [fn fd]. rewrite dot_add_r, adjoint. ring. Qed.
Lemma sd_add : forall h p v, sd h (vadd p v) = sd h p + dot (fn h) v.
Proof. intros. unfold sd. rewrite dot_add_r. ring. Qed.
Lemma loc_unit : forall h X, ortho (tf_rot X) -> dot (fn h) (fn h) = 1 -> dot (fn (loc h X)) (fn (loc h X)) = 1.
Proof. intros. unfold loc. cbn [fn]. rewrite mt_dot by assumption. assumption. Qed.
Lemma transform_unit : forall s X, ortho (tf_rot X) -> dot (fn s) (fn s) = 1 -> dot (fn (flat_transform s X)) (fn (flat_transform s X)) = 1.
Proof. intros s X O U. destruct (transform_form s X O U) as [-> E]. exact E. Qed.
Lemma unit_normal_id : forall n d, dot n n = 1 -> unit_normal (Flat n d) = Flat n d.
Proof.
  intros n d U. unfold unit_normal. cbn [fn fd]. assert (N : norm n = 1) by (unfold norm, norm2; rewrite U; apply sqrt_1). rewrite N. destruct (Rlt_dec 0 1); [|lra].
  rewrite Rinv_1, Rmult_1_r. f_equal. destruct n. unfold vscale. cbn. f_equal; ring.
Qed.
Lemma mapply_mtrans : forall m v, mapply (mtrans m) v = mtapply m v. Proof. intros m v. unfold mtrans. vring. Qed.
Lemma mapply_mmul : forall a b v, mapply (mmul a b) v = mapply a (mapply b v).
Proof. intros [[] [] []] [[] [] []] []. unfold mmul, mapply, vadd, vscale. cbn. f_equal; ring. Qed.
(** The relative transform used for ellipsoids and polytopes gives the same half-space. *)
Lemma relative : forall s X X2, ortho (tf_rot X) -> ortho (tf_rot X2) -> dot (fn s) (fn s) = 1 ->
  flat_transform s (tf_mul (tf_inverse X) X2) = loc (flat_transform s X2) X.
Proof.
  intros s X X2 O O2 U. destruct (transform_form s X2 O2 U) as [E U2]. rewrite E. unfold loc. cbn [fn fd]. unfold flat_transform, flat_make, tf_mul, tf_inverse. cbn [tf_rot tf_tr].
  rewrite mapply_mmul, mapply_mtrans. set (n := mapply (tf_rot X2) (fn s)) in *. rewrite unit_normal_id by (rewrite mt_dot by exact O; exact U2). f_equal.
  unfold tf_apply. cbn [tf_rot tf_tr]. rewrite mapply_mtrans, dot_add_r, mt_dot by exact O.
  replace (dot (mtapply (tf_rot X) n) (vneg (mtapply (tf_rot X) (tf_tr X)))) with (- dot n (tf_tr X)); [ring|].
  rewrite <- (mt_dot (tf_rot X) n (tf_tr X) O). generalize (mtapply (tf_rot X) n) (mtapply (tf_rot X) (tf_tr X)). intros [] []. unfold dot, vneg. cbn. ring.
Qed.
Lemma placed_min : forall h X (K : v3 -> Prop) q, (forall p, K p -> sd (loc h X) q <= sd (loc h X) p) -> forall p, placed X K p -> sd h (tf_apply X q) <= sd h p.
Proof. intros h X K q H p (p0 & Kp & ->). rewrite !sd_loc. apply H, Kp. Qed.
Lemma placed_intro : forall X (K : v3 -> Prop) q, K q -> placed X K (tf_apply X q). Proof. intros. exists q. auto. Qed.
Lemma sd_scale : forall h k q, sd h (vscale k q) = k * dot (fn h) q - fd h. Proof. intros. unfold sd. rewrite dot_scale_r. reflexivity. Qed.
Lemma half_eq : forall x, x * (1/2) = x / 2. Proof. intros. field. Qed.
Lemma half_eq' : forall x, 1/2 * x = x / 2. Proof. intros. field. Qed.

(** ** Sphere *)
Theorem sphere_half_exact : forall r X s X2, 0 <= r -> ortho (tf_rot X) -> ortho (tf_rot X2) -> dot (fn s) (fn s) = 1 ->
  let h := flat_transform s X2 in half_ok (vneg (fn h)) (fn h) (placed X (ball vzero r)) s X2 (sphere_half r X h).
Proof.
  intros r X s X2 Hr O O2 U h. pose proof (transform_unit s X2 O2 U) as Uh. fold h in Uh. pose proof (loc_unit h X O Uh) as Ul.
  set (q := vscale (- r) (fn (loc h X))). assert (Eq : tf_apply X q = vsub (tf_tr X) (vscale r (fn h))).
  { unfold q, tf_apply, loc. cbn [fn]. transitivity (vadd (vscale (- r) (mapply (tf_rot X) (mtapply (tf_rot X) (fn h)))) (tf_tr X)); [generalize (mtapply (tf_rot X) (fn h)); intros v; vring|]. rewrite mapply_mt by exact O. generalize (fn h) (tf_tr X). vring. }
  assert (Sq : sd h (tf_apply X q) = sd h (tf_tr X) - r). { rewrite Eq. unfold sd. rewrite dot_sub_r, dot_scale_r, Uh. ring. }
  apply (half_finish _ _ _ s X2 (tf_apply X q)); [exact O2|exact U|..]; fold h.
  - apply placed_intro. unfold ball, dist. apply norm_le_sq; [exact Hr|]. replace (vsub q vzero) with q by (destruct q; unfold vsub, vzero; cbn; f_equal; ring). unfold q, norm2. rewrite dot_scale_l, dot_scale_r, Ul. lra.
  - apply placed_min. intros p Hp. unfold sd. unfold q. rewrite dot_scale_r, Ul. assert (N : norm (vneg p) <= r).
    { unfold ball, dist in Hp. replace (norm (vneg p)) with (norm (vsub p vzero)); [exact Hp|]. unfold norm. f_equal. destruct p. unfold norm2, dot, vsub, vneg, vzero. cbn. ring. }
    pose proof (cs (fn (loc h X)) (vneg p) r N) as C. replace (norm (fn (loc h X))) with 1 in C by (unfold norm, norm2; rewrite Ul, sqrt_1; reflexivity).
    replace (dot (fn (loc h X)) (vneg p)) with (- dot (fn (loc h X)) p) in C by (destruct (fn (loc h X)), p; unfold dot, vneg; cbn; ring). lra.
  - rewrite Sq. intros H. unfold sphere_half, tr. destruct (Rle_dec 0 (r - sd h (tf_tr X))); [|lra]. rewrite Eq, half_eq. replace (- (sd h (tf_tr X) - r)) with (r - sd h (tf_tr X)) by ring. reflexivity.
  - rewrite Sq. intros H. unfold sphere_half, tr. destruct (Rle_dec 0 (r - sd h (tf_tr X))); [lra|reflexivity].
Qed.
Print Assumptions sphere_half_exact.

(** ** Ellipsoid *)
Lemma support2_sq : forall radii n, support2 radii n * support2 radii n = norm2 (mul3 radii n).
Proof.
  intros radii n. unfold support2. rewrite sqrt_sqrt; [destruct radii, n; unfold dot, norm2, mul3, dot; cbn; ring|].
  replace (dot (mul3 n n) (mul3 radii radii)) with (norm2 (mul3 radii n)) by (destruct radii, n; unfold dot, norm2, mul3, dot; cbn; ring). apply norm2_nonneg.
Qed.
Lemma support2_norm : forall radii n, support2 radii n = norm (mul3 radii n).
Proof. intros. unfold support2, norm. f_equal. destruct radii, n; unfold dot, norm2, mul3, dot; cbn; ring. Qed.
Lemma ell_extreme : forall radii n, 0 < support2 radii n ->
  let sv := vscale (1 / support2 radii n) (mul3 (mul3 radii radii) n) in
  dot n sv = support2 radii n /\ ellset radii sv /\ ellset radii (vneg sv) /\ (forall p, ellset radii p -> Rabs (dot n p) <= support2 radii n).
Proof.
  intros radii n P sv. pose proof (support2_sq radii n) as Sq. set (k := support2 radii n) in *.
  assert (D : dot n (mul3 (mul3 radii radii) n) = norm2 (mul3 radii n)) by (destruct radii, n; unfold dot, norm2, mul3, dot; cbn; ring).
  assert (W : norm2 (vscale (1 / k) (mul3 radii n)) = 1).
  { unfold norm2. rewrite dot_scale_l, dot_scale_r. fold (norm2 (mul3 radii n)). rewrite <- Sq. field. lra. }
  split; [unfold sv; rewrite dot_scale_r, D, <- Sq; field; lra|]. split; [|split].
  - exists (vscale (1 / k) (mul3 radii n)). split; [lra|]. unfold sv. destruct radii, n. unfold vscale, mul3. cbn. f_equal; ring.
  - exists (vscale (- (1 / k)) (mul3 radii n)). split; [unfold norm2 in *; rewrite dot_scale_l, dot_scale_r in *; lra|]. unfold sv. destruct radii, n. unfold vscale, mul3, vneg. cbn. f_equal; ring.
  - intros p (w & Hw & ->). assert (Nw : norm w <= 1) by (apply norm_le_sq; lra).
    replace (dot n (mk3 (c0 radii * c0 w) (c1 radii * c1 w) (c2 radii * c2 w))) with (dot (mul3 radii n) w) by (destruct radii, n, w; unfold dot, mul3; cbn; ring).
    pose proof (cauchy_schwarz_abs (mul3 radii n) w) as C. rewrite <- support2_norm in C. fold k in C. assert (k * norm w <= k * 1) by (apply Rmult_le_compat_l; lra). lra.
Qed.
Theorem ell_half_exact : forall radii X s X2, ortho (tf_rot X) -> ortho (tf_rot X2) -> dot (fn s) (fn s) = 1 ->
  let h := flat_transform s X2 in let k := support2 radii (fn (loc h X)) in 0 < k ->
  exists w, dot (fn h) w = 1 /\ half_ok (vneg (fn h)) w (placed X (ellset radii)) s X2 (ell_half radii X s X2).
Proof.
  intros radii X s X2 O O2 U h k Hk. pose proof (transform_unit s X2 O2 U) as Uh. fold h in Uh. pose proof (loc_unit h X O Uh) as Ul.
  set (g := loc h X) in *. destruct (ell_extreme radii (fn g) Hk) as (Ds & Es & En & Ex). fold k in Ds, Es, En, Ex. set (sv := vscale (1 / k) (mul3 (mul3 radii radii) (fn g))) in *.
  exists (mapply (tf_rot X) (vscale (1 / k) sv)). split. { rewrite adjoint. change (mtapply (tf_rot X) (fn h)) with (fn g). rewrite dot_scale_r, Ds. field. lra. }
  assert (Sq : sd h (tf_apply X (vneg sv)) = - k - fd g).
  { rewrite sd_loc. fold g. unfold sd. replace (dot (fn g) (vneg sv)) with (- dot (fn g) sv) by (generalize (fn g) sv; vring). rewrite Ds. reflexivity. }
  assert (Nn : mapply (tf_rot X) (vneg (fn g)) = vneg (fn h)).
  { transitivity (vneg (mapply (tf_rot X) (fn g))); [generalize (fn g); vring|]. unfold g, loc. cbn [fn]. rewrite mapply_mt by exact O. reflexivity. }
  apply (half_finish _ _ _ s X2 (tf_apply X (vneg sv))); [exact O2|exact U|..]; fold h.
  - apply placed_intro. exact En.
  - apply placed_min. fold g. intros p Hp. specialize (Ex p Hp). unfold sd. replace (dot (fn g) (vneg sv)) with (- dot (fn g) sv) by (generalize (fn g) sv; vring). rewrite Ds. apply Rabs_le_inv in Ex. lra.
  - rewrite Sq. intros H. unfold ell_half. rewrite (relative s X X2 O O2 U). fold h g k. destruct (Rle_dec 0 (k + fd g)); [|lra]. fold sv. rewrite Nn, Ds. f_equal. f_equal; [|ring].
    replace (- (- k - fd g)) with (k + fd g) by ring. unfold tf_apply. generalize (tf_tr X) (tf_rot X) sv. clear - Hk. intros t m v. destruct t, m as [[] [] []], v. unfold vadd, mapply, vscale, vneg, vadd, vscale. cbn. f_equal; field; lra.
  - rewrite Sq. intros H. unfold ell_half. rewrite (relative s X X2 O O2 U). fold h g k. destruct (Rle_dec 0 (k + fd g)); [lra|reflexivity].
Qed.
Print Assumptions ell_half_exact.

(** ** Box *)
Lemma away_abs : forall a x, a * (1/2 * x * away (a * x)) = - (1/2 * Rabs (a * x)).
Proof. intros a x. unfold away, Rabs. destruct (Rlt_dec 0 (a * x)); destruct (Rcase_abs (a * x)); lra. Qed.
Lemma away_cases : forall a, away a = 1 \/ away a = -1.
Proof. intros a. unfold away. destruct (Rlt_dec 0 a); auto. Qed.
Lemma box_reach_bound : forall side Q p, boxset side p -> Rabs (dot Q p) <= box_reach side Q.
Proof.
  intros side Q p H. pose proof (H 0%nat ltac:(lia)) as H0. pose proof (H 1%nat ltac:(lia)) as H1. pose proof (H 2%nat ltac:(lia)) as H2. cbn [comp] in H0, H1, H2. unfold box_reach, dot.
  assert (A : forall a x s, - (s / 2) <= x <= s / 2 -> Rabs (a * x) <= 1/2 * Rabs (a * s)).
  { intros a x s Hx. rewrite !Rabs_mult. pose proof (Rabs_pos a). assert (E : Rabs s = s) by (apply Rabs_pos_eq; lra). replace (1/2 * (Rabs a * Rabs s)) with (Rabs a * (s / 2)) by (rewrite E; field). apply Rmult_le_compat_l; [lra|]. apply Rabs_le. lra. }
  pose proof (A (c0 Q) _ _ H0). pose proof (A (c1 Q) _ _ H1). pose proof (A (c2 Q) _ _ H2).
  pose proof (Rabs_triang (c0 Q * c0 p + c1 Q * c1 p) (c2 Q * c2 p)). pose proof (Rabs_triang (c0 Q * c0 p) (c1 Q * c1 p)). lra.
Qed.
(** The point chosen, in the frame of the box *)
Definition box_pick (tol : R) (side Q : v3) (g : R) : v3 :=
  let along i := 1/2 * comp i side * (away (comp i (mul3 Q side)) * g) in
  if one tol (c0 Q) then mk3 (along 0%nat) 0 0
  else if one tol (c1 Q) then mk3 0 (along 1%nat) 0
  else if one tol (c2 Q) then mk3 0 0 (along 2%nat)
  else mk3 (along 0%nat) (along 1%nat) (along 2%nat).
Lemma box_pick_place : forall tol side X Q g, box_deep tol side X Q g = tf_apply X (box_pick tol side Q g).
Proof.
  intros tol side X Q g. unfold box_deep, box_pick, tr, tf_apply. destruct X as [[[x0 x1 x2] [y0 y1 y2] [z0 z1 z2]] [t0 t1 t2]]. cbn [tf_rot tf_tr col comp].
  destruct (one tol (c0 Q)); [|destruct (one tol (c1 Q)); [|destruct (one tol (c2 Q))]]; unfold mapply, vadd, vscale; cbn [c0 c1 c2 VecR.m0 VecR.m1 VecR.m2]; f_equal; ring.
Qed.
(** The tolerance is harmless: it takes no direction for an axis that is not one. *)
Definition box_exact (tol : R) (Q : v3) : Prop := forall i, (i < 3)%nat -> one tol (comp i Q) = true -> comp i Q * comp i Q = 1.
Lemma box_pick_in : forall tol side Q g, 0 <= c0 side -> 0 <= c1 side -> 0 <= c2 side -> g = 1 \/ g = -1 -> boxset side (box_pick tol side Q g).
Proof.
  intros tol side Q g S0 S1 S2 G i Hi. unfold box_pick. cbn [comp mul3 c0 c1 c2].
  assert (B : forall a s, 0 <= s -> - (s / 2) <= 1/2 * s * (away a * g) <= s / 2) by (intros a s Hs; destruct (away_cases a) as [-> | ->], G as [-> | ->]; lra).
  pose proof (B (c0 Q * c0 side) _ S0). pose proof (B (c1 Q * c1 side) _ S1). pose proof (B (c2 Q * c2 side) _ S2).
  destruct (one tol (c0 Q)); [|destruct (one tol (c1 Q)); [|destruct (one tol (c2 Q))]]; destruct i as [|[|[|]]]; cbn [comp c0 c1 c2]; lra.
Qed.
Lemma unit_axis : forall Q, dot Q Q = 1 -> (c0 Q * c0 Q = 1 -> c1 Q = 0 /\ c2 Q = 0) /\ (c1 Q * c1 Q = 1 -> c0 Q = 0 /\ c2 Q = 0) /\ (c2 Q * c2 Q = 1 -> c0 Q = 0 /\ c1 Q = 0).
Proof.
  intros Q U. unfold dot in U. pose proof (Rle_0_sqr (c0 Q)). pose proof (Rle_0_sqr (c1 Q)). pose proof (Rle_0_sqr (c2 Q)). unfold Rsqr in *.
  repeat split; apply Rsqr_0_uniq; unfold Rsqr; lra.
Qed.
Lemma box_pick_sd : forall tol side Q g, dot Q Q = 1 -> box_exact tol Q -> dot Q (box_pick tol side Q g) = - g * box_reach side Q.
Proof.
  intros tol side Q g U E. destruct (unit_axis Q U) as (U0 & U1 & U2). unfold box_pick, box_reach. cbn [comp mul3 c0 c1 c2].
  pose proof (away_abs (c0 Q) (c0 side)) as A0. pose proof (away_abs (c1 Q) (c1 side)) as A1. pose proof (away_abs (c2 Q) (c2 side)) as A2.
  assert (Z : forall x, Rabs (0 * x) = 0) by (intros x; rewrite Rmult_0_l; apply Rabs_R0).
  destruct (one tol (c0 Q)) eqn:O0; [|destruct (one tol (c1 Q)) eqn:O1; [|destruct (one tol (c2 Q)) eqn:O2]]; unfold dot; cbn [c0 c1 c2].
  - destruct (U0 (E 0%nat ltac:(lia) O0)) as [Z1 Z2]. rewrite Z1, Z2, !Z.
    transitivity (c0 Q * (1/2 * c0 side * away (c0 Q * c0 side)) * g); [ring|]. rewrite A0. ring.
  - destruct (U1 (E 1%nat ltac:(lia) O1)) as [Z1 Z2]. rewrite Z1, Z2, !Z.
    transitivity (c1 Q * (1/2 * c1 side * away (c1 Q * c1 side)) * g); [ring|]. rewrite A1. ring.
  - destruct (U2 (E 2%nat ltac:(lia) O2)) as [Z1 Z2]. rewrite Z1, Z2, !Z.
    transitivity (c2 Q * (1/2 * c2 side * away (c2 Q * c2 side)) * g); [ring|]. rewrite A2. ring.
  - transitivity ((c0 Q * (1/2 * c0 side * away (c0 Q * c0 side)) + c1 Q * (1/2 * c1 side * away (c1 Q * c1 side)) + c2 Q * (1/2 * c2 side * away (c2 Q * c2 side))) * g); [ring|]. rewrite A0, A1, A2. ring.
Qed.
Lemma loc_tr : forall h X, sd h (tf_tr X) = - fd (loc h X). Proof. intros. unfold sd, loc. cbn. ring. Qed.
Lemma sd_dot : forall h X p, sd h (tf_apply X p) = dot (fn (loc h X)) p + sd h (tf_tr X).
Proof. intros. rewrite sd_loc, loc_tr. unfold sd. ring. Qed.
Theorem box_half_exact : forall tol side X s X2, 0 <= c0 side -> 0 <= c1 side -> 0 <= c2 side -> ortho (tf_rot X) -> ortho (tf_rot X2) -> dot (fn s) (fn s) = 1 ->
  let h := flat_transform s X2 in box_exact tol (mtapply (tf_rot X) (fn h)) ->
  half_ok (vneg (fn h)) (fn h) (placed X (boxset side)) s X2 (box_half tol side X h).
Proof.
  intros tol side X s X2 S0 S1 S2 O O2 U h E. pose proof (transform_unit s X2 O2 U) as Uh. fold h in Uh. pose proof (loc_unit h X O Uh) as Ul. change (fn (loc h X)) with (mtapply (tf_rot X) (fn h)) in Ul. set (Q := mtapply (tf_rot X) (fn h)) in *.
  assert (Sq : sd h (tf_apply X (box_pick tol side Q 1)) = - (box_reach side Q - sd h (tf_tr X))). { rewrite sd_dot. change (fn (loc h X)) with Q. rewrite (box_pick_sd tol side Q 1 Ul E). ring. }
  apply (half_finish _ _ _ s X2 (tf_apply X (box_pick tol side Q 1))); [exact O2|exact U|..]; fold h.
  - apply placed_intro, box_pick_in; auto.
  - intros p (p0 & Hp & ->). rewrite Sq, sd_dot. change (fn (loc h X)) with Q. pose proof (Rabs_le_inv _ _ (box_reach_bound side Q p0 Hp)). lra.
  - rewrite Sq. intros H. unfold box_half, tr. fold Q. destruct (Rlt_dec _ 0); [lra|]. rewrite box_pick_place, half_eq, Ropp_involutive. reflexivity.
  - rewrite Sq. intros H. unfold box_half, tr. fold Q. destruct (Rlt_dec _ 0); [reflexivity|lra].
Qed.
Print Assumptions box_half_exact.
(** Answer and depth never depend on the tolerance, and the test without contacts agrees. *)
Theorem box_half_answer : forall tol side X s X2, 0 <= c0 side -> 0 <= c1 side -> 0 <= c2 side -> ortho (tf_rot X) -> ortho (tf_rot X2) -> dot (fn s) (fn s) = 1 ->
  let h := flat_transform s X2 in
  (box_half_test side X h = true <-> meets (placed X (boxset side)) (placed X2 (in_half s))) /\
  (box_half_test side X h = match box_half tol side X h with Some _ => true | None => false end) /\
  (forall c, box_half tol side X h = Some c -> exists q, placed X (boxset side) q /\ cdepth c = - sd h q /\ forall p, placed X (boxset side) p -> - sd h p <= cdepth c).
Proof.
  intros tol side X s X2 S0 S1 S2 O O2 U h. pose proof (transform_unit s X2 O2 U) as Uh. fold h in Uh.
  assert (E : box_exact 0 (mtapply (tf_rot X) (fn h))).
  { intros i _ H. exfalso. unfold one in H. pose proof (Rabs_pos (comp i (mtapply (tf_rot X) (fn h)) - 1)). pose proof (Rabs_pos (comp i (mtapply (tf_rot X) (fn h)) + 1)). destruct (Rlt_dec _ 0); [lra|]. destruct (Rlt_dec _ 0); [lra|discriminate]. }
  destruct (box_half_exact 0 side X s X2 S0 S1 S2 O O2 U E) as [A B]. fold h in A, B.
  assert (T : forall t, box_half_test side X h = match box_half t side X h with Some _ => true | None => false end).
  { intros t. unfold box_half_test, box_half. destruct (Rle_dec 0 _), (Rlt_dec _ 0); try reflexivity; lra. }
  split; [|split; [apply T|]].
  - rewrite (T 0). destruct (box_half 0 side X h) as [c|] eqn:F.
    + split; [|reflexivity]. intros _. destruct (B c eq_refl) as (_ & q & Kq & D & _ & _). exists q. split; [exact Kq|]. apply sd_half; [exact O2|exact U|]. fold h.
      unfold box_half in F. destruct (Rlt_dec _ 0); [discriminate|]. injection F as <-. cbn [cdepth] in D. lra.
    + split; [discriminate|]. intros M. exfalso. apply (proj1 A eq_refl M).
  - intros c F. unfold box_half in F. destruct (Rlt_dec _ 0) as [|N]; [discriminate|]. injection F as <-.
    assert (F0 : exists c0, box_half 0 side X h = Some c0 /\ cdepth c0 = box_reach side (mtapply (tf_rot X) (fn h)) - sd h (tr X)).
    { unfold box_half. destruct (Rlt_dec _ 0); [lra|]. eexists. split; reflexivity. }
    destruct F0 as (k & F0 & D0). destruct (B k F0) as (_ & q & Kq & D & M & _). exists q. cbn [cdepth]. rewrite <- D0. auto.
Qed.
Print Assumptions box_half_answer.

(** ** Capsule *)
Lemma cosa_loc : forall h X, dot (VecR.m2 (tf_rot X)) (fn h) = c2 (fn (loc h X)).
Proof. intros [[] ?] [[[] [] []] []]. unfold loc, mtapply, dot. cbn. ring. Qed.
Lemma axis_point : forall X k, vadd (tr X) (vscale k (VecR.m2 (tf_rot X))) = tf_apply X (mk3 0 0 k).
Proof. intros [[[] [] []] []] k. unfold tr, tf_apply, mapply, vadd, vscale. cbn. f_equal; ring. Qed.
Lemma axis_point' : forall X k, vsub (tr X) (vscale k (VecR.m2 (tf_rot X))) = tf_apply X (mk3 0 0 (- k)).
Proof. intros [[[] [] []] []] k. unfold tr, tf_apply, mapply, vadd, vsub, vscale. cbn. f_equal; ring. Qed.
Lemma normal_point : forall h X q k, ortho (tf_rot X) -> vadd (tf_apply X q) (vscale k (fn h)) = tf_apply X (vadd q (vscale k (fn (loc h X)))).
Proof.
  intros h X q k O. unfold tf_apply, loc. cbn [fn]. rewrite mapply_add. replace (mapply (tf_rot X) (vscale k (mtapply (tf_rot X) (fn h)))) with (vscale k (mapply (tf_rot X) (mtapply (tf_rot X) (fn h)))) by (generalize (mtapply (tf_rot X) (fn h)); vring).
  rewrite mapply_mt by exact O. generalize (mapply (tf_rot X) q) (tf_tr X) (fn h). vring.
Qed.
Lemma origin_point : forall X, tf_tr X = tf_apply X vzero.
Proof. intros [[[] [] []] []]. unfold tf_apply, mapply, vadd, vscale, vzero. cbn. f_equal; ring. Qed.
Lemma small_true : forall tol x, small tol x = true -> Rabs x < tol. Proof. intros tol x H. unfold small in H. destruct (Rlt_dec (Rabs x) tol); [assumption|discriminate]. Qed.
Lemma small_false : forall tol x, small tol x = false -> tol <= Rabs x. Proof. intros tol x H. unfold small in H. destruct (Rlt_dec (Rabs x) tol); [discriminate|lra]. Qed.
Lemma small_zero : forall tol, 0 < tol -> small tol 0 = true. Proof. intros. unfold small. rewrite Rabs_R0. destruct (Rlt_dec 0 tol); [reflexivity|lra]. Qed.
(** The tolerance is harmless: a value within it of [v] is [v]. *)
Definition sharp (tol x v : R) : Prop := Rabs (x - v) < tol -> x = v.
Lemma sharp_small : forall tol x, sharp tol x 0 -> small tol x = true -> x = 0. Proof. intros tol x S H. apply S. rewrite Rminus_0_r. apply small_true, H. Qed.
Lemma away_val : forall c, c * away c = - Rabs c. Proof. intros c. unfold away, Rabs. destruct (Rlt_dec 0 c), (Rcase_abs c); lra. Qed.
Lemma capset_bound : forall lz r Q p, dot Q Q = 1 -> 0 <= lz -> capset lz r p -> Rabs (dot Q p) <= r + Rabs (c2 Q) * (lz / 2).
Proof.
  intros lz r Q p U Hl (z & Hz & D). unfold dist in D. pose proof (cauchy_schwarz_abs Q (vsub p (mk3 0 0 z))) as C.
  replace (norm Q) with 1 in C by (unfold norm, norm2; rewrite U, sqrt_1; reflexivity). rewrite dot_sub_r in C. replace (dot Q (mk3 0 0 z)) with (c2 Q * z) in C by (unfold dot; cbn; ring).
  assert (A : Rabs (c2 Q * z) <= Rabs (c2 Q) * (lz / 2)) by (rewrite Rabs_mult; apply Rmult_le_compat_l; [apply Rabs_pos|apply Rabs_le; lra]).
  apply Rabs_le. apply Rabs_le_inv in C. apply Rabs_le_inv in A. lra.
Qed.
Lemma capset_tip : forall lz r Q z k, 0 <= r -> dot Q Q = 1 -> - (lz / 2) <= z <= lz / 2 -> -1 <= k <= 1 -> capset lz r (vadd (mk3 0 0 z) (vscale (k * r) Q)).
Proof.
  intros lz r Q z k Hr U Hz Hk. exists z. split; [exact Hz|]. unfold dist. replace (vsub (vadd (mk3 0 0 z) (vscale (k * r) Q)) (mk3 0 0 z)) with (vscale (k * r) Q) by (destruct Q; unfold vsub, vadd, vscale; cbn; f_equal; ring).
  apply norm_le_sq; [exact Hr|]. unfold norm2. rewrite dot_scale_l, dot_scale_r, U. assert (k * k <= 1) by nra. assert (0 <= r * r) by apply Rle_0_sqr. assert (0 <= r * r * (1 - k * k)) by (apply Rmult_le_pos; lra). lra.
Qed.
Lemma back_half : forall p n d r, vadd p (vscale (1/2 * d - r) n) = vadd (vadd p (vscale (- r) n)) (vscale (d / 2) n).
Proof. intros [] [] d r. unfold vadd, vscale. cbn. f_equal; field. Qed.
Lemma back_half' : forall p n d r, vadd (vsub p (vscale r n)) (vscale (1/2 * d) n) = vadd (vadd p (vscale (- r) n)) (vscale (d / 2) n).
Proof. intros [] [] d r. unfold vadd, vsub, vscale. cbn. f_equal; field. Qed.
Theorem capsule_half_exact : forall tol lz r X s X2, 0 <= lz -> 0 <= r -> ortho (tf_rot X) -> ortho (tf_rot X2) -> dot (fn s) (fn s) = 1 ->
  let h := flat_transform s X2 in sharp tol (dot (VecR.m2 (tf_rot X)) (fn h)) 0 ->
  half_ok (vneg (fn h)) (fn h) (placed X (capset lz r)) s X2 (capsule_half tol lz r X h).
Proof.
  intros tol lz r X s X2 Hl Hr O O2 U h Sh. pose proof (transform_unit s X2 O2 U) as Uh. fold h in Uh. pose proof (loc_unit h X O Uh) as Ul. rewrite cosa_loc in Sh. set (Q := fn (loc h X)) in *.
  set (k := if small tol (c2 Q) then 0 else lz * (1/2) * away (c2 Q)).
  assert (Hk : c2 Q * k = - (Rabs (c2 Q) * (lz / 2)) /\ - (lz / 2) <= k <= lz / 2).
  { unfold k. destruct (small tol (c2 Q)) eqn:E. - rewrite (sharp_small _ _ Sh E), Rabs_R0. lra.
    - pose proof (away_val (c2 Q)) as A. split; [replace (c2 Q * (lz * (1/2) * away (c2 Q))) with (c2 Q * away (c2 Q) * (lz / 2)) by field; rewrite A; ring|]. destruct (away_cases (c2 Q)) as [-> | ->]; lra. }
  destruct Hk as [Hk Hk'].
  set (q := vadd (mk3 0 0 k) (vscale (-1 * r) Q)).
  assert (Dq : dot Q q = - (Rabs (c2 Q) * (lz / 2)) - r). { unfold q. rewrite dot_add_r, dot_scale_r, Ul, <- Hk. unfold dot. cbn. ring. }
  assert (Sq : sd h (tf_apply X q) = - (Rabs (c2 Q) * (lz / 2)) - r + sd h (tf_tr X)) by (rewrite sd_dot; fold Q; rewrite Dq; reflexivity).
  assert (F : capsule_half tol lz r X h = let depth := - sd h (tf_apply X q) in if Rlt_dec depth 0 then None else Some (mkct (vneg (fn h)) (vadd (tf_apply X q) (vscale (depth / 2) (fn h))) depth)).
  { unfold capsule_half. rewrite cosa_loc. fold Q. cbv zeta. assert (Eq : tf_apply X q = vadd (tf_apply X (mk3 0 0 k)) (vscale (- r) (fn h))) by (rewrite normal_point by exact O; fold Q; unfold q; do 3 f_equal; ring).
    assert (Sp : sd h (tf_apply X (mk3 0 0 k)) = sd h (tf_apply X q) + r) by (rewrite Eq, sd_add, dot_scale_r, Uh; ring).
    destruct (small tol (c2 Q)) eqn:E.
    - assert (T : tr X = tf_apply X (mk3 0 0 k)) by (unfold k, tr; rewrite origin_point at 1; reflexivity). rewrite T, Sp. replace (r - (sd h (tf_apply X q) + r)) with (- sd h (tf_apply X q)) by ring.
      destruct (Rlt_dec _ 0); [reflexivity|]. rewrite back_half, <- Eq. reflexivity.
    - rewrite axis_point. change (lz * (1/2) * away (c2 Q)) with k || (replace (lz * (1/2) * away (c2 Q)) with k by reflexivity). rewrite Sp. replace (r - (sd h (tf_apply X q) + r)) with (- sd h (tf_apply X q)) by ring.
      destruct (Rlt_dec _ 0); [reflexivity|]. rewrite back_half', <- Eq. reflexivity. }
  apply (half_finish _ _ _ s X2 (tf_apply X q)); [exact O2|exact U|..]; fold h.
  - apply placed_intro. unfold q. apply capset_tip; [exact Hr|exact Ul|exact Hk'|lra].
  - intros p (p0 & Hp & ->). rewrite Sq, sd_dot. fold Q. pose proof (Rabs_le_inv _ _ (capset_bound lz r Q p0 Ul Hl Hp)). lra.
  - intros H. rewrite F. cbv zeta. destruct (Rlt_dec _ 0); [lra|reflexivity].
  - intros H. rewrite F. cbv zeta. destruct (Rlt_dec _ 0); [reflexivity|lra].
Qed.
Print Assumptions capsule_half_exact.
(** Within the tolerance a capsule with a far end inside the half-space is missed. *)
Theorem capsule_half_small_refuted : forall tol lz r X s X2, 0 <= lz -> 0 <= r -> ortho (tf_rot X) -> ortho (tf_rot X2) -> dot (fn s) (fn s) = 1 ->
  let h := flat_transform s X2 in let cosa := dot (VecR.m2 (tf_rot X)) (fn h) in
  Rabs cosa < tol -> r < sd h (tf_tr X) <= r + Rabs cosa * (lz / 2) ->
  capsule_half tol lz r X h = None /\ meets (placed X (capset lz r)) (placed X2 (in_half s)).
Proof.
  intros tol lz r X s X2 Hl Hr O O2 U h cosa Sm [L1 L2]. pose proof (transform_unit s X2 O2 U) as Uh. fold h in Uh. pose proof (loc_unit h X O Uh) as Ul. split.
  - unfold capsule_half, small. fold cosa. destruct (Rlt_dec (Rabs cosa) tol); [|contradiction]. destruct (Rlt_dec _ 0) as [|N]; [reflexivity|unfold tr in N; lra].
  - unfold cosa in L2. rewrite cosa_loc in L2. set (Q := fn (loc h X)) in *. exists (tf_apply X (vadd (mk3 0 0 (lz / 2 * away (c2 Q))) (vscale (-1 * r) Q))). split.
    + apply placed_intro, capset_tip; [exact Hr|exact Ul| |lra]. destruct (away_cases (c2 Q)) as [-> | ->]; lra.
    + apply sd_half; [exact O2|exact U|]. fold h. rewrite sd_dot. fold Q. rewrite dot_add_r, dot_scale_r, Ul. replace (dot Q (mk3 0 0 (lz / 2 * away (c2 Q)))) with (lz / 2 * (c2 Q * away (c2 Q))) by (unfold dot; cbn; ring). rewrite away_val. lra.
Qed.
Print Assumptions capsule_half_small_refuted.
(** In any case the depth is short by less than [tol * lz / 2]. *)
Theorem capsule_half_near : forall tol lz r X s X2, 0 <= lz -> 0 <= r -> ortho (tf_rot X) -> ortho (tf_rot X2) -> dot (fn s) (fn s) = 1 ->
  let h := flat_transform s X2 in let K := placed X (capset lz r) in
  match capsule_half tol lz r X h with
  | None => forall p, K p -> - sd h p < Rmax 0 tol * (lz / 2) \/ - sd h p < 0
  | Some c => (exists q, K q /\ cdepth c <= - sd h q) /\ forall p, K p -> - sd h p <= cdepth c + Rmax 0 tol * (lz / 2)
  end.
Proof.
  intros tol lz r X s X2 Hl Hr O O2 U h K. pose proof (transform_unit s X2 O2 U) as Uh. fold h in Uh. pose proof (loc_unit h X O Uh) as Ul.
  assert (Px : 0 <= Rmax 0 tol * (lz / 2)) by (apply Rmult_le_pos; [apply Rmax_l|lra]).
  destruct (small tol (dot (VecR.m2 (tf_rot X)) (fn h))) eqn:Sm.
  - assert (Kc : K (tf_apply X (vadd (mk3 0 0 0) (vscale (-1 * r) (fn (loc h X)))))) by (apply placed_intro, capset_tip; [exact Hr|exact Ul|lra|lra]).
    assert (B : forall p, K p -> - sd h p <= r - sd h (tf_tr X) + Rmax 0 tol * (lz / 2)).
    { intros p (p0 & Hp & ->). rewrite sd_dot. pose proof (Rabs_le_inv _ _ (capset_bound lz r _ p0 Ul Hl Hp)). apply small_true in Sm. rewrite cosa_loc in Sm.
      assert (Rabs (c2 (fn (loc h X))) * (lz / 2) <= Rmax 0 tol * (lz / 2)) by (apply Rmult_le_compat_r; [lra|]; pose proof (Rmax_r 0 tol); lra). lra. }
    assert (Sc : sd h (tf_apply X (vadd (mk3 0 0 0) (vscale (-1 * r) (fn (loc h X))))) = sd h (tf_tr X) - r) by (rewrite sd_dot, dot_add_r, dot_scale_r, Ul; unfold dot; cbn [c0 c1 c2]; ring).
    unfold capsule_half. rewrite Sm. unfold tr. destruct (Rlt_dec _ 0) as [L|N].
    + intros p Hp. left. specialize (B p Hp). lra.
    + cbn [cdepth]. split; [eexists; split; [exact Kc|rewrite Sc; lra]|exact B].
  - assert (Sh : sharp tol (dot (VecR.m2 (tf_rot X)) (fn h)) 0) by (intros H; rewrite Rminus_0_r in H; apply small_false in Sm; lra).
    destruct (capsule_half_exact tol lz r X s X2 Hl Hr O O2 U Sh) as [A B]. fold h in A, B. destruct (capsule_half tol lz r X h) as [c|].
    + destruct (B c eq_refl) as (_ & q & Kq & D & M & _). split; [exists q; split; [exact Kq|lra]|]. intros p Hp. specialize (M p Hp). lra.
    + intros p Hp. right. destruct (Rlt_dec (- sd h p) 0) as [|N]; [assumption|]. exfalso. apply (proj1 A eq_refl). exists p. split; [exact Hp|]. apply sd_half; [exact O2|exact U|]. fold h. lra.
Qed.
Print Assumptions capsule_half_near.

(** ** Cylinder *)
Lemma mapply_norm : forall m v, ortho m -> norm (mapply m v) = norm v.
Proof. intros m v O. unfold norm. f_equal. unfold norm2. apply mapply_dot, O. Qed.
Lemma rim_form : forall h X, ortho (tf_rot X) -> let Q := fn (loc h X) in
  vsub (vscale (c2 Q) (VecR.m2 (tf_rot X))) (fn h) = mapply (tf_rot X) (mk3 (- c0 Q) (- c1 Q) 0).
Proof.
  intros h X O Q. assert (E : fn h = mapply (tf_rot X) Q) by (unfold Q, loc; cbn [fn]; rewrite mapply_mt by exact O; reflexivity). rewrite E. clearbody Q. clear. destruct X as [m t]. cbn [tf_rot]. clear t. destruct m as [[] [] []], Q. unfold mapply, vadd, vsub, vscale. cbn. f_equal; ring.
Qed.
Lemma rim_spec : forall tol r h X, 0 < tol -> 0 <= r -> ortho (tf_rot X) -> dot (fn h) (fn h) = 1 ->
  let Q := fn (loc h X) in sharp tol (c2 Q) 1 -> sharp tol (c2 Q) (-1) ->
  exists x y, rim tol r (c2 Q) (VecR.m2 (tf_rot X)) (fn h) = mapply (tf_rot X) (mk3 x y 0) /\ c0 Q * x + c1 Q * y = - (r * planar Q) /\ x * x + y * y <= r * r.
Proof.
  intros tol r h X Ht Hr O Uh Q S1 S2. pose proof (loc_unit h X O Uh) as Ul. fold Q in Ul. pose proof (planar_sq Q) as P. pose proof (planar_pos Q) as P0. unfold rim.
  unfold sharp in S1, S2. replace (c2 Q - -1) with (c2 Q + 1) in S2 by ring. assert (Ud : c0 Q * c0 Q + c1 Q * c1 Q + c2 Q * c2 Q = 1) by exact Ul.
  destruct (small tol (c2 Q + 1) || small tol (c2 Q - 1)) eqn:E.
  - exists 0, 0. assert (C : c2 Q * c2 Q = 1). { apply orb_true_iff in E. destruct E as [E|E]; apply small_true in E; [rewrite (S2 E)|rewrite (S1 E)]; ring. }
    assert (planar Q = 0) by (apply Rsqr_0_uniq; unfold Rsqr; lra). split; [|split; [rewrite H; ring|nra]]. generalize (tf_rot X). intros [[] [] []]. unfold mapply, vzero, vadd, vscale. cbn. f_equal; ring.
  - cbv zeta. pose proof (rim_form h X O) as F. fold Q in F. cbv zeta in F. rewrite F, mapply_norm by exact O. replace (norm (mk3 (- c0 Q) (- c1 Q) 0)) with (planar Q) by (unfold norm, planar, norm2, dot; cbn; f_equal; ring).
    assert (NZ : planar Q <> 0).
    { intros Z. rewrite Z in P. assert (C : c2 Q = 1 \/ c2 Q = -1) by (assert (D : (c2 Q - 1) * (c2 Q + 1) = 0) by lra; apply Rmult_integral in D; destruct D; [left|right]; lra).
      apply orb_false_iff in E. destruct E as [E1 E2]. destruct C as [C|C]; rewrite C in *; [replace (1 - 1) with 0 in E2 by ring|replace (-1 + 1) with 0 in E1 by ring]; rewrite small_zero in * by exact Ht; discriminate. }
    exists (- (r / planar Q) * c0 Q), (- (r / planar Q) * c1 Q). split; [|split].
    + generalize (r / planar Q) (c0 Q) (c1 Q). clear. intros k a b. generalize (tf_rot X). intros [[] [] []]. unfold mapply, vadd, vscale. cbn. f_equal; ring.
    + transitivity (- (r / planar Q) * (c0 Q * c0 Q + c1 Q * c1 Q)); [ring|]. rewrite <- P. field. exact NZ.
    + right. transitivity (r / planar Q * (r / planar Q) * (c0 Q * c0 Q + c1 Q * c1 Q)); [ring|]. rewrite <- P. field. exact NZ.
Qed.
Lemma planar_abs : forall Q q s, 0 <= s -> c0 q * c0 q + c1 q * c1 q <= s * s -> Rabs (c0 Q * c0 q + c1 Q * c1 q) <= s * planar Q.
Proof.
  intros Q q s Hs H. pose proof (planar_cs Q q s Hs H). assert (A : c0 (vneg q) * c0 (vneg q) + c1 (vneg q) * c1 (vneg q) <= s * s) by (destruct q; cbn in *; lra).
  pose proof (planar_cs Q (vneg q) s Hs A) as B. replace (c0 Q * c0 (vneg q) + c1 Q * c1 (vneg q)) with (- (c0 Q * c0 q + c1 Q * c1 q)) in B by (destruct q; cbn; ring). apply Rabs_le. lra.
Qed.
Lemma cylset_bound : forall lz r Q p, 0 <= r -> 0 <= lz -> cylset lz r p -> Rabs (dot Q p) <= r * planar Q + Rabs (c2 Q) * (lz / 2).
Proof.
  intros lz r Q p Hr Hl [Hz Hp]. pose proof (Rabs_le_inv _ _ (planar_abs Q p r Hr Hp)).
  assert (A : Rabs (c2 Q * c2 p) <= Rabs (c2 Q) * (lz / 2)) by (rewrite Rabs_mult; apply Rmult_le_compat_l; [apply Rabs_pos|apply Rabs_le; lra]). apply Rabs_le_inv in A. unfold dot. apply Rabs_le. lra.
Qed.
Definition cyl_sharp (tol c : R) : Prop := sharp tol c 0 /\ sharp tol c 1 /\ sharp tol c (-1).
Lemma add_rim : forall X p x y, vadd (tf_apply X p) (mapply (tf_rot X) (mk3 x y 0)) = tf_apply X (vadd p (mk3 x y 0)).
Proof. intros [[[] [] []] []] [] x y. unfold tf_apply, mapply, vadd, vscale. cbn. f_equal; ring. Qed.
Lemma depth_half : forall p n d, vadd p (vscale (1/2 * d) n) = vadd p (vscale (d / 2) n). Proof. intros. do 2 f_equal. field. Qed.
Lemma planar_flat : forall Q, dot Q Q = 1 -> c2 Q = 0 -> planar Q = 1.
Proof. intros Q U Z. unfold planar. replace (c0 Q * c0 Q + c1 Q * c1 Q) with 1 by (unfold dot in U; rewrite Z in U; lra). apply sqrt_1. Qed.
Theorem cyl_half_exact : forall tol lz r X s X2, 0 < tol -> 0 <= lz -> 0 <= r -> ortho (tf_rot X) -> ortho (tf_rot X2) -> dot (fn s) (fn s) = 1 ->
  let h := flat_transform s X2 in cyl_sharp tol (dot (VecR.m2 (tf_rot X)) (fn h)) ->
  half_ok (vneg (fn h)) (fn h) (placed X (cylset lz r)) s X2 (cyl_half tol lz r X h).
Proof.
  intros tol lz r X s X2 Ht Hl Hr O O2 U h (Z0 & Z1 & Z2). pose proof (transform_unit s X2 O2 U) as Uh. fold h in Uh. pose proof (loc_unit h X O Uh) as Ul. rewrite cosa_loc in *. set (Q := fn (loc h X)) in *.
  assert (F : exists q, cylset lz r q /\ dot Q q = - (r * planar Q + Rabs (c2 Q) * (lz / 2)) /\ cyl_half tol lz r X h = let depth := - sd h (tf_apply X q) in if Rlt_dec depth 0 then None else Some (mkct (vneg (fn h)) (vadd (tf_apply X q) (vscale (depth / 2) (fn h))) depth)).
  { unfold cyl_half. rewrite cosa_loc. fold Q. cbv zeta. destruct (small tol (c2 Q)) eqn:E.
    - assert (C : c2 Q = 0) by (apply (sharp_small tol); assumption). pose proof (planar_flat Q Ul C) as P. exists (vadd vzero (vscale (- r) Q)). split; [|split].
      + split; cbn [c0 c1 c2 vadd vscale vzero]; [rewrite C; lra|]. replace ((0 + - r * c0 Q) * (0 + - r * c0 Q) + (0 + - r * c1 Q) * (0 + - r * c1 Q)) with (r * r * (c0 Q * c0 Q + c1 Q * c1 Q)) by ring. rewrite <- planar_sq, P. lra.
      + rewrite P, C, Rabs_R0, dot_add_r, dot_scale_r, Ul. unfold dot, vzero. cbn [c0 c1 c2]. ring.
      + unfold Q. rewrite <- (normal_point h X vzero (- r) O), <- origin_point. fold (tr X). rewrite sd_add, dot_scale_r, Uh. replace (- (sd h (tr X) + - r * 1)) with (r - sd h (tr X)) by ring. rewrite back_half. reflexivity.
    - destruct (rim_spec tol r h X Ht Hr O Uh Z1 Z2) as (x & y & Er & Ev & Ei). fold Q in Er, Ev. exists (vadd (mk3 0 0 (lz * (1/2) * away (c2 Q))) (mk3 x y 0)). split; [|split].
      + split; cbn [c0 c1 c2 vadd]; [destruct (away_cases (c2 Q)) as [-> | ->]; lra|]. replace ((0 + x) * (0 + x) + (0 + y) * (0 + y)) with (x * x + y * y) by ring. exact Ei.
      + rewrite dot_add_r. unfold dot. cbn [c0 c1 c2]. pose proof (away_val (c2 Q)) as A. transitivity (c2 Q * away (c2 Q) * (lz / 2) + (c0 Q * x + c1 Q * y)); [field|]. rewrite A, Ev. ring.
      + rewrite axis_point, Er, add_rim, depth_half. reflexivity. }
  destruct F as (q & Kq & Dq & F). apply (half_finish _ _ _ s X2 (tf_apply X q)); [exact O2|exact U|..]; fold h.
  - apply placed_intro, Kq.
  - intros p (p0 & Hp & ->). rewrite !sd_dot. fold Q. rewrite Dq. pose proof (Rabs_le_inv _ _ (cylset_bound lz r Q p0 Hr Hl Hp)). lra.
  - intros H. rewrite F. cbv zeta. destruct (Rlt_dec _ 0); [lra|reflexivity].
  - intros H. rewrite F. cbv zeta. destruct (Rlt_dec _ 0); [reflexivity|lra].
Qed.
Print Assumptions cyl_half_exact.
(** Within the tolerance of 0 the ends are ignored: a cylinder is missed. *)
Theorem cyl_half_small_refuted : forall tol lz r X s X2, 0 <= lz -> 0 <= r -> ortho (tf_rot X) -> ortho (tf_rot X2) -> dot (fn s) (fn s) = 1 ->
  let h := flat_transform s X2 in let cosa := dot (VecR.m2 (tf_rot X)) (fn h) in
  Rabs cosa < tol -> r < sd h (tf_tr X) <= Rabs cosa * (lz / 2) ->
  cyl_half tol lz r X h = None /\ meets (placed X (cylset lz r)) (placed X2 (in_half s)).
Proof.
  intros tol lz r X s X2 Hl Hr O O2 U h cosa Sm [L1 L2]. split.
  - unfold cyl_half, small. fold cosa. destruct (Rlt_dec (Rabs cosa) tol); [|contradiction]. destruct (Rlt_dec _ 0) as [|N]; [reflexivity|unfold tr in N; lra].
  - unfold cosa in L2. rewrite cosa_loc in L2. set (Q := fn (loc h X)) in *. exists (tf_apply X (mk3 0 0 (lz / 2 * away (c2 Q)))). split.
    + apply placed_intro. split; cbn [c0 c1 c2]; [destruct (away_cases (c2 Q)) as [-> | ->]; lra|nra].
    + apply sd_half; [exact O2|exact U|]. fold h. rewrite sd_dot. fold Q. replace (dot Q (mk3 0 0 (lz / 2 * away (c2 Q)))) with (lz / 2 * (c2 Q * away (c2 Q))) by (unfold dot; cbn; ring). rewrite away_val. lra.
Qed.
Print Assumptions cyl_half_small_refuted.

(** ** Cone *)
Lemma coneset_low : forall lz r Q p m, 0 <= r -> 0 <= lz -> coneset lz r p -> m <= c2 Q * (lz / 2) -> m <= - (r * planar Q) - c2 Q * (lz / 2) -> m <= dot Q p.
Proof.
  intros lz r Q p m Hr Hl (t & Ht & Hz & Hp) M1 M2. assert (0 <= t * r) by (apply Rmult_le_pos; lra). pose proof (Rabs_le_inv _ _ (planar_abs Q p (t * r) H Hp)).
  unfold dot. rewrite Hz. assert (t * m <= t * (- (r * planar Q) - c2 Q * (lz / 2))) by (apply Rmult_le_compat_l; lra). assert ((1 - t) * m <= (1 - t) * (c2 Q * (lz / 2))) by (apply Rmult_le_compat_l; lra). lra.
Qed.
Theorem cone_half_exact : forall tol lz r X s X2, 0 < tol -> 0 <= lz -> 0 <= r -> ortho (tf_rot X) -> ortho (tf_rot X2) -> dot (fn s) (fn s) = 1 ->
  let h := flat_transform s X2 in let cosa := dot (VecR.m2 (tf_rot X)) (fn h) in
  cosa = 0 \/ tol <= cosa -> sharp tol cosa 1 ->
  half_ok (vneg (fn h)) (fn h) (placed X (coneset lz r)) s X2 (cone_half tol lz r X h).
Proof.
  intros tol lz r X s X2 Ht Hl Hr O O2 U h cosa Hc Z1. pose proof (transform_unit s X2 O2 U) as Uh. fold h in Uh. pose proof (loc_unit h X O Uh) as Ul. unfold cosa in Hc, Z1. rewrite cosa_loc in *. clear cosa. set (Q := fn (loc h X)) in *.
  assert (F : exists q, coneset lz r q /\ (dot Q q <= c2 Q * (lz / 2) /\ dot Q q <= - (r * planar Q) - c2 Q * (lz / 2)) /\ cone_half tol lz r X h = let depth := - sd h (tf_apply X q) in if Rlt_dec depth 0 then None else Some (mkct (vneg (fn h)) (vadd (tf_apply X q) (vscale (depth / 2) (fn h))) depth)).
  { unfold cone_half. rewrite cosa_loc. fold Q. cbv zeta. destruct (Rlt_dec (c2 Q) tol) as [L|N].
    - assert (C : c2 Q = 0) by (destruct Hc; lra). pose proof (planar_flat Q Ul C) as P. exists (vadd (mk3 0 0 (- (lz * (1/2)))) (vscale (- r) Q)). split; [|split].
      + exists 1. split; [lra|]. cbn [c0 c1 c2 vadd vscale]. split; [rewrite C; lra|]. replace ((0 + - r * c0 Q) * (0 + - r * c0 Q) + (0 + - r * c1 Q) * (0 + - r * c1 Q)) with (r * r * (c0 Q * c0 Q + c1 Q * c1 Q)) by ring. rewrite <- planar_sq, P. lra.
      + rewrite P, C, dot_add_r, dot_scale_r, Ul. unfold dot. cbn [c0 c1 c2]. rewrite C. lra.
      + unfold Q. rewrite axis_point', <- (normal_point h X _ (- r) O). assert (T : sd h (tf_apply X (mk3 0 0 (- (lz * (1/2))))) = sd h (tr X)) by (rewrite sd_dot; fold Q; unfold dot, tr; cbn [c0 c1 c2]; rewrite C; ring).
        rewrite sd_add, T, dot_scale_r, Uh. replace (- (sd h (tr X) + - r * 1)) with (r - sd h (tr X)) by ring. rewrite back_half. reflexivity.
    - assert (Z2 : sharp tol (c2 Q) (-1)) by (intros H; unfold Rabs in H; destruct (Rcase_abs (c2 Q - -1)); lra).
      destruct (rim_spec tol r h X Ht Hr O Uh Z1 Z2) as (x & y & Er & Ev & Ei). fold Q in Er, Ev. rewrite axis_point, axis_point', Er, add_rim.
      set (q1 := mk3 0 0 (1/2 * lz)). set (q2 := vadd (mk3 0 0 (- (1/2 * lz))) (mk3 x y 0)).
      assert (D1 : dot Q q1 = c2 Q * (lz / 2)) by (unfold q1, dot; cbn [c0 c1 c2]; field). assert (D2 : dot Q q2 = - (r * planar Q) - c2 Q * (lz / 2)) by (unfold q2; rewrite dot_add_r, <- Ev; unfold dot; cbn [c0 c1 c2]; field).
      assert (K1 : coneset lz r q1) by (exists 0; unfold q1; cbn [c0 c1 c2]; lra).
      assert (K2 : coneset lz r q2) by (exists 1; unfold q2; cbn [c0 c1 c2 vadd]; split; [lra|split; lra]).
      set (d1 := sd h (tf_apply X q1)). set (d2 := sd h (tf_apply X q2)). assert (E1 : d1 = dot Q q1 + sd h (tf_tr X)) by apply sd_dot. assert (E2 : d2 = dot Q q2 + sd h (tf_tr X)) by apply sd_dot.
      exists (if Rlt_dec d1 d2 then q1 else q2). split; [|split].
      + destruct (Rlt_dec d1 d2); assumption.
      + destruct (Rlt_dec d1 d2); lra.
      + assert (M : sd h (tf_apply X (if Rlt_dec d1 d2 then q1 else q2)) = Rmin d1 d2). { unfold Rmin. destruct (Rlt_dec d1 d2), (Rle_dec d1 d2); fold d1 d2; try reflexivity; fold d1 d2; lra. }
        rewrite M. replace (if Rlt_dec d1 d2 then tf_apply X q1 else tf_apply X q2) with (tf_apply X (if Rlt_dec d1 d2 then q1 else q2)) by (destruct (Rlt_dec d1 d2); reflexivity). rewrite depth_half.
        destruct (Rlt_dec (- Rmin d1 d2) 0) as [L|NL].
        * pose proof (Rmin_l d1 d2). pose proof (Rmin_r d1 d2). destruct (Rlt_dec 0 d1); [|lra]. destruct (Rlt_dec 0 d2); [reflexivity|lra].
        * destruct (Rlt_dec 0 d1); [|reflexivity]. destruct (Rlt_dec 0 d2); [|reflexivity]. exfalso. unfold Rmin in NL. destruct (Rle_dec d1 d2); lra. }
  destruct F as (q & Kq & (Dq & Dq') & F). apply (half_finish _ _ _ s X2 (tf_apply X q)); [exact O2|exact U|..]; fold h.
  - apply placed_intro, Kq.
  - intros p (p0 & Hp & ->). rewrite !sd_dot. fold Q. pose proof (coneset_low lz r Q p0 (dot Q q) Hr Hl Hp Dq Dq'). lra.
  - intros H. rewrite F. cbv zeta. destruct (Rlt_dec _ 0); [lra|reflexivity].
  - intros H. rewrite F. cbv zeta. destruct (Rlt_dec _ 0); [reflexivity|lra].
Qed.
Print Assumptions cone_half_exact.
(** For a negative cosine the radius is compared instead of the real extent: a cone standing on
    the opposite side (its axis against the normal) reaches [lz / 2] into the half-space's
    direction, not [r]. *)
Theorem cone_half_down_refuted : forall tol lz r X s X2, 0 < tol -> 0 <= lz -> 0 <= r -> ortho (tf_rot X) -> ortho (tf_rot X2) -> dot (fn s) (fn s) = 1 ->
  let h := flat_transform s X2 in dot (VecR.m2 (tf_rot X)) (fn h) = -1 ->
  (r < sd h (tf_tr X) <= lz / 2 -> cone_half tol lz r X h = None /\ meets (placed X (coneset lz r)) (placed X2 (in_half s))) /\
  (lz / 2 < sd h (tf_tr X) <= r -> (exists c, cone_half tol lz r X h = Some c) /\ ~ meets (placed X (coneset lz r)) (placed X2 (in_half s))).
Proof.
  intros tol lz r X s X2 Ht Hl Hr O O2 U h C. pose proof (transform_unit s X2 O2 U) as Uh. fold h in Uh. pose proof (loc_unit h X O Uh) as Ul.
  assert (C2 : c2 (fn (loc h X)) = -1) by (rewrite <- cosa_loc; exact C). set (Q := fn (loc h X)) in *.
  assert (P : planar Q = 0). { apply Rsqr_0_uniq. unfold Rsqr. rewrite planar_sq. unfold dot in Ul. rewrite C2 in Ul. lra. }
  split; intros [L1 L2].
  - split.
    + unfold cone_half. rewrite C. destruct (Rlt_dec (-1) tol); [|lra]. destruct (Rlt_dec _ 0) as [|N]; [reflexivity|unfold tr in N; lra].
    + exists (tf_apply X (mk3 0 0 (lz / 2))). split; [apply placed_intro; exists 0; cbn [c0 c1 c2]; lra|]. apply sd_half; [exact O2|exact U|]. fold h. rewrite sd_dot. fold Q. unfold dot. cbn [c0 c1 c2]. rewrite C2. lra.
  - split.
    + unfold cone_half. rewrite C. destruct (Rlt_dec (-1) tol); [|lra]. destruct (Rlt_dec _ 0) as [N|]; [unfold tr in N; lra|]. eexists. reflexivity.
    + intros (p & (p0 & Hp & ->) & Hh). apply sd_half in Hh; [|exact O2|exact U]. fold h in Hh. rewrite sd_dot in Hh. fold Q in Hh.
      pose proof (coneset_low lz r Q p0 (- (lz / 2)) Hr Hl Hp) as B. rewrite P, C2 in B. lra.
Qed.
Print Assumptions cone_half_down_refuted.

(** ** Convex polytope *)
Lemma deep_fold : forall g vs st, let st' := fold_left (deep_step g) vs st in
  fst st' <= fst st /\ (forall v, In v vs -> fst st' <= sd g v) /\ (st' = st \/ exists v, In v vs /\ st' = (sd g v, v)).
Proof.
  intros g vs. induction vs as [|v vs IH]; intros st; cbn [fold_left]; [split; [lra|split; [intros v []|auto]]|].
  destruct (IH (deep_step g st v)) as (A & B & C). set (st' := fold_left (deep_step g) vs (deep_step g st v)) in *. clearbody st'. unfold deep_step in A, C.
  destruct (Rlt_dec (sd g v) (fst st)) as [L|N]; cbn [fst] in A.
  - split; [lra|]. split; [intros w [<-|Hw]; [lra|apply B, Hw]|]. right. destruct C as [-> |(w & Hw & ->)]; [exists v|exists w]; cbn [In]; auto.
  - split; [lra|]. split; [intros w [<-|Hw]; [lra|apply B, Hw]|]. destruct C as [-> |(w & Hw & ->)]; [auto|right; exists w; cbn [In]; auto].
Qed.
Lemma hull_low : forall vs g p m, (forall v, In v vs -> m <= sd g v) -> hull vs p -> m <= sd g p.
Proof.
  intros vs g p m H Hp. specialize (Hp (vneg (fn g)) (- (m + fd g))). assert (E : forall x, dot (vneg (fn g)) x = - dot (fn g) x) by (intros x; destruct (fn g), x; unfold dot, vneg; cbn; ring).
  rewrite E in Hp. unfold sd. enough (- dot (fn g) p <= - (m + fd g)) by lra. apply Hp. intros v Hv. rewrite E. specialize (H v Hv). unfold sd in H. lra.
Qed.
Lemma hull_empty : forall p, ~ hull [] p.
Proof. intros p H. specialize (H vzero (-1) ltac:(intros v [])). replace (dot vzero p) with 0 in H by (destruct p; unfold dot, vzero; cbn; ring). lra. Qed.
Theorem convex_half_exact : forall big vs X s X2, 0 < big -> ortho (tf_rot X) -> ortho (tf_rot X2) -> dot (fn s) (fn s) = 1 ->
  let h := flat_transform s X2 in (forall v, In v vs -> sd h (tf_apply X v) < big) ->
  half_ok (vneg (fn h)) (fn h) (placed X (hull vs)) s X2 (convex_half big vs X s X2).
Proof.
  intros big vs X s X2 Hb O O2 U h B. assert (En : mapply (tf_rot X2) (fn s) = fn h) by (unfold h; destruct (transform_form s X2 O2 U) as [-> _]; reflexivity).
  unfold convex_half. rewrite (relative s X X2 O O2 U), En. fold h. destruct (deep_fold (loc h X) vs (big, vzero)) as (A1 & A2 & A3). set (st := fold_left (deep_step (loc h X)) vs (big, vzero)) in *. clearbody st.
  destruct vs as [|v0 vs].
  - destruct A3 as [-> |(v & [] & _)]. cbn [fst]. destruct (Rle_dec big 0); [lra|]. split; [|discriminate]. split; [|reflexivity]. intros _ (p & (p0 & Hp & _) & _). apply (hull_empty p0 Hp).
  - destruct A3 as [-> |(v & Hv & ->)].
    { exfalso. specialize (A2 v0 ltac:(left; reflexivity)). specialize (B v0 ltac:(left; reflexivity)). rewrite sd_loc in B. cbn [fst] in A2. lra. }
    cbn [fst snd] in *. rewrite <- sd_loc in *. apply (half_finish _ _ _ s X2 (tf_apply X v)); [exact O2|exact U|..]; fold h.
    + apply placed_intro, hull_vertex, Hv.
    + apply placed_min. intros p Hp. rewrite <- sd_loc. apply (hull_low (v0 :: vs)); [|exact Hp]. exact A2.
    + intros H. destruct (Rle_dec _ 0); [|lra]. rewrite depth_half. reflexivity.
    + intros H. destruct (Rle_dec _ 0); [lra|reflexivity].
Qed.
Print Assumptions convex_half_exact.
Lemma scan_exact : forall g vs m, 0 < m -> (convex_half_scan g vs m = true <-> exists v, In v vs /\ sd g v <= 0).
Proof.
  intros g vs. induction vs as [|v vs IH]; intros m Hm; cbn [convex_half_scan].
  - destruct (Rle_dec m 0); [lra|]. split; [discriminate|intros (v & [] & _)].
  - destruct (Rlt_dec (sd g v) m) as [L|N]; [destruct (Rle_dec (sd g v) 0) as [L'|N']|].
    + split; [intros _; exists v; cbn [In]; auto|reflexivity].
    + rewrite IH by lra. split; [intros (w & Hw & D); exists w; cbn [In]; auto|intros (w & [<-|Hw] & D); [lra|exists w; auto]].
    + rewrite IH by lra. split; [intros (w & Hw & D); exists w; cbn [In]; auto|intros (w & [<-|Hw] & D); [lra|exists w; auto]].
Qed.
Theorem convex_half_test_exact : forall big vs X s X2, 0 < big -> ortho (tf_rot X) -> ortho (tf_rot X2) -> dot (fn s) (fn s) = 1 ->
  (convex_half_test big vs X s X2 = true <-> meets (placed X (hull vs)) (placed X2 (in_half s))).
Proof.
  intros big vs X s X2 Hb O O2 U. unfold convex_half_test. rewrite (relative s X X2 O O2 U), scan_exact by exact Hb. set (h := flat_transform s X2). split.
  - intros (v & Hv & D). exists (tf_apply X v). split; [apply placed_intro, hull_vertex, Hv|]. apply sd_half; [exact O2|exact U|]. fold h. rewrite sd_loc. exact D.
  - intros (p & (p0 & Hp & ->) & Hh). apply sd_half in Hh; [|exact O2|exact U]. fold h in Hh. rewrite sd_loc in Hh.
    destruct (deep_fold (loc h X) vs (1, vzero)) as (A1 & A2 & A3). set (st := fold_left (deep_step (loc h X)) vs (1, vzero)) in *. clearbody st.
    pose proof (hull_low vs (loc h X) p0 (fst st) A2 Hp) as L. destruct A3 as [-> |(v & Hv & ->)]; cbn [fst] in L; [lra|]. exists v. split; [exact Hv|lra].
Qed.
Print Assumptions convex_half_test_exact.

(** ** Triangle *)
Lemma tri_low : forall g a b c p m, m <= sd g a -> m <= sd g b -> m <= sd g c -> in_tri a b c p -> m <= sd g p.
Proof.
  intros g a b c p m A B C (u & v & w & Hu & Hv & Hw & E & ->). unfold sd in *. rewrite !dot_add_r, !dot_scale_r.
  assert (u * (m + fd g) <= u * dot (fn g) a) by (apply Rmult_le_compat_l; lra). assert (v * (m + fd g) <= v * dot (fn g) b) by (apply Rmult_le_compat_l; lra). assert (w * (m + fd g) <= w * dot (fn g) c) by (apply Rmult_le_compat_l; lra).
  assert (u * (m + fd g) + v * (m + fd g) + w * (m + fd g) = m + fd g) by (rewrite <- !Rmult_plus_distr_r, E; ring). lra.
Qed.
Lemma tri_corners : forall a b c, in_tri a b c a /\ in_tri a b c b /\ in_tri a b c c.
Proof.
  intros [] [] []. split; [|split]; [exists 1, 0, 0|exists 0, 1, 0|exists 0, 0, 1]; repeat (split; [lra|]); unfold vadd, vscale; cbn; f_equal; ring.
Qed.
(** The normal of this contact points out of the half-space, the other functions' into it. *)
Theorem tri_half_exact : forall P1 P2 P3 X s X2, ortho (tf_rot X2) -> dot (fn s) (fn s) = 1 ->
  let h := flat_transform s X2 in half_ok (fn h) (fn h) (placed X (in_tri P1 P2 P3)) s X2 (tri_half h P1 P2 P3 X).
Proof.
  intros P1 P2 P3 X s X2 O2 U h. destruct (tri_corners P1 P2 P3) as (I1 & I2 & I3).
  set (st := deep_step h (deep_step h (sd h (tf_apply X P1), tf_apply X P1) (tf_apply X P2)) (tf_apply X P3)).
  assert (F : exists q, in_tri P1 P2 P3 q /\ st = (sd h (tf_apply X q), tf_apply X q) /\ fst st <= sd h (tf_apply X P1) /\ fst st <= sd h (tf_apply X P2) /\ fst st <= sd h (tf_apply X P3)).
  { unfold st, deep_step. cbn [fst]. destruct (Rlt_dec (sd h (tf_apply X P2)) (sd h (tf_apply X P1))); cbn [fst]; destruct (Rlt_dec (sd h (tf_apply X P3)) _); cbn [fst];
    [exists P3|exists P2|exists P3|exists P1]; (split; [assumption|split; [reflexivity|lra]]). }
  destruct F as (q & Kq & E & L1 & L2 & L3). unfold tri_half. fold st. rewrite E in *. cbn [fst snd] in *. apply (half_finish _ _ _ s X2 (tf_apply X q)); [exact O2|exact U|..]; fold h.
  - apply placed_intro, Kq.
  - apply placed_min. rewrite !sd_loc in *. intros p Hp. apply (tri_low _ P1 P2 P3); assumption.
  - intros H. destruct (Rle_dec _ 0); [|lra]. do 2 f_equal. generalize (tf_apply X q) (fn h) (sd h (tf_apply X q)). intros [] [] d. unfold vsub, vadd, vscale. cbn. f_equal; field.
  - intros H. destruct (Rle_dec _ 0); [lra|reflexivity].
Qed.
Print Assumptions tri_half_exact.

(** ** Two half-spaces, a plane and a half-space *)
Theorem cross_line_exact : forall a b, cross (fn a) (fn b) <> vzero ->
  let (o, d) := cross_line a b in forall p, (in_plane a p /\ in_plane b p) <-> exists t, p = vadd o (vscale t d).
Proof.
  intros a b NZ. unfold cross_line. set (dir := cross (fn a) (fn b)). assert (Pd : 0 < norm2 dir) by (apply norm2_pos; exact NZ). intros p. split.
  - intros [Ha Hb]. unfold in_plane in Ha, Hb. exists (dot dir p / norm2 dir).
    assert (Id : vscale (norm2 dir) p = vadd (cross (vsub (vscale (dot (fn a) p) (fn b)) (vscale (dot (fn b) p) (fn a))) dir) (vscale (dot dir p) dir)).
    { unfold dir. destruct (fn a), (fn b), p. unfold norm2, dot, cross, vsub, vadd, vscale. cbn. f_equal; ring. }
    rewrite Ha, Hb in Id. assert (E : p = vscale (/ norm2 dir) (vscale (norm2 dir) p)) by (destruct p; unfold vscale; cbn; f_equal; field; lra). rewrite E at 1. rewrite Id.
    generalize (cross (vsub (vscale (fd a) (fn b)) (vscale (fd b) (fn a))) dir) dir (norm2 dir) (dot dir p) Pd. clear. intros u w k x Pk. destruct u, w. unfold vadd, vscale. cbn. f_equal; field; lra.
  - intros (t & ->). unfold in_plane. rewrite !dot_add_r, !dot_scale_r.
    assert (Z1 : dot (fn a) dir = 0) by (unfold dir; destruct (fn a), (fn b); unfold dot, cross; cbn; ring). assert (Z2 : dot (fn b) dir = 0) by (unfold dir; destruct (fn a), (fn b); unfold dot, cross; cbn; ring).
    assert (T1 : dot (fn a) (cross (vsub (vscale (fd a) (fn b)) (vscale (fd b) (fn a))) dir) = fd a * norm2 dir) by (unfold dir; destruct (fn a), (fn b); unfold norm2, dot, cross, vsub, vscale; cbn; ring).
    assert (T2 : dot (fn b) (cross (vsub (vscale (fd a) (fn b)) (vscale (fd b) (fn a))) dir) = fd b * norm2 dir) by (unfold dir; destruct (fn a), (fn b); unfold norm2, dot, cross, vsub, vscale; cbn; ring).
    rewrite Z1, Z2, T1, T2. split; field; lra.
Qed.
Print Assumptions cross_line_exact.
Lemma parallel_cases : forall a b, dot a a = 1 -> dot b b = 1 -> cross a b = vzero -> (dot a b = 1 /\ b = a) \/ (dot a b = -1 /\ b = vneg a).
Proof.
  intros a b Ua Ub C. pose proof (lagrange a b) as L. rewrite C in L. unfold norm2 in L. rewrite Ua, Ub in L. replace (dot vzero vzero) with 0 in L by (unfold dot, vzero; cbn; ring).
  assert (D : (dot a b - 1) * (dot a b + 1) = 0) by lra. apply Rmult_integral in D. destruct D as [D|D]; [left|right]; (split; [lra|]).
  - assert (N : norm2 (vsub b a) = 0) by (transitivity (dot b b - 2 * dot a b + dot a a); [destruct a, b; unfold norm2, dot, vsub; cbn; ring|lra]). apply norm2_zero in N. destruct a, b. unfold vsub, vzero in N. cbn in N. pose proof (f_equal VecR.c0 N). pose proof (f_equal VecR.c1 N). pose proof (f_equal VecR.c2 N). cbn in *. f_equal; lra.
  - assert (N : norm2 (vadd b a) = 0) by (transitivity (dot b b + 2 * dot a b + dot a a); [destruct a, b; unfold norm2, dot, vadd; cbn; ring|lra]). apply norm2_zero in N. destruct a, b. unfold vadd, vneg, vzero in *. cbn in N. pose proof (f_equal VecR.c0 N). pose proof (f_equal VecR.c1 N). pose proof (f_equal VecR.c2 N). cbn in *. f_equal; lra.
Qed.
Lemma cross_meets : forall a b, cross (fn a) (fn b) <> vzero -> exists p, in_plane a p /\ in_plane b p.
Proof. intros a b NZ. pose proof (cross_line_exact a b NZ) as H. destruct (cross_line a b) as [o d]. exists o. apply H. exists 0. destruct o, d. unfold vadd, vscale. cbn. f_equal; ring. Qed.
Lemma plane_in_half : forall a p, in_plane a p -> in_half a p. Proof. unfold in_plane, in_half. intros. lra. Qed.
Lemma v3_eq_dec : forall a b : v3, {a = b} + {a <> b}.
Proof. intros [a0 a1 a2] [b0 b1 b2]. destruct (Req_EM_T a0 b0) as [->|N]; [|right; intros E; apply N; exact (f_equal VecR.c0 E)]. destruct (Req_EM_T a1 b1) as [->|N]; [|right; intros E; apply N; exact (f_equal VecR.c1 E)]. destruct (Req_EM_T a2 b2) as [->|N]; [left; reflexivity|right; intros E; apply N; exact (f_equal VecR.c2 E)]. Qed.
Lemma along_normal : forall a k, dot (fn a) (fn a) = 1 -> dot (fn a) (vscale k (fn a)) = k. Proof. intros a k U. rewrite dot_scale_r, U. ring. Qed.
Lemma dot_vneg_l : forall a b, dot (vneg a) b = - dot a b. Proof. vring. Qed.

Theorem half_half_exact : forall eps a b, dot (fn a) (fn a) = 1 -> dot (fn b) (fn b) = 1 -> 0 < eps -> eps <= norm2 (cross (fn a) (fn b)) \/ 0 < dot (fn a) (fn b) ->
  half_half_test eps a b = true /\ meets (in_half a) (in_half b).
Proof.
  intros eps a b Ua Ub He H. split.
  - unfold half_half_test. destruct (Rlt_dec _ eps); [|reflexivity]. destruct (Rlt_dec 0 _); [reflexivity|]. destruct H; lra.
  - destruct (v3_eq_dec (cross (fn a) (fn b)) vzero) as [Z|NZ].
    + destruct (parallel_cases _ _ Ua Ub Z) as [[D E]|[D E]]. * exists (vscale (Rmin (fd a) (fd b)) (fn a)). unfold in_half. rewrite E, along_normal by exact Ua. split; [apply Rmin_l|apply Rmin_r].
      * exfalso. destruct H as [H|H]; [|lra]. rewrite Z in H. unfold norm2, dot, vzero in H. cbn in H. lra.
    + destruct (cross_meets a b NZ) as (p & A & B). exists p. split; apply plane_in_half; assumption.
Qed.
Print Assumptions half_half_exact.
(** For opposite normals the answer is the wrong way round. *)
Theorem half_half_opposite_refuted : forall eps a b, dot (fn a) (fn a) = 1 -> dot (fn b) (fn b) = 1 -> norm2 (cross (fn a) (fn b)) < eps -> dot (fn a) (fn b) <= 0 ->
  (0 < fd a + fd b -> half_half_test eps a b = false /\ meets (in_half a) (in_half b)) /\
  (fd a + fd b < 0 -> fn b = vneg (fn a) -> half_half_test eps a b = true /\ ~ meets (in_half a) (in_half b)).
Proof.
  intros eps a b Ua Ub He Hd. assert (T : half_half_test eps a b = if Rlt_dec 0 (fd a + fd b) then false else true) by (unfold half_half_test; destruct (Rlt_dec _ eps); [|lra]; destruct (Rlt_dec 0 (dot _ _)); [lra|reflexivity]). rewrite T. split.
  - intros S. destruct (Rlt_dec 0 _); [|lra]. split; [reflexivity|]. destruct (v3_eq_dec (cross (fn a) (fn b)) vzero) as [Z|NZ].
    + destruct (parallel_cases _ _ Ua Ub Z) as [[D E]|[D E]]; [lra|]. exists (vscale (fd a) (fn a)). unfold in_half. rewrite E, dot_vneg_l, along_normal by exact Ua. lra.
    + destruct (cross_meets a b NZ) as (p & A & B). exists p. split; apply plane_in_half; assumption.
  - intros S E. destruct (Rlt_dec 0 _); [lra|]. split; [reflexivity|]. intros (p & A & B). unfold in_half in A, B. rewrite E, dot_vneg_l in B. lra.
Qed.
Print Assumptions half_half_opposite_refuted.
Theorem plane_half_exact : forall eps a b, dot (fn a) (fn a) = 1 -> dot (fn b) (fn b) = 1 -> 0 < eps ->
  (eps <= norm2 (cross (fn a) (fn b)) -> plane_half_test eps a b = true /\ meets (in_plane a) (in_half b)) /\
  (fn b = fn a -> fd a <> fd b -> (plane_half_test eps a b = true <-> meets (in_plane a) (in_half b))).
Proof.
  intros eps a b Ua Ub He. split.
  - intros H. split; [unfold plane_half_test; destruct (Rlt_dec _ eps); [lra|reflexivity]|]. destruct (cross_meets a b) as (p & A & B); [intros Z; rewrite Z in H; unfold norm2, dot, vzero in H; cbn in H; lra|]. exists p. split; [exact A|apply plane_in_half, B].
  - intros E Nd. unfold plane_half_test. rewrite E. replace (norm2 (cross (fn a) (fn a))) with 0 by (destruct (fn a); unfold norm2, dot, cross; cbn; ring). rewrite Ua. destruct (Rlt_dec 0 eps); [|lra]. destruct (Rlt_dec 0 1); [|lra].
    destruct (Rlt_dec (fd a) (fd b)) as [L|N].
    + split; [intros _|reflexivity]. exists (vscale (fd a) (fn a)). unfold in_plane, in_half. rewrite E, along_normal by exact Ua. lra.
    + split; [discriminate|]. intros (p & A & B). unfold in_plane, in_half in *. rewrite E in B. lra.
Qed.
Print Assumptions plane_half_exact.
Theorem plane_half_refuted : forall eps a b, dot (fn a) (fn a) = 1 -> 0 < eps ->
  (fn b = fn a -> fd a = fd b -> plane_half_test eps a b = false /\ meets (in_plane a) (in_half b)) /\
  (fn b = vneg (fn a) -> 0 < fd a + fd b -> plane_half_test eps a b = false /\ meets (in_plane a) (in_half b)) /\
  (fn b = vneg (fn a) -> fd a + fd b < 0 -> plane_half_test eps a b = true /\ ~ meets (in_plane a) (in_half b)).
Proof.
  intros eps a b Ua He. assert (N0 : norm2 (cross (fn a) (fn a)) = 0) by (destruct (fn a); unfold norm2, dot, cross; cbn; ring). assert (N1 : norm2 (cross (fn a) (vneg (fn a))) = 0) by (destruct (fn a); unfold norm2, dot, cross, vneg; cbn; ring).
  assert (Dn : dot (fn a) (vneg (fn a)) = -1) by (transitivity (- dot (fn a) (fn a)); [destruct (fn a); unfold dot, vneg; cbn; ring|rewrite Ua; ring]). unfold plane_half_test. split; [|split]; intros E; rewrite E; [rewrite N0, Ua|rewrite N1, Dn|rewrite N1, Dn]; (destruct (Rlt_dec 0 eps); [|lra]); intros S.
  - destruct (Rlt_dec 0 1); [|lra]. rewrite S. destruct (Rlt_dec (fd b) (fd b)); [lra|]. split; [reflexivity|]. exists (vscale (fd a) (fn a)). unfold in_plane, in_half. rewrite E, along_normal by exact Ua. lra.
  - destruct (Rlt_dec 0 (-1)); [lra|]. destruct (Rlt_dec 0 _); [|lra]. split; [reflexivity|]. exists (vscale (fd a) (fn a)). unfold in_plane, in_half. rewrite E, dot_vneg_l, along_normal by exact Ua. lra.
  - destruct (Rlt_dec 0 (-1)); [lra|]. destruct (Rlt_dec 0 _); [lra|]. split; [reflexivity|]. intros (p & A & B). unfold in_plane, in_half in *. rewrite E, dot_vneg_l in B. lra.
Qed.
Print Assumptions plane_half_refuted.

(** ** Examples *)
Definition up0 : flat := Flat (mk3 0 0 1) 0.
Definition at_ (x y z : R) : tf := mktf mid (mk3 x y z).
Ltac decide_R := repeat (match goal with |- context [Rlt_dec ?a ?b] => destruct (Rlt_dec a b); try lra | |- context [Rle_dec ?a ?b] => destruct (Rle_dec a b); try lra end).
Example up0_transform : flat_transform up0 (at_ 0 0 0) = up0.
Proof. unfold flat_transform, flat_make, up0, at_. cbn [fn fd tf_rot tf_tr]. replace (mapply mid (mk3 0 0 1)) with (mk3 0 0 1) by (unfold mapply, mid, vadd, vscale; cbn; f_equal; ring). rewrite unit_normal_id by (unfold dot; cbn; ring). f_equal. unfold dot. cbn. ring. Qed.
Example sphere_half_ex : sphere_half 1 (at_ 3 4 0) up0 = Some (mkct (mk3 (-0) (-0) (-1)) (mk3 3 4 (-(1/2))) 1).
Proof. unfold sphere_half, sd, up0, at_, tr, dot. cbn. decide_R. f_equal. f_equal; [|ring]. unfold vadd, vsub, vscale. cbn. f_equal; field. Qed.
(** a cone pointing down, its tip at height 1/2 - 3/4 *)
Definition down : tf := mktf (mkm (mk3 1 0 0) (mk3 0 (-1) 0) (mk3 0 0 (-1))) (mk3 0 0 (1/2)).
Example cone_half_down_ex : ortho (tf_rot down) /\ cone_half (1/10) (3/2) (1/10) down up0 = None /\ sd up0 (tf_apply down (mk3 0 0 (3/4))) = - (1/4).
Proof. split; [unfold ortho, down, dot; cbn; repeat split; ring|]. split; [|unfold sd, down, up0, tf_apply, mapply, dot, vadd, vscale; cbn; field]. unfold cone_half, tr, sd, down, up0, dot. cbn. decide_R. reflexivity. Qed.
Example half_half_opposite_ex : half_half_test (1/1000) (Flat (mk3 0 0 1) 1) (Flat (mk3 0 0 (-1)) 1) = false /\ in_half (Flat (mk3 0 0 1) 1) vzero /\ in_half (Flat (mk3 0 0 (-1)) 1) vzero.
Proof. split; [|unfold in_half, dot, vzero; cbn; lra]. unfold half_half_test, norm2, cross, dot. cbn. decide_R; reflexivity. Qed.
