(** C69: queries of shapes against planes. *)
From Coq Require Import Reals Lra Lia List Bool.
From Verif Require Import VecR Motion Eigen3 Obb Fit Prim P_Prim AabbDist ShapeBV P_ShapeBV BoundVerts P_BoundVerts HalfBV P_HalfBV HalfQuery P_HalfQuery.
Import ListNotations.
Open Scope R_scope.

(** ** What the answers mean *)
(** The contact lies in the plane, the normal is the plane's up to sign, and the depth is how far
    the shape reaches on the side [g], which is the side where it reaches less far.  [e] is 1
    if the shape is the first object, -1 if it is the second. *)
Definition plane_contact (e : R) (K : v3 -> Prop) (h : flat) (c : contact) : Prop :=
  sd h (cpos c) = 0 /\ exists g, (g = 1 \/ g = -1) /\ cnorm c = vscale (e * g) (fn h) /\
  (exists q, K q /\ g * sd h q = cdepth c) /\ (forall p, K p -> g * sd h p <= cdepth c) /\
  (exists p, K p /\ cdepth c <= - g * sd h p).
Definition plane_ok (K : v3 -> Prop) (s : flat) (X2 : tf) (res : option contact) : Prop :=
  (res = None <-> ~ meets K (placed X2 (in_plane s))) /\
  (forall c, res = Some c -> plane_contact 1 K (flat_transform s X2) c).

Lemma sd_plane : forall s X2 p, ortho (tf_rot X2) -> dot (fn s) (fn s) = 1 -> (sd (flat_transform s X2) p = 0 <-> placed X2 (in_plane s) p).
Proof. intros s X2 p O U. rewrite <- (proj2 (flat_transform_exact s X2 p O U)). unfold sd, in_plane. split; lra. Qed.
Lemma between : forall h a b, sd h a <= 0 <= sd h b -> exists t, 0 <= t <= 1 /\ sd h (vadd a (vscale t (vsub b a))) = 0.
Proof.
  intros h a b [A B]. destruct (Req_dec (sd h b - sd h a) 0) as [Z|NZ].
  - exists 0. split; [lra|]. rewrite sd_add, dot_scale_r. lra.
  - exists (- sd h a / (sd h b - sd h a)). split; [apply frac01; lra|]. rewrite sd_add, dot_scale_r, dot_sub_r. replace (dot (fn h) b - dot (fn h) a) with (sd h b - sd h a) by (unfold sd; ring). field. exact NZ.
Qed.
Definition convex (K : v3 -> Prop) : Prop := forall a b t, K a -> K b -> 0 <= t <= 1 -> K (vadd a (vscale t (vsub b a))).
Lemma plane_meets : forall (K : v3 -> Prop) s X2 qlo qhi, ortho (tf_rot X2) -> dot (fn s) (fn s) = 1 -> convex K -> let h := flat_transform s X2 in
  K qlo -> K qhi -> (forall p, K p -> sd h qlo <= sd h p <= sd h qhi) -> (meets K (placed X2 (in_plane s)) <-> sd h qlo <= 0 <= sd h qhi).
Proof.
  intros K s X2 qlo qhi O U C h Kl Kh B. split.
  - intros (p & Kp & Hp). apply sd_plane in Hp; [|exact O|exact U]. fold h in Hp. specialize (B p Kp). lra.
  - intros L. destruct (between h qlo qhi L) as (t & Ht & E). eexists. split; [apply (C qlo qhi t Kl Kh Ht)|]. apply sd_plane; [exact O|exact U|exact E].
Qed.
Lemma plane_finish : forall (K : v3 -> Prop) s X2 qlo qhi res, ortho (tf_rot X2) -> dot (fn s) (fn s) = 1 -> convex K -> let h := flat_transform s X2 in
  K qlo -> K qhi -> (forall p, K p -> sd h qlo <= sd h p <= sd h qhi) ->
  (sd h qlo <= 0 <= sd h qhi -> exists c, res = Some c /\ plane_contact 1 K h c) -> (0 < sd h qlo \/ sd h qhi < 0 -> res = None) -> plane_ok K s X2 res.
Proof.
  intros K s X2 qlo qhi res O U C h Kl Kh B HS HN. unfold plane_ok. rewrite (plane_meets K s X2 qlo qhi O U C Kl Kh B). fold h.
  destruct (Rle_dec (sd h qlo) 0) as [L|L]; [destruct (Rle_dec 0 (sd h qhi)) as [L'|L']|].
  - destruct (HS (conj L L')) as (c & -> & P). split; [split; [discriminate|intros H; exfalso; apply H; auto]|]. intros c' E. injection E as <-. exact P.
  - rewrite HN by lra. split; [split; [lra|reflexivity]|discriminate].
  - rewrite HN by lra. split; [split; [lra|reflexivity]|discriminate].
Qed.
Lemma facing_form : forall b n, facing b n = vscale (1 * (if b then -1 else 1)) n.
Proof. intros [] []; unfold facing, vneg, vscale; cbn; f_equal; ring. Qed.
(** The contact of a shape reaching from [d - e] to [d + e] *)
Lemma sym_contact : forall (K : v3 -> Prop) h qlo qhi d e b pt, K qlo -> K qhi -> (forall p, K p -> sd h qlo <= sd h p <= sd h qhi) ->
  sd h qlo = d - e -> sd h qhi = d + e -> (b = true -> 0 <= d) -> (b = false -> d <= 0) -> sd h pt = 0 ->
  plane_contact 1 K h (mkct (facing b (fn h)) pt (e - Rabs d)).
Proof.
  intros K h qlo qhi d e b pt Kl Kh B El Eh Bt Bf Ep. split; [exact Ep|]. exists (if b then -1 else 1). cbn [cnorm cdepth]. split; [destruct b; auto|]. split; [apply facing_form|]. destruct b.
  - specialize (Bt eq_refl). rewrite Rabs_pos_eq by exact Bt. split; [exists qlo; split; [exact Kl|lra]|]. split; [intros p Hp; specialize (B p Hp); lra|exists qhi; split; [exact Kh|lra]].
  - specialize (Bf eq_refl). rewrite Rabs_left1 by exact Bf. split; [exists qhi; split; [exact Kh|lra]|]. split; [intros p Hp; specialize (B p Hp); lra|exists qlo; split; [exact Kl|lra]].
Qed.
Lemma placed_convex : forall X K, convex K -> convex (placed X K).
Proof.
  intros X K C a b t (a0 & Ka & ->) (b0 & Kb & ->) Ht. exists (vadd a0 (vscale t (vsub b0 a0))). split; [apply C; assumption|].
  unfold tf_apply. rewrite mapply_add. replace (mapply (tf_rot X) (vscale t (vsub b0 a0))) with (vscale t (vsub (mapply (tf_rot X) b0) (mapply (tf_rot X) a0))) by (rewrite <- mapply_sub; generalize (vsub b0 a0); vring).
  generalize (mapply (tf_rot X) a0) (mapply (tf_rot X) b0) (tf_tr X). vring.
Qed.
Lemma sq_convex : forall x y t, 0 <= t <= 1 -> (x + t * (y - x)) * (x + t * (y - x)) <= (1 - t) * (x * x) + t * (y * y).
Proof. intros x y t Ht. assert (0 <= t * (1 - t) * ((y - x) * (y - x))) by (apply Rmult_le_pos; [apply Rmult_le_pos; lra|apply Rle_0_sqr]). lra. Qed.
Lemma ball_convex : forall o r, 0 <= r -> convex (ball o r).
Proof.
  intros o r Hr a b t Ha Hb Ht. unfold ball, dist in *. replace (vsub (vadd a (vscale t (vsub b a))) o) with (vadd (vscale (1 - t) (vsub a o)) (vscale t (vsub b o))) by (destruct a, b, o; unfold vadd, vsub, vscale; cbn; f_equal; ring).
  apply Rle_trans with (1 := norm_triangle _ _). rewrite !norm_scale, !Rabs_pos_eq by lra. assert ((1 - t) * norm (vsub a o) <= (1 - t) * r) by (apply Rmult_le_compat_l; lra). assert (t * norm (vsub b o) <= t * r) by (apply Rmult_le_compat_l; lra). lra.
Qed.

(** ** Sphere *)
Theorem sphere_plane_exact : forall r X s X2, 0 <= r -> ortho (tf_rot X) -> ortho (tf_rot X2) -> dot (fn s) (fn s) = 1 ->
  let h := flat_transform s X2 in plane_ok (placed X (ball vzero r)) s X2 (sphere_plane r X h).
Proof.
  intros r X s X2 Hr O O2 U h. pose proof (transform_unit s X2 O2 U) as Uh. fold h in Uh. pose proof (loc_unit h X O Uh) as Ul. set (Q := fn (loc h X)) in *.
  assert (Z : forall v, vsub v vzero = v) by (intros []; unfold vsub, vzero; cbn; f_equal; ring).
  assert (I : forall k, Rabs k = r -> ball vzero r (vscale k Q)).
  { intros k Hk. unfold ball, dist. rewrite Z, norm_scale, Hk. replace (norm Q) with 1 by (unfold norm, norm2; rewrite Ul, sqrt_1; reflexivity). lra. }
  assert (El : sd h (tf_apply X (vscale (- r) Q)) = sd h (tf_tr X) - r) by (rewrite sd_dot; fold Q; rewrite dot_scale_r, Ul; ring).
  assert (Eh : sd h (tf_apply X (vscale r Q)) = sd h (tf_tr X) + r) by (rewrite sd_dot; fold Q; rewrite dot_scale_r, Ul; ring).
  assert (Kl : placed X (ball vzero r) (tf_apply X (vscale (- r) Q))) by (apply placed_intro, I; rewrite Rabs_Ropp; apply Rabs_pos_eq, Hr).
  assert (Kh : placed X (ball vzero r) (tf_apply X (vscale r Q))) by (apply placed_intro, I; apply Rabs_pos_eq, Hr).
  assert (B : forall p, placed X (ball vzero r) p -> sd h (tf_apply X (vscale (- r) Q)) <= sd h p <= sd h (tf_apply X (vscale r Q))).
  { intros p (p0 & Hp & ->). rewrite El, Eh, sd_dot. fold Q. unfold ball, dist in Hp. rewrite Z in Hp. pose proof (cauchy_schwarz_abs Q p0) as C. replace (norm Q) with 1 in C by (unfold norm, norm2; rewrite Ul, sqrt_1; reflexivity). apply Rabs_le_inv in C. lra. }
  apply (plane_finish _ s X2 _ _ _ O2 U (placed_convex X _ (ball_convex vzero r Hr)) Kl Kh B); fold h; rewrite El, Eh; unfold sphere_plane, tr.
  - intros L. destruct (Rle_dec 0 _) as [|N]; [|exfalso; apply N; unfold Rabs; destruct (Rcase_abs _); lra]. eexists. split; [reflexivity|]. replace (- Rabs (sd h (tf_tr X)) + r) with (r - Rabs (sd h (tf_tr X))) by ring.
    apply (sym_contact _ h _ _ _ _ _ _ Kl Kh B El Eh); [unfold pos; destruct (Rlt_dec _ _); [lra|discriminate]|unfold pos; destruct (Rlt_dec _ _); [discriminate|lra]|].
    unfold sd. rewrite dot_sub_r, dot_scale_r, Uh. ring.
  - intros L. destruct (Rle_dec 0 _) as [P|]; [|reflexivity]. exfalso. unfold Rabs in P. destruct (Rcase_abs _); lra.
Qed.
Print Assumptions sphere_plane_exact.

(** ** Ellipsoid *)
Lemma ell_convex : forall radii, convex (ellset radii).
Proof.
  intros radii a b t (u & Hu & ->) (w & Hw & ->) Ht. exists (vadd u (vscale t (vsub w u))). split.
  - unfold norm2, dot in *. destruct u as [u0 u1 u2], w as [w0 w1 w2]. cbn in *. pose proof (sq_convex u0 w0 t Ht). pose proof (sq_convex u1 w1 t Ht). pose proof (sq_convex u2 w2 t Ht).
    assert ((1 - t) * (u0 * u0 + u1 * u1 + u2 * u2) <= (1 - t) * 1) by (apply Rmult_le_compat_l; lra). assert (t * (w0 * w0 + w1 * w1 + w2 * w2) <= t * 1) by (apply Rmult_le_compat_l; lra). lra.
  - destruct u, w. unfold vadd, vsub, vscale. cbn. f_equal; ring.
Qed.
Theorem ell_plane_exact : forall radii X s X2, ortho (tf_rot X) -> ortho (tf_rot X2) -> dot (fn s) (fn s) = 1 ->
  0 < support2 radii (fn (loc (flat_transform s X2) X)) -> plane_ok (placed X (ellset radii)) s X2 (ell_plane radii X s X2).
Proof.
  intros radii X s X2 O O2 U Hk. set (h := flat_transform s X2) in *. pose proof (transform_unit s X2 O2 U) as Uh. fold h in Uh. set (g := loc h X) in *. set (k := support2 radii (fn g)) in *.
  destruct (ell_extreme radii (fn g) Hk) as (Ds & Es & En & Ex). fold k in Ds, Es, En, Ex. set (sv := vscale (1 / k) (mul3 (mul3 radii radii) (fn g))) in *.
  assert (Dn : dot (fn g) (vneg sv) = - k) by (rewrite <- Ds; generalize (fn g) sv; vring).
  assert (Et : sd h (tf_tr X) = - fd g) by apply loc_tr.
  assert (El : sd h (tf_apply X (vneg sv)) = - fd g - k) by (rewrite sd_dot; fold g; rewrite Dn; lra). assert (Eh : sd h (tf_apply X sv) = - fd g + k) by (rewrite sd_dot; fold g; rewrite Ds; lra).
  assert (Kl : placed X (ellset radii) (tf_apply X (vneg sv))) by (apply placed_intro, En). assert (Kh : placed X (ellset radii) (tf_apply X sv)) by (apply placed_intro, Es).
  assert (B : forall p, placed X (ellset radii) p -> sd h (tf_apply X (vneg sv)) <= sd h p <= sd h (tf_apply X sv)) by (intros p (p0 & Hp & ->); rewrite El, Eh, sd_dot; fold g; pose proof (Rabs_le_inv _ _ (Ex p0 Hp)); lra).
  assert (Nn : mapply (tf_rot X) (fn g) = fn h) by (unfold g, loc; cbn [fn]; apply mapply_mt, O).
  assert (Nn' : mapply (tf_rot X) (vneg (fn g)) = vneg (fn h)) by (rewrite <- Nn; generalize (fn g); vring).
  apply (plane_finish _ s X2 _ _ _ O2 U (placed_convex X _ (ell_convex radii)) Kl Kh B); fold h; rewrite El, Eh; unfold ell_plane; rewrite (relative s X X2 O O2 U); fold h g k; fold sv.
  - intros L. destruct (Rle_dec 0 _) as [|N]; [|exfalso; apply N; unfold Rabs; destruct (Rcase_abs _); lra]. eexists. split; [reflexivity|]. rewrite Nn, Nn', Ds. change (if pos (- fd g) then vneg (fn h) else fn h) with (facing (pos (- fd g)) (fn h)).
    apply (sym_contact _ h _ _ _ _ _ _ Kl Kh B El Eh); unfold pos; destruct (Rlt_dec 0 (- fd g)) as [P|P]; try discriminate; try (intros; lra).
    + rewrite sd_dot. fold g. rewrite dot_scale_r, Ds, Et, (Rabs_pos_eq (- fd g)) by lra. field. lra.
    + rewrite sd_dot. fold g. replace (dot (fn g) (vneg (vscale ((k - Rabs (- fd g)) / k - 1) sv))) with (- ((k - Rabs (- fd g)) / k - 1) * dot (fn g) sv) by (generalize (fn g) sv ((k - Rabs (- fd g)) / k - 1); intros [] [] z; unfold dot, vneg, vscale; cbn; ring). rewrite Ds, Et, (Rabs_left1 (- fd g)) by lra. field. lra.
  - intros L. destruct (Rle_dec 0 _) as [P|]; [|reflexivity]. exfalso. unfold Rabs in P. destruct (Rcase_abs _); lra.
Qed.
Print Assumptions ell_plane_exact.

(** ** Box: exact for every tolerance *)
Lemma box_convex : forall side, convex (boxset side).
Proof.
  intros side a b t Ha Hb Ht i Hi. specialize (Ha i Hi). specialize (Hb i Hi). replace (comp i (vadd a (vscale t (vsub b a)))) with ((1 - t) * comp i a + t * comp i b) by (destruct i as [|[|[|]]]; cbn; ring).
  assert (t * comp i b <= t * (comp i side / 2)) by (apply Rmult_le_compat_l; lra). assert ((1 - t) * comp i a <= (1 - t) * (comp i side / 2)) by (apply Rmult_le_compat_l; lra).
  assert (t * - (comp i side / 2) <= t * comp i b) by (apply Rmult_le_compat_l; lra). assert ((1 - t) * - (comp i side / 2) <= (1 - t) * comp i a) by (apply Rmult_le_compat_l; lra). lra.
Qed.
Lemma zero_exact : forall Q, box_exact 0 Q.
Proof. intros Q i _ H. exfalso. unfold one in H. pose proof (Rabs_pos (comp i Q - 1)). pose proof (Rabs_pos (comp i Q + 1)). destruct (Rlt_dec _ 0); [lra|]. destruct (Rlt_dec _ 0); [lra|discriminate]. Qed.
Theorem box_plane_exact : forall tol side X s X2, 0 <= c0 side -> 0 <= c1 side -> 0 <= c2 side -> ortho (tf_rot X) -> ortho (tf_rot X2) -> dot (fn s) (fn s) = 1 ->
  let h := flat_transform s X2 in plane_ok (placed X (boxset side)) s X2 (box_plane tol side X h).
Proof.
  intros tol side X s X2 S0 S1 S2 O O2 U h. pose proof (transform_unit s X2 O2 U) as Uh. fold h in Uh. pose proof (loc_unit h X O Uh) as Ul. change (fn (loc h X)) with (mtapply (tf_rot X) (fn h)) in Ul. set (Q := mtapply (tf_rot X) (fn h)) in *.
  assert (Ed : forall g, sd h (tf_apply X (box_pick 0 side Q g)) = sd h (tf_tr X) - g * box_reach side Q) by (intros g; rewrite sd_dot; change (fn (loc h X)) with Q; rewrite box_pick_sd by (exact Ul || apply zero_exact); ring).
  assert (Kl : placed X (boxset side) (tf_apply X (box_pick 0 side Q 1))) by (apply placed_intro, box_pick_in; auto). assert (Kh : placed X (boxset side) (tf_apply X (box_pick 0 side Q (-1)))) by (apply placed_intro, box_pick_in; auto).
  pose proof (Ed 1) as El. pose proof (Ed (-1)) as Eh. replace (1 * box_reach side Q) with (box_reach side Q) in El by ring. replace (sd h (tf_tr X) - -1 * box_reach side Q) with (sd h (tf_tr X) + box_reach side Q) in Eh by ring.
  assert (B : forall p, placed X (boxset side) p -> sd h (tf_apply X (box_pick 0 side Q 1)) <= sd h p <= sd h (tf_apply X (box_pick 0 side Q (-1)))) by (intros p (p0 & Hp & ->); rewrite El, Eh, sd_dot; change (fn (loc h X)) with Q; pose proof (Rabs_le_inv _ _ (box_reach_bound side Q p0 Hp)); lra).
  apply (plane_finish _ s X2 _ _ _ O2 U (placed_convex X _ (box_convex side)) Kl Kh B); fold h; rewrite El, Eh; unfold box_plane, tr; fold Q.
  - intros L. destruct (Rlt_dec _ 0) as [P|]; [exfalso; unfold Rabs in P; destruct (Rcase_abs _); lra|]. eexists. split; [reflexivity|].
    apply (sym_contact _ h _ _ _ _ _ _ Kl Kh B El Eh); [unfold pos; destruct (Rlt_dec _ _); [lra|discriminate]|unfold pos; destruct (Rlt_dec _ _); [discriminate|lra]|].
    set (p := box_deep _ _ _ _ _). unfold sd at 1. rewrite dot_sub_r, dot_scale_r, Uh. unfold sd. ring.
  - intros L. destruct (Rlt_dec _ 0) as [|N]; [reflexivity|]. exfalso. apply N. unfold Rabs. destruct (Rcase_abs _); lra.
Qed.
Print Assumptions box_plane_exact.

(** ** Capsule *)
Lemma segment_convex : forall lz r, 0 <= r -> convex (capset lz r).
Proof.
  intros lz r Hr a b t (z & Hz & Da) (y & Hy & Db) Ht. exists (z + t * (y - z)). split.
  - assert (t * y <= t * (lz / 2)) by (apply Rmult_le_compat_l; lra). assert ((1 - t) * z <= (1 - t) * (lz / 2)) by (apply Rmult_le_compat_l; lra). assert (t * - (lz / 2) <= t * y) by (apply Rmult_le_compat_l; lra). assert ((1 - t) * - (lz / 2) <= (1 - t) * z) by (apply Rmult_le_compat_l; lra). lra.
  - unfold dist in *. replace (vsub (vadd a (vscale t (vsub b a))) (mk3 0 0 (z + t * (y - z)))) with (vadd (vscale (1 - t) (vsub a (mk3 0 0 z))) (vscale t (vsub b (mk3 0 0 y)))) by (destruct a, b; unfold vadd, vsub, vscale; cbn; f_equal; ring).
    apply Rle_trans with (1 := norm_triangle _ _). rewrite !norm_scale, !Rabs_pos_eq by lra. assert ((1 - t) * norm (vsub a (mk3 0 0 z)) <= (1 - t) * r) by (apply Rmult_le_compat_l; lra). assert (t * norm (vsub b (mk3 0 0 y)) <= t * r) by (apply Rmult_le_compat_l; lra). lra.
Qed.
(** Signed distances of the ends of the axis, and of the extreme points *)
Lemma ends_sd : forall lz X h, let c := c2 (fn (loc h X)) in
  sd h (fst (capsule_ends lz X)) = sd h (tf_tr X) + c * (lz / 2) /\ sd h (snd (capsule_ends lz X)) = sd h (tf_tr X) - c * (lz / 2).
Proof. intros lz X h c. unfold capsule_ends. cbn [fst snd]. rewrite axis_point, axis_point', !sd_dot. fold c. unfold dot. cbn [c0 c1 c2]. fold c. lra. Qed.
Lemma capsule_range : forall lz r X h, 0 <= lz -> 0 <= r -> ortho (tf_rot X) -> dot (fn h) (fn h) = 1 ->
  let K := placed X (capset lz r) in let d := sd h (tf_tr X) in let e := r + Rabs (c2 (fn (loc h X))) * (lz / 2) in
  exists qlo qhi, K qlo /\ K qhi /\ sd h qlo = d - e /\ sd h qhi = d + e /\ forall p, K p -> sd h qlo <= sd h p <= sd h qhi.
Proof.
  intros lz r X h Hl Hr O Uh K d e. pose proof (loc_unit h X O Uh) as Ul. set (Q := fn (loc h X)) in *.
  pose proof (away_val (c2 Q)) as A.
  set (lo := vadd (mk3 0 0 (lz / 2 * away (c2 Q))) (vscale (-1 * r) Q)). set (hi := vadd (mk3 0 0 (- (lz / 2 * away (c2 Q)))) (vscale (1 * r) Q)).
  assert (El : sd h (tf_apply X lo) = d - e). { rewrite sd_dot. fold Q d. unfold lo. rewrite dot_add_r, dot_scale_r, Ul. replace (dot Q (mk3 0 0 (lz / 2 * away (c2 Q)))) with (lz / 2 * (c2 Q * away (c2 Q))) by (unfold dot; cbn; ring). rewrite A. unfold e. ring. }
  assert (Eh : sd h (tf_apply X hi) = d + e). { rewrite sd_dot. fold Q d. unfold hi. rewrite dot_add_r, dot_scale_r, Ul. replace (dot Q (mk3 0 0 (- (lz / 2 * away (c2 Q))))) with (- (lz / 2 * (c2 Q * away (c2 Q)))) by (unfold dot; cbn; ring). rewrite A. unfold e. ring. }
  exists (tf_apply X lo), (tf_apply X hi). split; [|split; [|split; [exact El|split; [exact Eh|]]]].
  - apply placed_intro, capset_tip; [exact Hr|exact Ul|destruct (away_cases (c2 Q)) as [-> | ->]; lra|lra].
  - apply placed_intro, capset_tip; [exact Hr|exact Ul|destruct (away_cases (c2 Q)) as [-> | ->]; lra|lra].
  - intros p (p0 & Hp & ->). rewrite El, Eh, sd_dot. fold Q d. pose proof (Rabs_le_inv _ _ (capset_bound lz r Q p0 Ul Hl Hp)). unfold e. lra.
Qed.
Theorem capsule_plane_test_exact : forall lz r X s X2, 0 <= lz -> 0 <= r -> ortho (tf_rot X) -> ortho (tf_rot X2) -> dot (fn s) (fn s) = 1 ->
  (capsule_plane_test lz r X (flat_transform s X2) = true <-> meets (placed X (capset lz r)) (placed X2 (in_plane s))).
Proof.
  intros lz r X s X2 Hl Hr O O2 U. set (h := flat_transform s X2). pose proof (transform_unit s X2 O2 U) as Uh. fold h in Uh.
  destruct (capsule_range lz r X h Hl Hr O Uh) as (ql & qh & Kl & Kh & El & Eh & B). rewrite (plane_meets _ s X2 ql qh O2 U (placed_convex X _ (segment_convex lz r Hr)) Kl Kh B). fold h. rewrite El, Eh.
  destruct (ends_sd lz X h) as [D1 D2]. unfold capsule_plane_test. destruct (capsule_ends lz X) as [p1 p2]. cbn [fst snd] in D1, D2. set (c := c2 (fn (loc h X)) * (lz / 2)) in *.
  assert (Ec : Rabs (c2 (fn (loc h X))) * (lz / 2) = Rabs c) by (unfold c; rewrite Rabs_mult, (Rabs_pos_eq (lz / 2)) by lra; reflexivity). rewrite Ec. cbv zeta. rewrite D1, D2. set (d := sd h (tf_tr X)). clearbody c d. clear - Hr.
  destruct (Rle_dec ((d + c) * (d - c)) 0) as [L|N].
  - split; [intros _|reflexivity]. assert (Rabs d <= Rabs c) by (apply Rsqr_le_abs_0; unfold Rsqr; lra). apply Rabs_le_inv in H. lra.
  - destruct (Rle_dec (Rabs (d + c)) r) as [L1|N1]; cbn [orb].
    + split; [intros _|reflexivity]. apply Rabs_le_inv in L1. pose proof (Rle_abs c). pose proof (Rle_abs (- c)). rewrite Rabs_Ropp in *. lra.
    + destruct (Rle_dec (Rabs (d - c)) r) as [L2|N2].
      * split; [intros _|reflexivity]. apply Rabs_le_inv in L2. pose proof (Rle_abs c). pose proof (Rle_abs (- c)). rewrite Rabs_Ropp in *. lra.
      * split; [discriminate|]. intros [A B]. exfalso. assert (P : 0 < (d + c) * (d - c)) by lra. unfold Rabs in *.
        destruct (Rcase_abs (d + c)) as [S1|S1], (Rcase_abs (d - c)) as [S2|S2], (Rcase_abs c); try lra.
        all: assert (0 <= - ((d + c) * (d - c))) by (first [replace (- ((d + c) * (d - c))) with ((- (d + c)) * (d - c)) by ring; apply Rmult_le_pos; lra|replace (- ((d + c) * (d - c))) with ((d + c) * (- (d - c))) by ring; apply Rmult_le_pos; lra]); lra.
Qed.
Print Assumptions capsule_plane_test_exact.
(** With contacts: exact unless the ends lie within the tolerance on opposite sides, or the first
    end lies in the plane and the second below it. *)
Theorem capsule_plane_exact : forall tol lz r X s X2, 0 <= lz -> 0 <= r -> 0 <= tol -> ortho (tf_rot X) -> ortho (tf_rot X2) -> dot (fn s) (fn s) = 1 ->
  let h := flat_transform s X2 in let d1 := sd h (fst (capsule_ends lz X)) in let d2 := sd h (snd (capsule_ends lz X)) in
  ~ (- tol <= d1 * d2 < 0) -> ~ (d1 = 0 /\ d2 < 0) -> plane_ok (placed X (capset lz r)) s X2 (capsule_plane tol lz r X h).
Proof.
  intros tol lz r X s X2 Hl Hr Ht O O2 U h d1 d2 H1 H2. pose proof (transform_unit s X2 O2 U) as Uh. fold h in Uh.
  destruct (capsule_range lz r X h Hl Hr O Uh) as (ql & qh & Kl & Kh & El & Eh & B).
  destruct (ends_sd lz X h) as [D1 D2]. fold d1 in D1. fold d2 in D2. set (c := c2 (fn (loc h X)) * (lz / 2)) in *.
  assert (Ec : Rabs (c2 (fn (loc h X))) * (lz / 2) = Rabs c) by (unfold c; rewrite Rabs_mult, (Rabs_pos_eq (lz / 2)) by lra; reflexivity). rewrite Ec in El, Eh.
  assert (Ml : sd h ql = Rmin d1 d2 - r). { rewrite El, D1, D2. unfold Rmin, Rabs. destruct (Rcase_abs c), (Rle_dec _ _); lra. }
  assert (Mh : sd h qh = Rmax d1 d2 + r). { rewrite Eh, D1, D2. unfold Rmax, Rabs. destruct (Rcase_abs c), (Rle_dec _ _); lra. }
  assert (CU : forall pt, sd h pt = 0 -> Rmax d1 d2 + r <= r - Rmin d1 d2 -> plane_contact 1 (placed X (capset lz r)) h (mkct (fn h) pt (Rmax d1 d2 + r))).
  { intros pt E L. split; [exact E|]. exists 1. cbn [cnorm cdepth]. split; [auto|]. split; [destruct (fn h); unfold vscale; cbn; f_equal; ring|]. split; [exists qh; split; [exact Kh|lra]|]. split; [intros p Hp; specialize (B p Hp); lra|exists ql; split; [exact Kl|lra]]. }
  assert (CD : forall pt, sd h pt = 0 -> r - Rmin d1 d2 <= Rmax d1 d2 + r -> plane_contact 1 (placed X (capset lz r)) h (mkct (vneg (fn h)) pt (r - Rmin d1 d2))).
  { intros pt E L. split; [exact E|]. exists (-1). cbn [cnorm cdepth]. split; [auto|]. split; [destruct (fn h); unfold vscale, vneg; cbn; f_equal; ring|]. split; [exists ql; split; [exact Kl|lra]|]. split; [intros p Hp; specialize (B p Hp); lra|exists qh; split; [exact Kh|lra]]. }
  apply (plane_finish _ s X2 ql qh _ O2 U (placed_convex X _ (segment_convex lz r Hr)) Kl Kh B); fold h; rewrite Ml, Mh; unfold capsule_plane; subst d1 d2; destruct (capsule_ends lz X) as [p1 p2]; cbn [fst snd] in *; clear D1 D2 El Eh Ml Mh B; set (d1 := sd h p1) in *; set (d2 := sd h p2) in *.
  - intros L. destruct (Rlt_dec (d1 * d2) (- tol)) as [T|T].
    + assert (Op : (d1 < 0 < d2) \/ (d2 < 0 < d1)). { destruct (Rlt_dec d1 0), (Rlt_dec 0 d2); try (left; lra); destruct (Rlt_dec d2 0), (Rlt_dec 0 d1); try (right; lra); exfalso; assert (0 <= d1 * d2) by (first [apply Rmult_le_pos; lra|replace (d1 * d2) with ((- d1) * (- d2)) by ring; apply Rmult_le_pos; lra]); lra. }
      assert (Ept : sd h (vadd (vscale (Rabs d2 / (Rabs d1 + Rabs d2)) p1) (vscale (Rabs d1 / (Rabs d1 + Rabs d2)) p2)) = 0).
      { unfold sd. rewrite dot_add_r, !dot_scale_r. replace (dot (fn h) p1) with (d1 + fd h) by (unfold d1, sd; ring). replace (dot (fn h) p2) with (d2 + fd h) by (unfold d2, sd; ring).
        destruct Op as [[]|[]]; [rewrite (Rabs_left d1), (Rabs_right d2) by lra|rewrite (Rabs_right d1), (Rabs_left d2) by lra]; field; lra. }
      destruct Op as [[P1 P2]|[P1 P2]].
      * rewrite Rmin_left, Rmax_right in * by lra. rewrite (Rabs_left d1), (Rabs_right d2) in * by lra. unfold neg. destruct (Rlt_dec (- d1) d2).
        -- eexists. split; [reflexivity|]. destruct (Rlt_dec d1 0); [|lra]. cbn [facing]. replace (- d1 + r) with (r - d1) by ring. apply CD; [exact Ept|lra].
        -- eexists. split; [reflexivity|]. destruct (Rlt_dec d2 0); [lra|]. cbn [facing]. apply CU; [exact Ept|lra].
      * rewrite Rmin_right, Rmax_left in * by lra. rewrite (Rabs_right d1), (Rabs_left d2) in * by lra. unfold neg. destruct (Rlt_dec d1 (- d2)).
        -- eexists. split; [reflexivity|]. destruct (Rlt_dec d1 0); [lra|]. cbn [facing]. apply CU; [exact Ept|lra].
        -- eexists. split; [reflexivity|]. destruct (Rlt_dec d2 0); [|lra]. cbn [facing]. replace (- d2 + r) with (r - d2) by ring. apply CD; [exact Ept|lra].
    + assert (Pr : 0 <= d1 * d2) by (destruct (Rlt_dec (d1 * d2) 0); [exfalso; apply H1|]; lra).
      assert (Sg : (0 <= d1 /\ 0 <= d2) \/ (d1 < 0 /\ d2 <= 0)).
      { destruct (Rlt_dec d1 0) as [A|A]. - right. split; [exact A|]. destruct (Rle_dec d2 0); [assumption|]. assert (0 < (- d1) * d2) by (apply Rmult_lt_0_compat; lra). lra.
        - left. split; [lra|]. destruct (Rle_dec 0 d2); [assumption|]. exfalso. destruct (Req_dec d1 0); [apply H2; split; lra|]. assert (0 < d1 * (- d2)) by (apply Rmult_lt_0_compat; lra). lra. }
      assert (Ept : forall b1 b2 : bool, sd h (if b1 && b2 then vscale (1/2) (vadd (vsub p1 (vscale d2 (fn h))) (vsub p2 (vscale d1 (fn h)))) else if b1 then vsub p1 (vscale d1 (fn h)) else vsub p2 (vscale d2 (fn h))) = 0).
      { assert (F1 : dot (fn h) p1 = d1 + fd h) by (unfold d1, sd; ring). assert (F2 : dot (fn h) p2 = d2 + fd h) by (unfold d2, sd; ring).
        intros [] []; cbn [andb]; unfold sd; rewrite ?dot_scale_r, ?dot_add_r, ?dot_sub_r, ?dot_scale_r, Uh, ?F1, ?F2; field. }
      set (far := fun x => if Rlt_dec r x then true else false).
      assert (Nf : far (Rabs d1) && far (Rabs d2) = false).
      { unfold far. destruct (Rlt_dec r (Rabs d1)), (Rlt_dec r (Rabs d2)); try reflexivity. exfalso. destruct Sg as [[]|[]]; [rewrite !Rabs_pos_eq in * by lra|rewrite !Rabs_left1 in * by lra]; unfold Rmin, Rmax in L; destruct (Rle_dec d1 d2); lra. }
      unfold far in Nf. cbv beta zeta in Nf |- *. rewrite Nf. eexists. split; [reflexivity|]. unfold neg. destruct Sg as [[P1 P2]|[P1 P2]].
      * destruct (Rlt_dec d1 0); [lra|]. cbn [negb facing]. replace (r - Rmin (Rabs d1) (Rabs d2)) with (r - Rmin d1 d2) by (rewrite (Rabs_pos_eq d1), (Rabs_pos_eq d2) by lra; reflexivity). apply CD; [apply Ept|]. unfold Rmin, Rmax. destruct (Rle_dec d1 d2); lra.
      * destruct (Rlt_dec d1 0); [|lra]. cbn [negb facing]. replace (r - Rmin (Rabs d1) (Rabs d2)) with (Rmax d1 d2 + r) by (rewrite (Rabs_left1 d1), (Rabs_left1 d2) by lra; unfold Rmin, Rmax; destruct (Rle_dec (- d1) (- d2)), (Rle_dec d1 d2); lra). apply CU; [apply Ept|]. unfold Rmin, Rmax. destruct (Rle_dec d1 d2); lra.
  - intros L. assert (Pr : 0 < d1 * d2 /\ r < Rabs d1 /\ r < Rabs d2).
    { unfold Rmin, Rmax in L. destruct L as [L|L].
      - assert (r < d1 /\ r < d2) as [A1 A2] by (destruct (Rle_dec d1 d2); lra). rewrite !Rabs_pos_eq by lra. split; [apply Rmult_lt_0_compat; lra|lra].
      - assert (d1 < - r /\ d2 < - r) as [A1 A2] by (destruct (Rle_dec d1 d2); lra). rewrite !Rabs_left1 by lra. split; [replace (d1 * d2) with ((- d1) * (- d2)) by ring; apply Rmult_lt_0_compat; lra|lra]. }
    destruct Pr as (P0 & P1 & P2). destruct (Rlt_dec (d1 * d2) (- tol)); [lra|]. destruct (Rlt_dec r (Rabs d1)); [|lra]. destruct (Rlt_dec r (Rabs d2)); [|lra]. reflexivity.
Qed.
Print Assumptions capsule_plane_exact.
(** A thin capsule crossing the plane within the tolerance is missed; the normal is flipped when
    the first end lies in the plane and the rest below. *)
Theorem capsule_plane_refuted : forall tol lz r X s X2, 0 <= lz -> 0 <= r -> 0 <= tol -> ortho (tf_rot X) -> ortho (tf_rot X2) -> dot (fn s) (fn s) = 1 ->
  let h := flat_transform s X2 in let d1 := sd h (fst (capsule_ends lz X)) in let d2 := sd h (snd (capsule_ends lz X)) in
  (r < Rabs d1 -> r < Rabs d2 -> - tol <= d1 * d2 < 0 -> capsule_plane tol lz r X h = None /\ meets (placed X (capset lz r)) (placed X2 (in_plane s))) /\
  (d1 = 0 -> d2 < 0 -> exists c, capsule_plane tol lz r X h = Some c /\ cnorm c = vneg (fn h) /\ cdepth c = r /\
     (forall q, placed X (capset lz r) q -> sd h q <= r) /\ exists q, placed X (capset lz r) q /\ sd h q < - r).
Proof.
  intros tol lz r X s X2 Hl Hr Ht O O2 U h d1 d2. pose proof (transform_unit s X2 O2 U) as Uh. fold h in Uh. split.
  - intros F1 F2 P. split.
    + unfold capsule_plane. subst d1 d2. destruct (capsule_ends lz X) as [p1 p2]. cbn [fst snd] in *. destruct (Rlt_dec _ (- tol)); [lra|]. destruct (Rlt_dec r (Rabs (sd h p1))); [|lra]. destruct (Rlt_dec r (Rabs (sd h p2))); [|lra]. reflexivity.
    + apply capsule_plane_test_exact; [assumption..|]. fold h. unfold capsule_plane_test. subst d1 d2. destruct (capsule_ends lz X) as [p1 p2]. cbn [fst snd] in *. destruct (Rle_dec _ 0); [reflexivity|lra].
  - intros Z N. destruct (capsule_range lz r X h Hl Hr O Uh) as (ql & qh & Kl & Kh & El & Eh & B). destruct (ends_sd lz X h) as [D1 D2]. fold d1 in D1. fold d2 in D2. set (c := c2 (fn (loc h X)) * (lz / 2)) in *.
    assert (Ec : Rabs (c2 (fn (loc h X))) * (lz / 2) = Rabs c) by (unfold c; rewrite Rabs_mult, (Rabs_pos_eq (lz / 2)) by lra; reflexivity). rewrite Ec in El, Eh. assert (0 < c) by lra. rewrite (Rabs_pos_eq c) in * by lra.
    unfold capsule_plane. subst d1 d2. destruct (capsule_ends lz X) as [p1 p2]. cbn [fst snd] in *. rewrite Z, Rabs_R0, Rmult_0_l. destruct (Rlt_dec 0 (- tol)); [lra|]. destruct (Rlt_dec r 0); [lra|]. cbn [andb]. eexists. split; [reflexivity|]. cbn [cnorm cdepth]. unfold neg. destruct (Rlt_dec 0 0); [lra|]. cbn [negb facing]. split; [reflexivity|].
    split; [rewrite Rmin_left by apply Rabs_pos; ring|]. split; [intros q Hq; specialize (B q Hq); lra|]. exists ql. split; [exact Kl|lra].
Qed.
Print Assumptions capsule_plane_refuted.

(** ** Cylinder *)
Lemma cyl_convex : forall lz r, convex (cylset lz r).
Proof.
  intros lz r a b t [Za Ra] [Zb Rb] Ht. destruct a as [a0 a1 a2], b as [b0 b1 b2]. unfold cylset, vadd, vscale, vsub. cbn in *. split.
  - assert (t * b2 <= t * (lz / 2)) by (apply Rmult_le_compat_l; lra). assert ((1 - t) * a2 <= (1 - t) * (lz / 2)) by (apply Rmult_le_compat_l; lra). assert (t * - (lz / 2) <= t * b2) by (apply Rmult_le_compat_l; lra). assert ((1 - t) * - (lz / 2) <= (1 - t) * a2) by (apply Rmult_le_compat_l; lra). lra.
  - pose proof (sq_convex a0 b0 t Ht). pose proof (sq_convex a1 b1 t Ht). assert ((1 - t) * (a0 * a0 + a1 * a1) <= (1 - t) * (r * r)) by (apply Rmult_le_compat_l; lra). assert (t * (b0 * b0 + b1 * b1) <= t * (r * r)) by (apply Rmult_le_compat_l; lra). lra.
Qed.
Lemma planar_cos : forall Q, dot Q Q = 1 -> planar Q = sqrt (1 - c2 Q * c2 Q).
Proof. intros Q U. unfold planar. f_equal. unfold dot in U. lra. Qed.
(** How far a cylinder reaches along a unit direction at cosine [c] to its axis *)
Definition cyl_extent (lz r c : R) : R := r * sqrt (1 - c * c) + Rabs c * (lz / 2).
(** Directions of the rim (for any normal) *)
Lemma rim_dir : forall Q r, 0 <= r -> exists x y, c0 Q * x + c1 Q * y = - (r * planar Q) /\ x * x + y * y <= r * r.
Proof.
  intros Q r Hr. pose proof (planar_sq Q) as P. destruct (Req_dec (planar Q) 0) as [Z|NZ].
  - exists 0, 0. rewrite Z. split; [ring|nra].
  - exists (- (r / planar Q) * c0 Q), (- (r / planar Q) * c1 Q). split.
    + transitivity (- (r / planar Q) * (c0 Q * c0 Q + c1 Q * c1 Q)); [ring|]. rewrite <- P. field. exact NZ.
    + right. transitivity (r / planar Q * (r / planar Q) * (c0 Q * c0 Q + c1 Q * c1 Q)); [ring|]. rewrite <- P. field. exact NZ.
Qed.
Lemma cyl_range : forall lz r X h, 0 <= lz -> 0 <= r -> ortho (tf_rot X) -> dot (fn h) (fn h) = 1 ->
  let K := placed X (cylset lz r) in let d := sd h (tf_tr X) in let e := cyl_extent lz r (dot (VecR.m2 (tf_rot X)) (fn h)) in
  exists qlo qhi, K qlo /\ K qhi /\ sd h qlo = d - e /\ sd h qhi = d + e /\ forall p, K p -> sd h qlo <= sd h p <= sd h qhi.
Proof.
  intros lz r X h Hl Hr O Uh K d e. pose proof (loc_unit h X O Uh) as Ul. unfold e, cyl_extent. rewrite cosa_loc. set (Q := fn (loc h X)) in *. rewrite <- (planar_cos Q Ul). destruct (rim_dir Q r Hr) as (x & y & Ev & Ei).
  pose proof (away_val (c2 Q)) as A. set (k := lz / 2 * away (c2 Q)). assert (Hk : - (lz / 2) <= k <= lz / 2) by (unfold k; destruct (away_cases (c2 Q)) as [-> | ->]; lra). assert (Ek : c2 Q * k = - (Rabs (c2 Q) * (lz / 2))) by (unfold k; rewrite <- Ropp_mult_distr_l_reverse, <- A; ring).
  assert (El : sd h (tf_apply X (mk3 x y k)) = d - (r * planar Q + Rabs (c2 Q) * (lz / 2))) by (rewrite sd_dot; fold Q d; unfold dot; cbn [c0 c1 c2]; rewrite Ek, Ev; ring).
  assert (Eh : sd h (tf_apply X (mk3 (- x) (- y) (- k))) = d + (r * planar Q + Rabs (c2 Q) * (lz / 2))) by (rewrite sd_dot; fold Q d; unfold dot; cbn [c0 c1 c2]; transitivity (- (c0 Q * x + c1 Q * y) - c2 Q * k + d); [ring|rewrite Ek, Ev; ring]).
  exists (tf_apply X (mk3 x y k)), (tf_apply X (mk3 (- x) (- y) (- k))). split; [|split; [|split; [exact El|split; [exact Eh|]]]].
  - apply placed_intro. split; cbn [c0 c1 c2]; lra.
  - apply placed_intro. split; cbn [c0 c1 c2]; [lra|]. replace (- x * - x + - y * - y) with (x * x + y * y) by ring. exact Ei.
  - intros p (p0 & Hp & ->). rewrite El, Eh, sd_dot. fold Q d. pose proof (Rabs_le_inv _ _ (cylset_bound lz r Q p0 Hr Hl Hp)). lra.
Qed.
(** The test without contacts uses the whole length: it misses nothing but reports cylinders up
    to half a length away. *)
Theorem cyl_plane_test_sound : forall lz r X s X2, 0 <= lz -> 0 <= r -> ortho (tf_rot X) -> ortho (tf_rot X2) -> dot (fn s) (fn s) = 1 ->
  let h := flat_transform s X2 in cyl_plane_test lz r X h = false -> ~ meets (placed X (cylset lz r)) (placed X2 (in_plane s)).
Proof.
  intros lz r X s X2 Hl Hr O O2 U h T. pose proof (transform_unit s X2 O2 U) as Uh. fold h in Uh. destruct (cyl_range lz r X h Hl Hr O Uh) as (ql & qh & Kl & Kh & El & Eh & B).
  rewrite (plane_meets _ s X2 ql qh O2 U (placed_convex X _ (cyl_convex lz r)) Kl Kh B). fold h. rewrite El, Eh. unfold cyl_extent. rewrite cosa_loc. pose proof (loc_unit h X O Uh) as Ul. rewrite <- (planar_cos _ Ul).
  unfold cyl_plane_test in T. change (mtapply (tf_rot X) (fn h)) with (fn (loc h X)) in T. destruct (Rlt_dec _ 0) as [L|]; [|discriminate]. unfold tr in L. fold (planar (fn (loc h X))) in L. set (Q := fn (loc h X)) in *.
  assert (Rabs (c2 Q) * (lz / 2) <= Rabs (c2 Q) * lz) by (apply Rmult_le_compat_l; [apply Rabs_pos|lra]). intros [A1 A2]. unfold Rabs at 2 in L. destruct (Rcase_abs (sd h (tf_tr X))); lra.
Qed.
Print Assumptions cyl_plane_test_sound.
Theorem cyl_plane_test_refuted : forall lz r X s X2, 0 <= lz -> 0 <= r -> ortho (tf_rot X) -> ortho (tf_rot X2) -> dot (fn s) (fn s) = 1 ->
  let h := flat_transform s X2 in let c := dot (VecR.m2 (tf_rot X)) (fn h) in
  cyl_extent lz r c < Rabs (sd h (tf_tr X)) <= cyl_extent lz r c + Rabs c * (lz / 2) ->
  cyl_plane_test lz r X h = true /\ ~ meets (placed X (cylset lz r)) (placed X2 (in_plane s)).
Proof.
  intros lz r X s X2 Hl Hr O O2 U h c [L1 L2]. pose proof (transform_unit s X2 O2 U) as Uh. fold h in Uh. pose proof (loc_unit h X O Uh) as Ul. split.
  - unfold cyl_plane_test. change (mtapply (tf_rot X) (fn h)) with (fn (loc h X)). fold (planar (fn (loc h X))). unfold c, cyl_extent in L2. rewrite cosa_loc in L2. rewrite <- (planar_cos _ Ul) in L2. unfold tr. destruct (Rlt_dec _ 0); [lra|reflexivity].
  - destruct (cyl_range lz r X h Hl Hr O Uh) as (ql & qh & Kl & Kh & El & Eh & B). rewrite (plane_meets _ s X2 ql qh O2 U (placed_convex X _ (cyl_convex lz r)) Kl Kh B). fold h. rewrite El, Eh. fold c. unfold Rabs in L1. destruct (Rcase_abs (sd h (tf_tr X))); lra.
Qed.
Print Assumptions cyl_plane_test_refuted.
Lemma sub_rim : forall X p x y, vsub (tf_apply X p) (mapply (tf_rot X) (mk3 x y 0)) = tf_apply X (vadd p (mk3 (- x) (- y) 0)).
Proof. intros [[[] [] []] []] [] x y. unfold tf_apply, mapply, vadd, vsub, vscale. cbn. f_equal; ring. Qed.
(** Exact unless the plane touches the cylinder from below *)
Theorem cyl_plane_exact : forall tol lz r X s X2, 0 < tol -> 0 <= lz -> 0 <= r -> ortho (tf_rot X) -> ortho (tf_rot X2) -> dot (fn s) (fn s) = 1 ->
  let h := flat_transform s X2 in let c := dot (VecR.m2 (tf_rot X)) (fn h) in
  cyl_sharp tol c -> sd h (tf_tr X) <> cyl_extent lz r c -> plane_ok (placed X (cylset lz r)) s X2 (cyl_plane tol lz r X h).
Proof.
  intros tol lz r X s X2 Ht Hl Hr O O2 U h c (Z0 & Z1 & Z2) NT. pose proof (transform_unit s X2 O2 U) as Uh. fold h in Uh. pose proof (loc_unit h X O Uh) as Ul.
  destruct (cyl_range lz r X h Hl Hr O Uh) as (ql & qh & Kl & Kh & El & Eh & B). fold c in El, Eh. unfold cyl_plane. fold c. set (d := sd h (tf_tr X)) in *. set (e := cyl_extent lz r c) in *.
  apply (plane_finish _ s X2 ql qh _ O2 U (placed_convex X _ (cyl_convex lz r)) Kl Kh B); fold h; rewrite El, Eh.
  - intros L. destruct (small tol c) eqn:Sm.
    + apply (sharp_small _ _ Z0) in Sm. assert (Ee : e = r) by (unfold e, cyl_extent; rewrite Sm, Rabs_R0, Rmult_0_l, Rminus_0_r, sqrt_1; ring). fold d. rewrite Ee in *. unfold tr. fold d.
      destruct (Rlt_dec _ 0) as [P|]; [exfalso; unfold Rabs in P; destruct (Rcase_abs _); lra|]. eexists. split; [reflexivity|].
      apply (sym_contact _ h _ _ _ _ _ _ Kl Kh B El Eh); [unfold neg; destruct (Rlt_dec _ _); [discriminate|intros; lra]|unfold neg; destruct (Rlt_dec _ _); [intros; lra|discriminate]|]. unfold sd. rewrite dot_sub_r, dot_scale_r, Uh. unfold d, sd. ring.
    + assert (Ec : c = c2 (fn (loc h X))) by apply cosa_loc. rewrite Ec in Z1, Z2. destruct (rim_spec tol r h X Ht Hr O Uh Z1 Z2) as (x & y & Er & Ev & Ei). rewrite <- Ec in Er. rewrite Er. unfold capsule_ends. rewrite axis_point, axis_point', !sub_rim, !add_rim.
      set (Q := fn (loc h X)) in *. assert (Pe : e = r * planar Q + Rabs (c2 Q) * (lz / 2)) by (unfold e, cyl_extent; rewrite (planar_cos Q Ul), Ec; reflexivity).
      assert (NZ : c <> 0) by (intros Zc; rewrite Zc, small_zero in Sm by exact Ht; discriminate).
      set (a := if Rlt_dec 0 c then _ else _). set (b := if Rlt_dec 0 c then _ else tf_apply X (vadd (mk3 0 0 (- (1/2 * lz))) (mk3 (- x) (- y) 0))).
      assert (G : (sd h a = d + e /\ sd h b = d - e) \/ (sd h a = d - e /\ sd h b = d + e)).
      { unfold a, b. rewrite Pe. destruct (Rlt_dec 0 c) as [P|P]; [left; rewrite (Rabs_pos_eq (c2 Q)) by lra|right; rewrite (Rabs_left1 (c2 Q)) by lra]; rewrite !sd_dot; fold Q; fold d; unfold dot, vadd; cbn [c0 c1 c2];
        split; [replace (c0 Q * (0 + - x) + c1 Q * (0 + - y) + c2 Q * (1 / 2 * lz + 0)) with (- (c0 Q * x + c1 Q * y) + c2 Q * (lz / 2)) by field|replace (c0 Q * (0 + x) + c1 Q * (0 + y) + c2 Q * (- (1 / 2 * lz) + 0)) with ((c0 Q * x + c1 Q * y) - c2 Q * (lz / 2)) by field|replace (c0 Q * (0 + x) + c1 Q * (0 + y) + c2 Q * (1 / 2 * lz + 0)) with ((c0 Q * x + c1 Q * y) + c2 Q * (lz / 2)) by field|replace (c0 Q * (0 + - x) + c1 Q * (0 + - y) + c2 Q * (- (1 / 2 * lz) + 0)) with (- (c0 Q * x + c1 Q * y) - c2 Q * (lz / 2)) by field]; rewrite Ev; ring. }
      assert (PT : forall p, sd h (vsub p (vscale (sd h p) (fn h))) = 0) by (intros p; unfold sd at 1; rewrite dot_sub_r, dot_scale_r, Uh; unfold sd; ring).
      assert (CU : forall pt, sd h pt = 0 -> d + e <= e - d -> plane_contact 1 (placed X (cylset lz r)) h (mkct (fn h) pt (d + e))).
      { intros pt E L'. split; [exact E|]. exists 1. cbn [cnorm cdepth]. split; [auto|]. split; [destruct (fn h); unfold vscale; cbn; f_equal; ring|]. split; [exists qh; split; [exact Kh|lra]|]. split; [intros p Hp; specialize (B p Hp); lra|exists ql; split; [exact Kl|lra]]. }
      assert (CD : forall pt, sd h pt = 0 -> e - d <= d + e -> plane_contact 1 (placed X (cylset lz r)) h (mkct (vneg (fn h)) pt (e - d))).
      { intros pt E L'. split; [exact E|]. exists (-1). cbn [cnorm cdepth]. split; [auto|]. split; [destruct (fn h); unfold vscale, vneg; cbn; f_equal; ring|]. split; [exists ql; split; [exact Kl|lra]|]. split; [intros p Hp; specialize (B p Hp); lra|exists qh; split; [exact Kh|lra]]. }
      assert (Pr : sd h a * sd h b <= 0) by (assert (0 <= (d + e) * (e - d)) by (apply Rmult_le_pos; lra); destruct G as [[-> ->]|[-> ->]]; lra).
      destruct (Rle_dec (sd h a * sd h b) 0); [|lra]. pose proof (PT a) as Pa. pose proof (PT b) as Pb. unfold neg. clear - G L NT CU CD Pa Pb.
      destruct G as [[Ga Gb]|[Ga Gb]]; rewrite Ga, Gb in *.
      * rewrite (Rabs_pos_eq (d + e)), (Rabs_left1 (d - e)) by lra. destruct (Rlt_dec (- (d - e)) (d + e)); (eexists; split; [reflexivity|]).
        -- destruct (Rlt_dec (d - e) 0); [|lra]. cbn [facing]. replace (- (d - e)) with (e - d) by ring. apply CD; [exact Pb|lra].
        -- destruct (Rlt_dec (d + e) 0); [lra|]. cbn [facing]. apply CU; [exact Pa|lra].
      * rewrite (Rabs_pos_eq (d + e)), (Rabs_left1 (d - e)) by lra. destruct (Rlt_dec (d + e) (- (d - e))); (eexists; split; [reflexivity|]).
        -- destruct (Rlt_dec (d + e) 0); [lra|]. cbn [facing]. apply CU; [exact Pb|lra].
        -- destruct (Rlt_dec (d - e) 0); [|lra]. cbn [facing]. replace (- (d - e)) with (e - d) by ring. apply CD; [exact Pa|lra].
  - intros L. destruct (small tol c) eqn:Sm.
    + apply (sharp_small _ _ Z0) in Sm. assert (Ee : e = r) by (unfold e, cyl_extent; rewrite Sm, Rabs_R0, Rmult_0_l, Rminus_0_r, sqrt_1; ring). unfold tr. fold d. destruct (Rlt_dec _ 0) as [|P]; [reflexivity|]. exfalso. apply P. unfold Rabs. destruct (Rcase_abs _); lra.
    + assert (Ec : c = c2 (fn (loc h X))) by apply cosa_loc. rewrite Ec in Z1, Z2. destruct (rim_spec tol r h X Ht Hr O Uh Z1 Z2) as (x & y & Er & Ev & Ei). rewrite <- Ec in Er. rewrite Er. unfold capsule_ends. rewrite axis_point, axis_point', !sub_rim, !add_rim.
      set (Q := fn (loc h X)) in *. assert (Pe : e = r * planar Q + Rabs (c2 Q) * (lz / 2)) by (unfold e, cyl_extent; rewrite (planar_cos Q Ul), Ec; reflexivity).
      set (a := if Rlt_dec 0 c then _ else _). set (b := if Rlt_dec 0 c then _ else tf_apply X (vadd (mk3 0 0 (- (1/2 * lz))) (mk3 (- x) (- y) 0))).
      assert (G : (sd h a = d + e /\ sd h b = d - e) \/ (sd h a = d - e /\ sd h b = d + e)).
      { unfold a, b. rewrite Pe. destruct (Rlt_dec 0 c) as [P|P]; [left; rewrite (Rabs_pos_eq (c2 Q)) by lra|right; rewrite (Rabs_left1 (c2 Q)) by lra]; rewrite !sd_dot; fold Q; fold d; unfold dot, vadd; cbn [c0 c1 c2];
        split; [replace (c0 Q * (0 + - x) + c1 Q * (0 + - y) + c2 Q * (1 / 2 * lz + 0)) with (- (c0 Q * x + c1 Q * y) + c2 Q * (lz / 2)) by field|replace (c0 Q * (0 + x) + c1 Q * (0 + y) + c2 Q * (- (1 / 2 * lz) + 0)) with ((c0 Q * x + c1 Q * y) - c2 Q * (lz / 2)) by field|replace (c0 Q * (0 + x) + c1 Q * (0 + y) + c2 Q * (1 / 2 * lz + 0)) with ((c0 Q * x + c1 Q * y) + c2 Q * (lz / 2)) by field|replace (c0 Q * (0 + - x) + c1 Q * (0 + - y) + c2 Q * (- (1 / 2 * lz) + 0)) with (- (c0 Q * x + c1 Q * y) - c2 Q * (lz / 2)) by field]; rewrite Ev; ring. }
      assert (E0 : 0 <= e) by (rewrite Pe; apply Rplus_le_le_0_compat; apply Rmult_le_pos; [exact Hr|apply planar_pos|apply Rabs_pos|lra]).
      assert (Pr : 0 < sd h a * sd h b). { destruct G as [[-> ->]|[-> ->]]; destruct L as [L|L]; [apply Rmult_lt_0_compat; lra|replace ((d + e) * (d - e)) with ((- (d + e)) * (- (d - e))) by ring; apply Rmult_lt_0_compat; lra|apply Rmult_lt_0_compat; lra|replace ((d - e) * (d + e)) with ((- (d + e)) * (- (d - e))) by ring; apply Rmult_lt_0_compat; lra]. }
      destruct (Rle_dec (sd h a * sd h b) 0); [lra|reflexivity].
Qed.
Print Assumptions cyl_plane_exact.
(** A plane touching the base of a cylinder that stands on it: the normal points into the
    cylinder. *)
Theorem cyl_plane_touch_refuted : exists c, cyl_plane (1/10) 2 1 (at_ 0 0 1) up0 = Some c /\ cnorm c = fn up0 /\
  (forall p, placed (at_ 0 0 1) (cylset 2 1) p -> 0 <= sd up0 p) /\ exists p, placed (at_ 0 0 1) (cylset 2 1) p /\ 0 < sd up0 p.
Proof.
  set (res := cyl_plane _ _ _ _ _). assert (E : exists pt dp, res = Some (mkct (fn up0) pt dp)).
  { unfold res, cyl_plane, small, rim, small, capsule_ends, tr, sd, up0, at_, neg, dot. cbn.
    replace (0 * 0 + 0 * 0 + 1 * 1) with 1 by ring. rewrite Rabs_R1. destruct (Rlt_dec 1 (1/10)); [lra|]. replace (1 - 1) with 0 by ring. rewrite Rabs_R0. destruct (Rlt_dec 0 (1/10)); [|lra]. rewrite orb_true_r. destruct (Rlt_dec 0 1); [|lra].
    match goal with |- context [Rle_dec ?a 0] => destruct (Rle_dec a 0) as [|N]; [|exfalso; apply N; cbn; lra] end.
    match goal with |- context [Rlt_dec (Rabs ?a) (Rabs ?b)] => replace a with 0 by (cbn; field); replace b with 2 by (cbn; field) end. rewrite Rabs_R0, (Rabs_pos_eq 2) by lra. destruct (Rlt_dec 0 2); [|lra]. destruct (Rlt_dec 0 0); [lra|]. eexists. eexists. reflexivity. }
  destruct E as (pt & dp & ->). eexists. split; [reflexivity|]. split; [reflexivity|]. split.
  - intros p (q & [Hz _] & ->). destruct q as [q0 q1 q2]. unfold sd, tf_apply, at_, up0, mapply, mid, vadd, vscale, dot. cbn in *. lra.
  - exists (tf_apply (at_ 0 0 1) vzero). split; [apply placed_intro; split; cbn; lra|]. unfold sd, tf_apply, at_, up0, mapply, mid, vadd, vscale, dot, vzero. cbn. lra.
Qed.
Print Assumptions cyl_plane_touch_refuted.

(** ** Three points: cones and triangles *)
Definition crosses (K : v3 -> Prop) (h : flat) : Prop := exists p q, K p /\ K q /\ sd h p < 0 /\ 0 < sd h q.
Lemma worst_spec : forall (f : R -> R) (up : R -> bool) ds m, let w := fold_left (fun m d => if up d then (if Rle_dec m (f d) then f d else m) else m) ds m in
  m <= w /\ (forall d, In d ds -> up d = true -> f d <= w) /\ (w = m \/ exists d, In d ds /\ up d = true /\ w = f d).
Proof.
  intros f up ds. induction ds as [|d ds IH]; intros m; cbn [fold_left]; [split; [lra|split; [intros d []|auto]]|].
  destruct (IH (if up d then if Rle_dec m (f d) then f d else m else m)) as (A & B & C). set (w := fold_left _ ds _) in *. clearbody w. cbv zeta. destruct (up d) eqn:Ud; [destruct (Rle_dec m (f d))|].
  - split; [lra|]. split; [intros x [<-|Hx] Ux; [exact A|apply B; assumption]|]. right. destruct C as [-> |(x & Hx & Ux & ->)]; [exists d|exists x]; cbn [In]; auto.
  - split; [lra|]. split; [intros x [<-|Hx] Ux; [lra|apply B; assumption]|]. destruct C as [-> |(x & Hx & Ux & ->)]; [auto|right; exists x; cbn [In]; auto].
  - split; [lra|]. split; [intros x [<-|Hx] Ux; [congruence|apply B; assumption]|]. destruct C as [-> |(x & Hx & Ux & ->)]; [auto|right; exists x; cbn [In]; auto].
Qed.
Lemma cross_point_sd : forall h p q, sd h p <> sd h q -> sd h (cross_point p (sd h p) q (sd h q)) = 0.
Proof.
  intros h p q N. unfold cross_point. set (a := sd h p) in *. set (b := sd h q) in *. unfold sd. rewrite dot_scale_r, dot_sub_r, !dot_scale_r. replace (dot (fn h) p) with (a + fd h) by (unfold a, sd; ring). replace (dot (fn h) q) with (b + fd h) by (unfold b, sd; ring). field. lra.
Qed.
Lemma mid_sd : forall h p q, sd h p = 0 -> sd h q = 0 -> sd h (vscale (1/2) (vadd p q)) = 0.
Proof. intros h p q A B. unfold sd in *. rewrite dot_scale_r, dot_add_r. lra. Qed.
Lemma split3_sd : forall h up a b c, (forall x y, up x = true -> up y = false -> x <> y) ->
  (up (sd h a) && up (sd h b) && up (sd h c) = false) -> (up (sd h a) || up (sd h b) || up (sd h c) = true) ->
  sd h (split3 up [(a, sd h a); (b, sd h b); (c, sd h c)]) = 0.
Proof.
  intros h up a b c D NA NO. assert (D' : forall x y, up x = true -> up y = false -> y <> x) by (intros x y Hx Hy E; apply (D x y Hx Hy); auto). unfold split3. cbn [filter snd].
  destruct (up (sd h a)) eqn:Ua, (up (sd h b)) eqn:Ub, (up (sd h c)) eqn:Uc; try discriminate; cbn [negb fst snd]; apply mid_sd; apply cross_point_sd; first [apply D; assumption|apply D'; assumption].
Qed.
Lemma three_points : forall e (K : v3 -> Prop) h up a b c f, K a -> K b -> K c ->
  (forall m p, m <= sd h a -> m <= sd h b -> m <= sd h c -> K p -> m <= sd h p) -> (forall m p, sd h a <= m -> sd h b <= m -> sd h c <= m -> K p -> sd h p <= m) ->
  (forall x, up x = true -> 0 <= x) -> (forall x, up x = false -> x <= 0) -> (forall x y, up x = true -> up y = false -> x <> y) -> (forall g : bool, f g = vscale (e * (if g then -1 else 1)) (fn h)) ->
  let pts := [(a, sd h a); (b, sd h b); (c, sd h c)] in let ds := map snd pts in
  let dp := worst (fun x => x) up ds in let dn := worst Ropp (fun x => negb (up x)) ds in
  let res := if forallb nonneg ds || forallb nonpos ds then None else Some (mkct (f (if Rlt_dec dn dp then true else false)) (split3 up pts) (Rmin dp dn)) in
  (res = None <-> ~ crosses K h) /\ forall ct, res = Some ct -> plane_contact e K h ct.
Proof.
  intros e K h up a b c f Ka Kb Kc Lo Hi Up0 Up1 Dis F pts ds dp dn res.
  assert (Nn : forall x, nonneg x = true <-> 0 <= x) by (intros x; unfold nonneg; destruct (Rle_dec 0 x); split; auto; discriminate || contradiction).
  assert (Np : forall x, nonpos x = true <-> x <= 0) by (intros x; unfold nonpos; destruct (Rle_dec x 0); split; auto; discriminate || contradiction).
  assert (In3 : forall d, In d ds -> exists q, K q /\ sd h q = d) by (intros d [<-|[<-|[<-|[]]]]; [exists a|exists b|exists c]; split; assumption || reflexivity).
  unfold res. clear res. destruct (forallb nonneg ds || forallb nonpos ds) eqn:E.
  - split; [|discriminate]. split; [|reflexivity]. intros _ (p & q & Kp & Kq & Lp & Lq). apply orb_true_iff in E. rewrite !forallb_forall in E. destruct E as [E|E].
    + assert (0 <= sd h p) by (apply Lo; [apply Nn, E; cbn; auto..|exact Kp]). lra.
    + assert (sd h q <= 0) by (apply Hi; [apply Np, E; cbn; auto..|exact Kq]). lra.
  -
    apply orb_false_iff in E. destruct E as [E1 E2].
    assert (N1 : exists d, In d ds /\ d < 0). { destruct (Rlt_dec (sd h a) 0); [eexists; split; [left; reflexivity|assumption]|]. destruct (Rlt_dec (sd h b) 0); [eexists; split; [right; left; reflexivity|assumption]|]. destruct (Rlt_dec (sd h c) 0); [eexists; split; [right; right; left; reflexivity|assumption]|]. exfalso. enough (forallb nonneg ds = true) by congruence. apply forallb_forall. intros x [<-|[<-|[<-|[]]]]; apply Nn; cbn [snd]; lra. }
    assert (N2 : exists d, In d ds /\ 0 < d). { destruct (Rlt_dec 0 (sd h a)); [eexists; split; [left; reflexivity|assumption]|]. destruct (Rlt_dec 0 (sd h b)); [eexists; split; [right; left; reflexivity|assumption]|]. destruct (Rlt_dec 0 (sd h c)); [eexists; split; [right; right; left; reflexivity|assumption]|]. exfalso. enough (forallb nonpos ds = true) by congruence. apply forallb_forall. intros x [<-|[<-|[<-|[]]]]; apply Np; cbn [snd]; lra. }
    destruct N1 as (dm & Im & Pm), N2 as (dx & Ix & Px).
    destruct (worst_spec (fun x => x) up ds 0) as (P0 & P1 & P2). fold (worst (fun x => x) up ds) in P0, P1, P2. fold dp in P0, P1, P2.
    destruct (worst_spec Ropp (fun x => negb (up x)) ds 0) as (Q0 & Q1 & Q2). fold (worst Ropp (fun x => negb (up x)) ds) in Q0, Q1, Q2. fold dn in Q0, Q1, Q2. cbv beta zeta in *.
    assert (Ux : up dx = true) by (destruct (up dx) eqn:G; [reflexivity|]; specialize (Up1 _ G); lra). assert (Um : up dm = false) by (destruct (up dm) eqn:G; [|reflexivity]; specialize (Up0 _ G); lra).
    pose proof (P1 _ Ix Ux) as X1. pose proof (Q1 dm Im ltac:(rewrite Um; reflexivity)) as M1. cbv beta in X1.
    destruct P2 as [Z|(xp & Ip & _ & Ep)]; [lra|]. destruct Q2 as [Z|(xn & In_ & _ & En)]; [lra|].
    destruct (In3 _ Ip) as (qp & Kp & Sp). destruct (In3 _ In_) as (qn & Kn & Sn).
    assert (Bp : forall d, In d ds -> d <= dp) by (intros d Hd; destruct (up d) eqn:G; [apply (P1 d Hd G)|specialize (Up1 _ G); lra]).
    assert (Bn : forall d, In d ds -> - dn <= d) by (intros d Hd; destruct (up d) eqn:G; [specialize (Up0 _ G); lra|specialize (Q1 d Hd ltac:(rewrite G; reflexivity)); lra]).
    assert (Mp : forall p, K p -> sd h p <= dp) by (intros p Hp; apply Hi; [apply Bp; cbn; auto..|exact Hp]). assert (Mn : forall p, K p -> - dn <= sd h p) by (intros p Hp; apply Lo; [apply Bn; cbn; auto..|exact Hp]).
    split.
    + split; [discriminate|]. intros H. exfalso. apply H. exists qn, qp. repeat split; try assumption; lra.
    + intros ct H. injection H as <-. split; cbn [cpos].
      * apply split3_sd; [exact Dis|destruct (In3 _ Im) as (? & _ & _); destruct (up (sd h a) && up (sd h b) && up (sd h c)) eqn:G; [|reflexivity]|].
        -- apply andb_true_iff in G. destruct G as [G Gc]. apply andb_true_iff in G. destruct G as [Ga Gb]. destruct Im as [<-|[<-|[<-|[]]]]; cbn [snd] in Um; congruence.
        -- destruct Ix as [<-|[<-|[<-|[]]]]; cbn [snd] in Ux; rewrite Ux; rewrite ?orb_true_r; reflexivity.
      * exists (if Rlt_dec dn dp then -1 else 1). cbn [cnorm cdepth]. split; [destruct (Rlt_dec dn dp); auto|]. split; [rewrite F; destruct (Rlt_dec dn dp); reflexivity|]. destruct (Rlt_dec dn dp) as [L|L].
        -- rewrite Rmin_right by lra. split; [exists qn; split; [exact Kn|lra]|]. split; [intros p Hp; specialize (Mn p Hp); lra|exists qp; split; [exact Kp|lra]].
        -- rewrite Rmin_left by lra. split; [exists qp; split; [exact Kp|lra]|]. split; [intros p Hp; specialize (Mp p Hp); lra|exists qn; split; [exact Kn|lra]].
Qed.

(** ** Triangle *)
Lemma tri_high : forall g a b c p m, sd g a <= m -> sd g b <= m -> sd g c <= m -> in_tri a b c p -> sd g p <= m.
Proof.
  intros g a b c p m A B C (u & v & w & Hu & Hv & Hw & E & ->). unfold sd in *. rewrite !dot_add_r, !dot_scale_r.
  assert (u * dot (fn g) a <= u * (m + fd g)) by (apply Rmult_le_compat_l; lra). assert (v * dot (fn g) b <= v * (m + fd g)) by (apply Rmult_le_compat_l; lra). assert (w * dot (fn g) c <= w * (m + fd g)) by (apply Rmult_le_compat_l; lra).
  assert (u * (m + fd g) + v * (m + fd g) + w * (m + fd g) = m + fd g) by (rewrite <- !Rmult_plus_distr_r, E; ring). lra.
Qed.
(** True exactly if the triangle has points strictly on both sides *)
Theorem tri_plane_exact : forall h P1 P2 P3 X, (tri_plane h P1 P2 P3 X = None <-> ~ crosses (placed X (in_tri P1 P2 P3)) h) /\
  forall c, tri_plane h P1 P2 P3 X = Some c -> plane_contact (-1) (placed X (in_tri P1 P2 P3)) h c.
Proof.
  intros h P1 P2 P3 X. destruct (tri_corners P1 P2 P3) as (I1 & I2 & I3). unfold tri_plane. cbn [map snd].
  refine (three_points (-1) (placed X (in_tri P1 P2 P3)) h pos (tf_apply X P1) (tf_apply X P2) (tf_apply X P3) (fun g => facing (negb g) (fn h)) _ _ _ _ _ _ _ _ _).
  1-3: apply placed_intro; assumption.
  - intros m p A B C (q & Hq & ->). rewrite !sd_loc in *. apply (tri_low _ P1 P2 P3); assumption.
  - intros m p A B C (q & Hq & ->). rewrite !sd_loc in *. apply (tri_high _ P1 P2 P3); assumption.
  - intros x. unfold pos. destruct (Rlt_dec 0 x); [lra|discriminate].
  - intros x. unfold pos. destruct (Rlt_dec 0 x); [discriminate|lra].
  - intros x y. unfold pos. destruct (Rlt_dec 0 x), (Rlt_dec 0 y); try discriminate. lra.
  - intros []; destruct (fn h); unfold facing, vneg, vscale; cbn; f_equal; ring.
Qed.
Print Assumptions tri_plane_exact.
Theorem tri_plane_touch_refuted : forall s P1 P2 P3 X X2, ortho (tf_rot X2) -> dot (fn s) (fn s) = 1 -> let h := flat_transform s X2 in
  sd h (tf_apply X P1) = 0 -> 0 <= sd h (tf_apply X P2) -> 0 <= sd h (tf_apply X P3) ->
  tri_plane h P1 P2 P3 X = None /\ meets (placed X (in_tri P1 P2 P3)) (placed X2 (in_plane s)).
Proof.
  intros s P1 P2 P3 X X2 O2 U h Z A B. destruct (tri_corners P1 P2 P3) as (I1 & _). split.
  - apply tri_plane_exact. intros (p & _ & (p0 & Hp & ->) & _ & L & _). rewrite sd_loc in *. pose proof (tri_low (loc h X) P1 P2 P3 p0 0). rewrite <- !sd_loc in *. lra || (assert (0 <= sd h (tf_apply X p0)) by (apply H; [lra|lra|lra|exact Hp]); lra).
  - exists (tf_apply X P1). split; [apply placed_intro, I1|]. apply sd_plane; assumption.
Qed.
Print Assumptions tri_plane_touch_refuted.

(** ** Cone *)
Lemma coneset_high : forall lz r Q p m, 0 <= r -> 0 <= lz -> coneset lz r p -> c2 Q * (lz / 2) <= m -> r * planar Q - c2 Q * (lz / 2) <= m -> dot Q p <= m.
Proof.
  intros lz r Q p m Hr Hl (t & Ht & Hz & Hp) M1 M2. assert (0 <= t * r) by (apply Rmult_le_pos; lra). pose proof (Rabs_le_inv _ _ (planar_abs Q p (t * r) H Hp)).
  unfold dot. rewrite Hz. assert (t * (r * planar Q - c2 Q * (lz / 2)) <= t * m) by (apply Rmult_le_compat_l; lra). assert ((1 - t) * (c2 Q * (lz / 2)) <= (1 - t) * m) by (apply Rmult_le_compat_l; lra). lra.
Qed.
Lemma cone_convex : forall lz r, 0 <= r -> convex (coneset lz r).
Proof.
  intros lz r Hr a b s (t & Ht & Za & Ra) (u & Hu & Zb & Rb) Hs. assert (St : 0 <= s * u /\ 0 <= (1 - s) * t) by (split; apply Rmult_le_pos; lra).
  assert (s * u <= s * 1) by (apply Rmult_le_compat_l; lra). assert ((1 - s) * t <= (1 - s) * 1) by (apply Rmult_le_compat_l; lra).
  exists ((1 - s) * t + s * u). split; [lra|]. destruct a as [a0 a1 a2], b as [b0 b1 b2]. unfold vadd, vscale, vsub. cbn in *. split; [rewrite Za, Zb; ring|].
  assert (Tr : 0 <= t * r) by (apply Rmult_le_pos; lra). assert (Ur : 0 <= u * r) by (apply Rmult_le_pos; lra).
  assert (Na : norm (mk3 a0 a1 0) <= t * r) by (apply norm_le_sq; [exact Tr|]; unfold norm2, dot; cbn; lra). assert (Nb : norm (mk3 b0 b1 0) <= u * r) by (apply norm_le_sq; [exact Ur|]; unfold norm2, dot; cbn; lra).
  pose proof (norm_triangle (vscale (1 - s) (mk3 a0 a1 0)) (vscale s (mk3 b0 b1 0))) as T. rewrite !norm_scale, !Rabs_pos_eq in T by lra.
  assert ((1 - s) * norm (mk3 a0 a1 0) <= (1 - s) * (t * r)) by (apply Rmult_le_compat_l; lra). assert (s * norm (mk3 b0 b1 0) <= s * (u * r)) by (apply Rmult_le_compat_l; lra).
  set (v := vadd _ _) in T. assert (Nv : norm v <= ((1 - s) * t + s * u) * r) by lra. assert (Np : 0 <= norm v) by apply norm_nonneg. pose proof (norm_sq v) as Sq.
  assert (norm v * norm v <= (((1 - s) * t + s * u) * r) * (((1 - s) * t + s * u) * r)) by (apply Rmult_le_compat; assumption). replace ((a0 + s * (b0 - a0)) * (a0 + s * (b0 - a0)) + (a1 + s * (b1 - a1)) * (a1 + s * (b1 - a1))) with (norm2 v) by (unfold v, norm2, dot, vadd, vscale; cbn; ring). lra.
Qed.
(** At a right angle to the normal, touching counts; otherwise only strict crossing does. *)
Theorem cone_plane_exact : forall tol lz r X s X2, 0 < tol -> 0 <= lz -> 0 <= r -> ortho (tf_rot X) -> ortho (tf_rot X2) -> dot (fn s) (fn s) = 1 ->
  let h := flat_transform s X2 in let c := dot (VecR.m2 (tf_rot X)) (fn h) in let K := placed X (coneset lz r) in cyl_sharp tol c ->
  (forall ct, cone_plane tol lz r X h = Some ct -> plane_contact 1 K h ct) /\
  (c = 0 -> (cone_plane tol lz r X h = None <-> ~ meets K (placed X2 (in_plane s)))) /\
  (c <> 0 -> (cone_plane tol lz r X h = None <-> ~ crosses K h)).
Proof.
  intros tol lz r X s X2 Ht Hl Hr O O2 U h c K (Z0 & Z1 & Z2). pose proof (transform_unit s X2 O2 U) as Uh. fold h in Uh. pose proof (loc_unit h X O Uh) as Ul.
  assert (Ec : c = c2 (fn (loc h X))) by apply cosa_loc. unfold cone_plane. fold c. set (d := sd h (tf_tr X)). set (Q := fn (loc h X)) in *. destruct (small tol c) eqn:Sm.
  - apply (sharp_small _ _ Z0) in Sm. assert (C : c2 Q = 0) by lra. pose proof (planar_flat Q Ul C) as P. pose proof (planar_sq Q) as Pq. rewrite P in Pq.
    set (qa := vadd (mk3 0 0 (- (lz / 2))) (vscale (- r) Q)). set (qb := vadd (mk3 0 0 (- (lz / 2))) (vscale r Q)).
    assert (Ca : coneset lz r qa) by (exists 1; unfold qa, vadd, vscale; cbn [c0 c1 c2]; rewrite C; split; [lra|split; [lra|right; transitivity (r * r * (c0 Q * c0 Q + c1 Q * c1 Q)); [ring|rewrite <- Pq; ring]]]).
    assert (Cb : coneset lz r qb) by (exists 1; unfold qb, vadd, vscale; cbn [c0 c1 c2]; rewrite C; split; [lra|split; [lra|right; transitivity (r * r * (c0 Q * c0 Q + c1 Q * c1 Q)); [ring|rewrite <- Pq; ring]]]).
    assert (Da : dot Q qa = - r) by (unfold qa; rewrite dot_add_r, dot_scale_r, Ul; unfold dot; cbn [c0 c1 c2]; rewrite C; ring). assert (Db : dot Q qb = r) by (unfold qb; rewrite dot_add_r, dot_scale_r, Ul; unfold dot; cbn [c0 c1 c2]; rewrite C; ring).
    assert (El : sd h (tf_apply X qa) = d - r) by (rewrite sd_dot; fold Q d; rewrite Da; ring). assert (Eh : sd h (tf_apply X qb) = d + r) by (rewrite sd_dot; fold Q d; rewrite Db; ring).
    pose proof (placed_intro X _ _ Ca) as Kl. pose proof (placed_intro X _ _ Cb) as Kh. fold K in Kl, Kh.
    assert (B : forall p, K p -> sd h (tf_apply X qa) <= sd h p <= sd h (tf_apply X qb)).
    { intros p (p0 & Hp & ->). rewrite El, Eh, sd_dot. fold Q d. pose proof (coneset_low lz r Q p0 (- r) Hr Hl Hp). pose proof (coneset_high lz r Q p0 r Hr Hl Hp). rewrite C, P in *. lra. }
    assert (OK : plane_ok K s X2 (let d := sd h (tr X) in let depth := r - Rabs d in if Rlt_dec depth 0 then None else Some (mkct (facing (negb (neg d)) (fn h)) (vsub (vadd (vsub (tr X) (vscale (1/2 * lz) (VecR.m2 (tf_rot X)))) (vscale (1/2 * depth / r * lz) (VecR.m2 (tf_rot X)))) (vscale d (fn h))) depth))).
    { cbv zeta. unfold tr. fold d. apply (plane_finish _ s X2 _ _ _ O2 U (placed_convex X _ (cone_convex lz r Hr)) Kl Kh B); fold h; rewrite El, Eh.
      - intros L. destruct (Rlt_dec _ 0) as [P'|]; [exfalso; unfold Rabs in P'; destruct (Rcase_abs _); lra|]. eexists. split; [reflexivity|].
        apply (sym_contact _ h _ _ _ _ _ _ Kl Kh B El Eh); [unfold neg; destruct (Rlt_dec _ _); [discriminate|intros; lra]|unfold neg; destruct (Rlt_dec _ _); [intros; lra|discriminate]|].
        unfold sd. rewrite dot_sub_r, dot_add_r, dot_sub_r, !dot_scale_r, Uh. replace (dot (fn h) (VecR.m2 (tf_rot X))) with 0 by (rewrite dot_comm; fold c; lra). unfold d, sd. ring.
      - intros L. destruct (Rlt_dec _ 0) as [|P']; [reflexivity|]. exfalso. apply P'. unfold Rabs. destruct (Rcase_abs _); lra. }
    destruct OK as [OK1 OK2]. split; [exact OK2|]. split; [intros _; exact OK1|lra].
  - assert (NZ : c <> 0) by (intros Zc; rewrite Zc, small_zero in Sm by exact Ht; discriminate). rewrite Ec in Z1, Z2. destruct (rim_spec tol r h X Ht Hr O Uh Z1 Z2) as (x & y & Er & Ev & Ei). fold Q in Ev, Er. rewrite <- Ec in Er.
    rewrite Er. unfold capsule_ends. rewrite axis_point, axis_point', !add_rim, !sub_rim. set (A := tf_apply X (mk3 0 0 (1/2 * lz))). set (B1 := tf_apply X (vadd (mk3 0 0 (- (1/2 * lz))) (mk3 x y 0))). set (B2 := tf_apply X (vadd (mk3 0 0 (- (1/2 * lz))) (mk3 (- x) (- y) 0))).
    assert (EA : sd h A = d + c2 Q * (lz / 2)) by (unfold A; rewrite sd_dot; fold Q d; unfold dot; cbn [c0 c1 c2]; field).
    assert (E1 : sd h B1 = d + (- (r * planar Q) - c2 Q * (lz / 2))) by (unfold B1; rewrite sd_dot; fold Q d; unfold dot, vadd; cbn [c0 c1 c2]; rewrite <- Ev; field).
    assert (E2 : sd h B2 = d + (r * planar Q - c2 Q * (lz / 2))) by (unfold B2; rewrite sd_dot; fold Q d; unfold dot, vadd; cbn [c0 c1 c2]; transitivity (d + (- (c0 Q * x + c1 Q * y) - c2 Q * (lz / 2))); [field|rewrite Ev; ring]).
    cbv zeta.
    assert (T : forall res, res = (if forallb nonneg (map snd [(A, sd h A); (B1, sd h B1); (B2, sd h B2)]) || forallb nonpos (map snd [(A, sd h A); (B1, sd h B1); (B2, sd h B2)]) then None else Some (mkct (facing (if Rlt_dec (worst Ropp (fun x => negb (nonneg x)) (map snd [(A, sd h A); (B1, sd h B1); (B2, sd h B2)])) (worst (fun x => x) nonneg (map snd [(A, sd h A); (B1, sd h B1); (B2, sd h B2)])) then true else false) (fn h)) (split3 nonneg [(A, sd h A); (B1, sd h B1); (B2, sd h B2)]) (Rmin (worst (fun x => x) nonneg (map snd [(A, sd h A); (B1, sd h B1); (B2, sd h B2)])) (worst Ropp (fun x => negb (nonneg x)) (map snd [(A, sd h A); (B1, sd h B1); (B2, sd h B2)]))))) ->
      (res = None <-> ~ crosses K h) /\ forall ct, res = Some ct -> plane_contact 1 K h ct).
    { intros res ->. refine (three_points 1 K h nonneg A B1 B2 (fun g => facing g (fn h)) _ _ _ _ _ _ _ _ _).
      - apply placed_intro. exists 0. cbn [c0 c1 c2]. lra.
      - apply placed_intro. exists 1. unfold vadd. cbn [c0 c1 c2]. split; [lra|split; lra].
      - apply placed_intro. exists 1. unfold vadd. cbn [c0 c1 c2]. split; [lra|split; lra].
      - intros m p LA L1 L2 (p0 & Hp & ->). rewrite sd_dot. fold Q d. pose proof (coneset_low lz r Q p0 (m - d) Hr Hl Hp). lra.
      - intros m p LA L1 L2 (p0 & Hp & ->). rewrite sd_dot. fold Q d. pose proof (coneset_high lz r Q p0 (m - d) Hr Hl Hp). lra.
      - intros v. unfold nonneg. destruct (Rle_dec 0 v); [auto|discriminate].
      - intros v. unfold nonneg. destruct (Rle_dec 0 v); [discriminate|intros; lra].
      - intros v w. unfold nonneg. destruct (Rle_dec 0 v), (Rle_dec 0 w); try discriminate. intros; lra.
      - intros g. apply facing_form. }
    specialize (T _ eq_refl). destruct T as [T1 T2]. split; [exact T2|]. split; [intros E; contradiction|intros _; exact T1].
Qed.
Print Assumptions cone_plane_exact.
Theorem cone_plane_touch_refuted : forall tol lz r X s X2, 0 < tol -> 0 <= lz -> 0 <= r -> ortho (tf_rot X) -> ortho (tf_rot X2) -> dot (fn s) (fn s) = 1 ->
  let h := flat_transform s X2 in let c := dot (VecR.m2 (tf_rot X)) (fn h) in let K := placed X (coneset lz r) in cyl_sharp tol c -> c <> 0 ->
  (forall p, K p -> 0 <= sd h p) -> (exists p, K p /\ sd h p = 0) -> cone_plane tol lz r X h = None /\ meets K (placed X2 (in_plane s)).
Proof.
  intros tol lz r X s X2 Ht Hl Hr O O2 U h c K Sh NZ Above (p & Kp & Ep). destruct (cone_plane_exact tol lz r X s X2 Ht Hl Hr O O2 U Sh) as (_ & _ & T). split.
  - apply (T NZ). intros (a & b & Ka & _ & La & _). specialize (Above a Ka). fold h in La. lra.
  - exists p. split; [exact Kp|]. apply sd_plane; assumption.
Qed.
Print Assumptions cone_plane_touch_refuted.

(** ** Convex polytope *)
Lemma hull_convex : forall vs, convex (hull vs).
Proof.
  intros vs a b t Ha Hb Ht u k H. specialize (Ha u k H). specialize (Hb u k H). rewrite dot_add_r, dot_scale_r, dot_sub_r. assert (t * dot u b <= t * k) by (apply Rmult_le_compat_l; lra). assert ((1 - t) * dot u a <= (1 - t) * k) by (apply Rmult_le_compat_l; lra). lra.
Qed.
Lemma hull_high : forall vs g p m, (forall v, In v vs -> sd g v <= m) -> hull vs p -> sd g p <= m.
Proof. intros vs g p m H Hp. specialize (Hp (fn g) (m + fd g)). unfold sd in *. enough (dot (fn g) p <= m + fd g) by lra. apply Hp. intros v Hv. specialize (H v Hv). lra. Qed.
Lemma mm_fold : forall h X vs st, let st' := fold_left (mm_step h X) vs st in
  (fst (fst st') <= fst (fst st) /\ fst (snd st) <= fst (snd st')) /\ (forall v, In v vs -> fst (fst st') <= sd h (tf_apply X v) <= fst (snd st')) /\
  (fst st' = fst st \/ exists v, In v vs /\ fst st' = (sd h (tf_apply X v), tf_apply X v)) /\ (snd st' = snd st \/ exists v, In v vs /\ snd st' = (sd h (tf_apply X v), tf_apply X v)).
Proof.
  intros h X vs. induction vs as [|v vs IH]; intros st; cbn [fold_left]; [split; [split; lra|split; [intros v []|auto]]|].
  destruct (IH (mm_step h X st v)) as ((A1 & A2) & B & C1 & C2). set (st' := fold_left (mm_step h X) vs (mm_step h X st v)) in *. clearbody st'. unfold mm_step in A1, A2, C1, C2. cbn [fst snd] in A1, A2, C1, C2. cbv zeta.
  split; [|split; [|split]].
  - destruct (Rlt_dec (sd h (tf_apply X v)) (fst (fst st))), (Rlt_dec (fst (snd st)) (sd h (tf_apply X v))); cbn [fst snd] in *; lra.
  - intros w [<-|Hw]; [|apply B, Hw]. destruct (Rlt_dec (sd h (tf_apply X v)) (fst (fst st))), (Rlt_dec (fst (snd st)) (sd h (tf_apply X v))); cbn [fst snd] in *; lra.
  - clear A1 A2 C2. destruct C1 as [E|(w & Hw & E)]; [|right; exists w; cbn [In]; auto]. rewrite E. destruct (Rlt_dec (sd h (tf_apply X v)) (fst (fst st))); [right; exists v; cbn [In]; auto|auto].
  - clear A1 A2 C1. destruct C2 as [E|(w & Hw & E)]; [|right; exists w; cbn [In]; auto]. rewrite E. destruct (Rlt_dec (fst (snd st)) (sd h (tf_apply X v))); [right; exists v; cbn [In]; auto|auto].
Qed.
Theorem convex_plane_exact : forall big vs X s X2, vs <> [] -> ortho (tf_rot X2) -> dot (fn s) (fn s) = 1 ->
  let h := flat_transform s X2 in (forall v, In v vs -> Rabs (sd h (tf_apply X v)) < big) -> plane_ok (placed X (hull vs)) s X2 (convex_plane big vs X h).
Proof.
  intros big vs X s X2 NE O2 U h Bd. pose proof (transform_unit s X2 O2 U) as Uh. fold h in Uh. unfold convex_plane. destruct (mm_fold h X vs ((big, vzero), (- big, vzero))) as ((A1 & A2) & B & C1 & C2). set (st := fold_left _ _ _) in *. clearbody st. cbn [fst snd] in *.
  destruct vs as [|v0 vs]; [contradiction|]. pose proof (Bd v0 ltac:(left; reflexivity)) as B0. apply Rabs_def2 in B0. pose proof (B v0 ltac:(left; reflexivity)) as B1.
  destruct C1 as [E|(vl & Il & E1)]; [rewrite E in B1; cbn [fst] in B1; lra|]. destruct C2 as [E|(vh & Ih & E2)]; [rewrite E in B1; cbn [fst] in B1; lra|]. rewrite E1, E2 in *. cbn [fst snd] in *.
  set (ql := tf_apply X vl) in *. set (qh := tf_apply X vh) in *. assert (Kl : placed X (hull (v0 :: vs)) ql) by (apply placed_intro, hull_vertex, Il). assert (Kh : placed X (hull (v0 :: vs)) qh) by (apply placed_intro, hull_vertex, Ih).
  assert (Bp : forall p, placed X (hull (v0 :: vs)) p -> sd h ql <= sd h p <= sd h qh) by (intros p (p0 & Hp & ->); rewrite (sd_loc h X p0); split; [apply (hull_low (v0 :: vs))|apply (hull_high (v0 :: vs))]; try exact Hp; intros w Hw; rewrite <- sd_loc; apply B, Hw).
  assert (PT : forall p, sd h (vsub p (vscale (sd h p) (fn h))) = 0) by (intros p; unfold sd at 1; rewrite dot_sub_r, dot_scale_r, Uh; unfold sd; ring).
  apply (plane_finish _ s X2 ql qh _ O2 U (placed_convex X _ (hull_convex (v0 :: vs))) Kl Kh Bp); fold h.
  - intros L. assert (0 <= - sd h ql * sd h qh) by (apply Rmult_le_pos; lra). destruct (Rlt_dec 0 (sd h ql * sd h qh)); [lra|]. destruct (Rlt_dec 0 (sd h ql + sd h qh)).
    + eexists. split; [reflexivity|]. split; [apply PT|]. exists (-1). cbn [cnorm cdepth]. split; [auto|]. split; [destruct (fn h); unfold vneg, vscale; cbn; f_equal; ring|]. split; [exists ql; split; [exact Kl|ring]|]. split; [intros p Hp; specialize (Bp p Hp); lra|exists qh; split; [exact Kh|lra]].
    + eexists. split; [reflexivity|]. split; [apply PT|]. exists 1. cbn [cnorm cdepth]. split; [auto|]. split; [destruct (fn h); unfold vneg, vscale; cbn; f_equal; ring|]. split; [exists qh; split; [exact Kh|ring]|]. split; [intros p Hp; specialize (Bp p Hp); lra|exists ql; split; [exact Kl|lra]].
  - intros L. assert (0 < sd h ql * sd h qh). { pose proof (Bp qh Kh). destruct L; [apply Rmult_lt_0_compat; lra|replace (sd h ql * sd h qh) with (- sd h ql * - sd h qh) by ring; apply Rmult_lt_0_compat; lra]. } destruct (Rlt_dec 0 (sd h ql * sd h qh)); [reflexivity|lra].
Qed.
Print Assumptions convex_plane_exact.

(** ** Two planes *)
Theorem plane_plane_exact : forall a b, dot (fn a) (fn a) = 1 -> dot (fn b) (fn b) = 1 -> (plane_plane a b = true <-> meets (in_plane a) (in_plane b)).
Proof.
  intros a b Ua Ub. unfold plane_plane, eqb. destruct (v3_eq_dec (cross (fn a) (fn b)) vzero) as [Z|NZ].
  - destruct (parallel_cases _ _ Ua Ub Z) as [[D E]|[D E]]; rewrite D.
    + destruct (Req_EM_T 1 1); [|lra]. destruct (Req_EM_T 1 (-1)); [lra|]. destruct (Req_EM_T (fd a) (fd b)) as [Ed|Nd]; cbn [negb andb].
      * split; [intros _|reflexivity]. exists (vscale (fd a) (fn a)). unfold in_plane. rewrite E, along_normal by exact Ua. auto.
      * split; [discriminate|]. intros (p & A & B). unfold in_plane in *. rewrite E in B. lra.
    + destruct (Req_EM_T (-1) 1); [lra|]. destruct (Req_EM_T (-1) (-1)); [|lra]. destruct (Req_EM_T (fd a) (- fd b)) as [Ed|Nd]; cbn [negb andb].
      * split; [intros _|reflexivity]. exists (vscale (fd a) (fn a)). unfold in_plane. rewrite E, dot_vneg_l, along_normal by exact Ua. split; lra.
      * split; [discriminate|]. intros (p & A & B). unfold in_plane in *. rewrite E, dot_vneg_l in B. lra.
  - assert (N1 : dot (fn a) (fn b) * dot (fn a) (fn b) <> 1).
    { intros D. apply NZ. apply norm2_zero. pose proof (lagrange (fn a) (fn b)) as L. unfold norm2 in *. rewrite Ua, Ub in L. lra. }
    destruct (Req_EM_T (dot (fn a) (fn b)) 1) as [E|]; [exfalso; apply N1; rewrite E; ring|]. destruct (Req_EM_T (dot (fn a) (fn b)) (-1)) as [E|]; [exfalso; apply N1; rewrite E; ring|]. cbn [andb]. split; [intros _|reflexivity]. exact (cross_meets a b NZ).
Qed.
Print Assumptions plane_plane_exact.

(** ** Examples *)
Example sphere_plane_ex : sphere_plane 2 (at_ 3 4 1) up0 = Some (mkct (mk3 (-0) (-0) (-1)) (mk3 3 4 0) 1).
Proof.
  unfold sphere_plane, sd, up0, at_, tr, dot, pos. cbn. replace (0 * 3 + 0 * 4 + 1 * 1 - 0) with 1 by ring. rewrite Rabs_R1. replace (- (1) + 2) with 1 by ring. destruct (Rle_dec 0 1); [|lra]. destruct (Rlt_dec 0 1); [|lra].
  replace (vsub (mk3 3 4 1) (vscale 1 (mk3 0 0 1))) with (mk3 3 4 0) by (unfold vsub, vscale; cbn; f_equal; ring). unfold facing, vneg. cbn. do 3 f_equal; try ring.
Qed.
(** a cylinder of length 4 and radius 1 standing 3 above the plane *)
Example cyl_plane_test_ex : cyl_plane_test 4 1 (at_ 0 0 3) up0 = true /\ sd up0 (tf_apply (at_ 0 0 3) (mk3 0 0 (-2))) = 1.
Proof.
  split; [|unfold sd, tf_apply, at_, up0, mapply, mid, vadd, vscale, dot; cbn; field]. unfold cyl_plane_test, sd, up0, at_, tr, dot, mtapply, mid, dot. cbn.
  destruct (Rlt_dec _ 0) as [L|]; [|reflexivity]. exfalso. pose proof (sqrt_pos ((1 * 0 + 0 * 0 + 0 * 1) * (1 * 0 + 0 * 0 + 0 * 1) + (0 * 0 + 1 * 0 + 0 * 1) * (0 * 0 + 1 * 0 + 0 * 1))). rewrite !Rabs_pos_eq in L by lra. lra.
Qed.
Example tri_plane_ex : tri_plane up0 (mk3 0 0 (-1)) (mk3 2 0 1) (mk3 0 2 1) (at_ 0 0 0) <> None.
Proof.
  intros E. apply (proj1 (proj1 (tri_plane_exact up0 _ _ _ _))) in E. apply E. exists (tf_apply (at_ 0 0 0) (mk3 0 0 (-1))), (tf_apply (at_ 0 0 0) (mk3 2 0 1)).
  destruct (tri_corners (mk3 0 0 (-1)) (mk3 2 0 1) (mk3 0 2 1)) as (I1 & I2 & _). split; [apply placed_intro, I1|]. split; [apply placed_intro, I2|]. unfold sd, tf_apply, at_, up0, mapply, mid, vadd, vscale, dot. cbn. lra.
Qed.
