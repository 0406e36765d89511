(** C57: Taylor models of motions, and the box swept by a continuous collision object. *)
From Coq Require Import Reals Lra Psatz List.
From Verif Require Import VecR Interval Taylor P_Interval P_Taylor Motion MotionTaylor.
Import ListNotations.
Open Scope R_scope.

(** If the models enclose the rotation and the translation, the box holds every position
    of every point of the local box, at all times of the interval. *)
Theorem swept_encloses : forall T r v Rf Tf mn mx x t, modelsm T r Rf -> modelsv T v Tf ->
  e0 mn <= e0 x <= e0 mx -> e1 mn <= e1 x <= e1 mx -> e2 mn <= e2 x <= e2 mx -> inside t (T1 T) ->
  insidev (tmap2 Rplus (rmv (Rf t) x) (Tf t)) (swept T r v mn mx).
Proof.
  intros T r v Rf Tf mn mx x t Hr Hv H0 H1 H2 Ht.
  assert (C : forall p, insidev (tmap2 Rplus (rmv (Rf t) p) (Tf t)) (corner_bound T r v p)).
  { intros p. unfold corner_bound. apply (tvector_tight T _ (fun t => tmap2 Rplus (rmv (Rf t) p) (Tf t))); [|exact Ht].
    destruct Hr as (R0 & R1 & R2), Hv as (V0 & V1 & V2).
    split; [|split]; apply (tadd_models T); try assumption; apply tvdot_r_models; assumption. }
  assert (F : forall l b y, insidev y b \/ (exists p, In p l /\ insidev y (corner_bound T r v p)) ->
     insidev y (fold_left (fun box p => ivbound box (corner_bound T r v p)) l b)).
  { induction l as [|p l IH]; cbn; intros b y [I|(q & I & J)]; try tauto.
    - apply IH. left. apply ivector_sets. left. exact I.
    - apply IH. destruct I as [->|I]; [left; apply ivector_sets; right; exact J|right; exists q; auto]. }
  assert (A : forall a b c, (a = e0 mn \/ a = e0 mx) -> (b = e1 mn \/ b = e1 mx) -> (c = e2 mn \/ c = e2 mx) ->
     insidev (tmap2 Rplus (rmv (Rf t) (T3 a b c)) (Tf t)) (swept T r v mn mx)).
  { assert (I : forall p, In p (mn :: corner_list mn mx) -> insidev (tmap2 Rplus (rmv (Rf t) p) (Tf t)) (swept T r v mn mx)).
    { intros p [<-|Hp]; apply F; [left; apply C|right; exists p; split; [exact Hp|apply C]]. }
    intros a b c Ha Hb Hc. apply I. unfold corner_list. destruct mn as [n0 n1 n2]. cbn [e0 e1 e2] in *.
    destruct Ha as [->| ->], Hb as [->| ->], Hc as [->| ->]; repeat (first [left; reflexivity|right]). }
  (* one coordinate at a time *)
  assert (S : forall l h y (f : R -> tri R) (q : tri ivl), l <= y <= h ->
     (forall a, f a = tmap2 Rplus (tmap (fun z => a * z) (tmap2 Rminus (f 1) (f 0))) (f 0)) -> insidev (f l) q -> insidev (f h) q -> insidev (f y) q).
  { intros l h y f q Hy Hf. rewrite (Hf l), (Hf h), (Hf y). generalize (f 1) (f 0). intros u w. destruct u as [u0 u1 u2], w as [w0 w1 w2].
    unfold insidev, tall2, tmap2, tmap, inside. cbn. intros ((A0&A0')&(A1&A1')&(A2&A2')) ((B0&B0')&(B1&B1')&(B2&B2')).
    assert (M : forall d w0 lo hi, lo <= l * d + w0 -> l * d + w0 <= hi -> lo <= h * d + w0 -> h * d + w0 <= hi -> lo <= y * d + w0 <= hi).
    { intros d k lo hi P1 P2 P3 P4. destruct (Rle_dec 0 d) as [D|D].
      - assert (l * d <= y * d <= h * d) by (split; apply Rmult_le_compat_r; lra). lra.
      - assert (h * d <= y * d <= l * d) by (split; apply Rmult_le_compat_neg_l with (r := d) in D || idtac; nra). lra. }
    split; [|split]; apply M; assumption. }
  destruct x as [x0 x1 x2]. cbn [e0 e1 e2] in *.
  assert (A2 : forall a b, (a = e0 mn \/ a = e0 mx) -> (b = e1 mn \/ b = e1 mx) ->
     insidev (tmap2 Rplus (rmv (Rf t) (T3 a b x2)) (Tf t)) (swept T r v mn mx)).
  { intros a b Ha Hb. apply (S (e2 mn) (e2 mx) x2 (fun c => tmap2 Rplus (rmv (Rf t) (T3 a b c)) (Tf t))); [assumption| |apply A; auto|apply A; auto].
    intros c. unfold tmap2, rmv, tmap, rdot. cbn. f_equal; ring. }
  assert (A1 : forall a, (a = e0 mn \/ a = e0 mx) -> insidev (tmap2 Rplus (rmv (Rf t) (T3 a x1 x2)) (Tf t)) (swept T r v mn mx)).
  { intros a Ha. apply (S (e1 mn) (e1 mx) x1 (fun b => tmap2 Rplus (rmv (Rf t) (T3 a b x2)) (Tf t))); [assumption| |apply A2; auto|apply A2; auto].
    intros c. unfold tmap2, rmv, tmap, rdot. cbn. f_equal; ring. }
  apply (S (e0 mn) (e0 mx) x0 (fun a => tmap2 Rplus (rmv (Rf t) (T3 a x1 x2)) (Tf t))); [assumption| |apply A1; auto|apply A1; auto].
  intros c. unfold tmap2, rmv, tmap, rdot. cbn. f_equal; ring.
Qed.
Print Assumptions swept_encloses.

(** The rotation model made by the interpolated and screw motions never encloses the
    rotation: the third column of the product is kept constant and the second is that of
    the third, for every axis and every angle up to a half turn. *)
Theorem rotation_model_refuted : forall k w, unit k -> 0 < w <= PI ->
  ~ modelsm (set_time 0 1) (delta_model (set_time 0 1) k w) (fun t => rows (rodm k (t * w))).
Proof.
  intros k w Hk Hw (_ & (_ & B1 & _) & (_ & _ & C2)).
  assert (I1 : inside 1 (T1 (set_time 0 1))) by (unfold inside; cbn; lra).
  specialize (B1 1 I1). specialize (C2 1 I1).
  cbv beta in B1, C2. rewrite Rmult_1_l in B1, C2. rewrite rod_11 in B1. rewrite rod_22 in C2.
  assert (Cw : cos w < 1) by (rewrite <- cos_0; apply cos_decreasing_1; lra).
  unfold delta_model in B1, C2. rewrite (delta_cols _ _ _ _ _ (@e1)) in B1 by auto. rewrite (delta_cols _ _ _ _ _ (@e2)) in C2 by auto.
  cbn [e0 e1 e2] in B1, C2. rewrite tconst_sub, tconst_add_r in C2. apply inside_const in C2. rewrite hat_12, hat2_12 in B1.
  change (e2 (e2 ident)) with 1 in C2. change (e1 (e1 ident)) with 1 in B1.
  unfold unit, norm2, dot in Hk. revert B1 C2 Hk. generalize (VecR.c0 k) (VecR.c1 k) (VecR.c2 k). intros x y z B1 C2 Hk.
  (* the entry (2,2) is 1, so the axis is z *)
  assert (Z : (1 - cos w) * (1 - z * z) = 0) by lra. apply Rmult_integral in Z. destruct Z as [Z|Z]; [lra|].
  assert (X0 : x = 0) by nra. assert (Y0 : y = 0) by nra. subst x y. clear C2 Z.
  replace (- 0) with 0 in B1 by ring. replace (0 * z) with 0 in B1 by ring.
  rewrite !tscale_0, tconst_sub, tconst_add_r in B1. apply inside_const in B1. nra.
Qed.
Print Assumptions rotation_model_refuted.

(** With an identity start the whole model of the motion inherits this, and the swept box
    misses the body: a unit rod along y, turned about z by an angle below a half turn,
    is given a box without depth along x. *)
Lemma tight_zero : tight_all (set_time 0 1) (tconst 0) = Iv 0 0.
Proof.
  assert (M : models (set_time 0 1) (tconst 0) (fun _ => 0)) by (intros t _; unfold inside, tpoly, poly, tconst; cbn; lra).
  destruct (taylor_tight (set_time 0 1) (tconst 0) (fun _ => 0) 0 1 M) as [_ A].
  - cbn [T1 set_time lo hi]. unfold Rmax, Rmin. dec_all; lra.
  - destruct (A eq_refl) as [(s & _ & L) (u & _ & H)]. unfold tight_all. cbn [T1 set_time lo hi] in *.
    destruct (tight_on _ _ _ _) as [l h]. cbn in L, H. rewrite L, H. reflexivity.
Qed.
Lemma corner_flat : forall r v y, e0 (tmv_r r (T3 0 y 0)) = tconst 0 -> e0 v = tconst 0 ->
  e0 (corner_bound (set_time 0 1) r v (T3 0 y 0)) = Iv 0 0.
Proof.
  intros r v y H Ev. transitivity (tight_all (set_time 0 1) (tadd (e0 (tmv_r r (T3 0 y 0))) (e0 v))); [reflexivity|].
  rewrite H, Ev, tconst_add, Rplus_0_r. apply tight_zero.
Qed.
Lemma flat_box : forall r v, (forall y, 0 <= y -> e0 (tmv_r r (T3 0 y 0)) = tconst 0) -> e0 v = tconst 0 ->
  e0 (swept (set_time 0 1) r v (T3 0 0 0) (T3 0 1 0)) = Iv 0 0.
Proof.
  intros r v H Ev. unfold swept. cbn [e0 e1 e2].
  assert (F : forall l b, e0 b = Iv 0 0 -> (forall p, In p l -> e0 (corner_bound (set_time 0 1) r v p) = Iv 0 0) ->
     e0 (fold_left (fun box p => ivbound box (corner_bound (set_time 0 1) r v p)) l b) = Iv 0 0).
  { induction l as [|p l IH]; intros b Hb Hl; cbn [fold_left]; [exact Hb|]. apply IH; [|intros q Hq; apply Hl; right; exact Hq].
    transitivity (ibound (e0 b) (e0 (corner_bound (set_time 0 1) r v p))); [reflexivity|].
    rewrite Hb, (Hl p) by (left; reflexivity). unfold ibound. cbn [lo hi]. dec_all; f_equal; lra. }
  apply F.
  - apply corner_flat; [apply H; lra|exact Ev].
  - intros p Hp. unfold corner_list in Hp. cbn [e0 e1 e2 In] in Hp. repeat (destruct Hp as [<-|Hp]; [apply corner_flat; [apply H; lra|exact Ev]|]). destruct Hp.
Qed.
Definition spin (w : R) : interp := Interp (mktf mid vzero) vzero vzero (mk3 0 0 1) w.
Lemma spin_tip : forall w, VecR.c0 (tf_apply (interp_at (spin w) 1) (mk3 0 1 0)) = - sin w.
Proof.
  intros w. rewrite interp_point by lra. unfold spin. cbn [i_axis i_ang i_tf1 i_ref i_lin]. rewrite Rmult_1_l.
  replace (tf_apply (mktf mid vzero) vzero) with vzero by (unfold tf_apply, mapply, mid, vzero, vadd, vscale; cbn; f_equal; ring).
  replace (mapply (tf_rot (mktf mid vzero)) (vsub (mk3 0 1 0) vzero)) with (mk3 0 1 0) by (unfold mapply, mid, vzero, vadd, vsub, vscale; cbn; f_equal; ring).
  unfold rod. generalize (cos w) (sin w). intros c s. unfold vadd, vscale, cross, dot, vzero. cbn. ring.
Qed.
Theorem swept_refuted : forall w, 0 < w < PI ->
  let '(r, v) := interp_taylor (set_time 0 1) (spin w) in
  let box := swept (set_time 0 1) r v (T3 0 0 0) (T3 0 1 0) in
  let tip := tf_apply (interp_at (spin w) 1) (mk3 0 1 0) in
  e0 box = Iv 0 0 /\ VecR.c0 tip = - sin w /\ ~ inside (VecR.c0 tip) (e0 box).
Proof.
  intros w Hw. unfold interp_taylor. set (d := delta_model _ _ _). set (r := tmm_r _ _). set (v := tvsub _ _). cbv zeta.
  assert (D : e0 d = T3 (tadd_r (tsub (tconst 0) (tscale (tsub_r (gen_cos (set_time 0 1) w 0) 1) (-1))) 1) (tconst 0) (tconst 0)).
  { unfold d, delta_model. rewrite (delta_cols _ _ _ _ _ (@e0)) by auto. unfold spin. cbn [i_axis i_ang].
    rewrite hat_00, hat2_00, hat_02, hat2_02. cbn [VecR.c0 VecR.c1 VecR.c2]. change (e0 (e0 ident)) with 1. change (e1 (e0 ident)) with 0. change (e2 (e0 ident)) with 0.
    replace (0 * 1) with 0 by ring. replace (- (0 * 0 + 1 * 1)) with (-1) by ring.
    rewrite !tscale_0, !tconst_sub, !tconst_add_r. f_equal; unfold tconst; f_equal; ring. }
  clearbody d. assert (Ev : e0 v = tconst 0).
  { unfold v, tvsub, tvadd_r, tmv_r. cbn [tmap2 tmap e0]. rewrite D. unfold tvdot_r, tri_of, spin, lin_model, gen_linear, tf_apply, mapply, mid, vzero.
    cbn [e0 e1 e2 i_axis i_ang i_tf1 i_ref i_lin tf_rot tf_tr VecR.m0 VecR.m1 VecR.m2]. unfold vadd, vscale. cbn [VecR.c0 VecR.c1 VecR.c2].
    replace (0 * 1 + (0 * 0 + 0 * 0)) with 0 by ring. replace (0 * 0 + (0 * 1 + 0 * 0)) with 0 by ring. replace (0 * 0 + (0 * 0 + 0 * 1)) with 0 by ring.
    rewrite !tscale_0, ?tconst_add. unfold tsub, tadd_r, tconst, isub. cbn [k0 k1 k2 k3 rem lo hi]. f_equal; try ring; f_equal; ring. }
  assert (Ex : forall y, 0 <= y -> e0 (tmv_r r (T3 0 y 0)) = tconst 0).
  { intros y Hy. unfold r, tmm_r, tmv_r. cbn [tmap e0]. rewrite D. unfold tvdot_r, rows, spin, mid, tri_of, tcols, tmap.
    cbn [e0 e1 e2 i_tf1 tf_rot VecR.m0 VecR.m1 VecR.m2 VecR.c0 VecR.c1 VecR.c2].
    repeat rewrite ?tscale_0, ?tconst_scale, ?tconst_add. unfold tconst. f_equal; ring. }
  clearbody r v. clear D d.
  pose proof (flat_box r v Ex Ev) as E.
  pose proof (spin_tip w) as P.
  split; [exact E|]. split; [exact P|]. rewrite E, P. unfold inside. cbn. pose proof (sin_gt_0 w ltac:(lra) ltac:(lra)). lra.
Qed.
Print Assumptions swept_refuted.

(** The translation model of a spline motion adds the last control point, whose weight
    at the start is zero, to the constant coefficient: it encloses the translation only
    if that point is the origin. *)
Theorem spline_model_refuted : forall td rd,
  modelsv (set_time 0 1) (spline_taylor td) (fun t => tri_of (tf_tr (spline_at td rd t))) <-> q3 td = vzero.
Proof.
  intros td rd.
  assert (K : forall t, t <= 1 -> tf_tr (spline_at td rd t) = blend td t) by (intros t H; unfold spline_at; cbn [tf_tr]; rewrite clip_le by assumption; reflexivity).
  destruct td as [[a0 a1 a2] [b0 b1 b2] [d0 d1 d2] [g0 g1 g2]].
  unfold spline_taylor, spline_coeffs, modelsv, models, inside, tpoly, poly, tri_of. cbn [e0 e1 e2 k0 k1 k2 k3 rem lo hi q0 q1 q2 q3 T1 set_time].
  split.
  - intros (A & B & C). specialize (A 0 ltac:(lra)). specialize (B 0 ltac:(lra)). specialize (C 0 ltac:(lra)).
    rewrite K in A, B, C by lra. unfold blend, wt0, wt1, wt2, wt3, vadd, vsub, vneg, vscale in A, B, C.
    cbn [q0 q1 q2 q3 VecR.c0 VecR.c1 VecR.c2] in A, B, C. unfold vzero. f_equal; lra.
  - intros H. unfold vzero in H. injection H as H0 H1 H2. subst. split; [|split]; intros t Ht; rewrite K by lra;
    unfold blend, wt0, wt1, wt2, wt3, vadd, vsub, vneg, vscale; cbn [q0 q1 q2 q3 VecR.c0 VecR.c1 VecR.c2];
    match goal with |- 0 <= ?e <= 0 => replace e with 0 by field; lra end.
Qed.
Print Assumptions spline_model_refuted.

(** An interpolated motion without rotation is modelled exactly. *)
Lemma still_models : forall k, delta_model (set_time 0 1) k 0 = tmap (tmap tconst) ident.
Proof.
  intros k. assert (S : gen_sin (set_time 0 1) 0 0 (Iv 0 0) = tconst 0).
  { unfold gen_sin, expansion, tconst. destruct (Req_EM_T 0 0) as [_|N]; [|lra]. rewrite !Rmult_0_l, ?Rplus_0_l, ?sin_0, ?cos_0. f_equal; ring. }
  assert (C : tsub_r (gen_cos (set_time 0 1) 0 0) 1 = tconst 0).
  { unfold gen_cos, expansion, tconst, tsub_r, cos_bounds. cbn [k0 k1 k2 k3 rem]. destruct (Req_EM_T 0 0) as [_|N]; [|lra].
    rewrite !Rmult_0_l, ?Rplus_0_l, ?sin_0, ?cos_0. unfold rem_of, iscale. cbn [lo hi].
    destruct (Rle_dec 0 0) as [_|N]; [|lra]. cbn [lo hi]. rewrite !Rmult_0_r. destruct (Rlt_dec 0 0) as [N|_]; [lra|].
    f_equal; try ring; f_equal; ring. }
  assert (X : forall d, tscale (tconst 0) d = tconst 0) by (intros d; rewrite tconst_scale; f_equal; ring).
  unfold delta_model. rewrite S, C. generalize (hat k) (rmm (hat k) (hat k)). intros H H2.
  set (m := tmadd_r _ _).
  assert (E : m = T3 (e0 m) (e1 m) (e2 m)) by reflexivity. rewrite E. unfold m.
  rewrite (delta_cols _ _ _ _ _ (@e0)), (delta_cols _ _ _ _ _ (@e1)), (delta_cols _ _ _ _ _ (@e2)) by auto.
  rewrite !X, !tconst_sub, !tconst_add_r. unfold ident, tmap. cbn [e0 e1 e2]. repeat f_equal; ring.
Qed.
Lemma const_models : forall T a f, (forall t, inside t (T1 T) -> f t = a) -> models T (tconst a) f.
Proof. intros T a f H t Ht. rewrite (H t Ht). unfold inside, tpoly, poly, tconst. cbn [k0 k1 k2 k3 rem lo hi]. lra. Qed.
Lemma dot_ident : forall (p : forall A, tri A -> A) v, p = @e0 \/ p = @e1 \/ p = @e2 ->
  tvdot_r (p _ (tmap (tmap tconst) ident)) v = tconst (p _ v).
Proof.
  intros p v [->|[->| ->]]; unfold tvdot_r, tmap, ident; cbn [e0 e1 e2]; rewrite !tconst_scale, !tconst_add; f_equal; ring.
Qed.
Theorem translation_model : forall a lin ref k,
  let m := Interp a ref lin k 0 in
  let '(r, v) := interp_taylor (set_time 0 1) m in
  modelsm (set_time 0 1) r (fun t => rows (tf_rot (interp_at m t))) /\
  modelsv (set_time 0 1) v (fun t => tri_of (tf_tr (interp_at m t))).
Proof.
  intros a lin ref k m. unfold interp_taylor, m. cbn [i_axis i_ang i_tf1 i_ref i_lin]. rewrite still_models.
  assert (R0 : forall t, mmul (rodm k (clip t * 0)) (tf_rot a) = tf_rot a).
  { intros t. rewrite Rmult_0_r. unfold rodm, mmul. rewrite !rod_0. destruct a as [[[? ? ?] [? ? ?] [? ? ?]] u].
    unfold mapply, vadd, vscale. cbn [tf_rot VecR.m0 VecR.m1 VecR.m2 VecR.c0 VecR.c1 VecR.c2]. f_equal; f_equal; ring. }
  unfold interp_at. cbn [tf_rot tf_tr i_axis i_ang i_tf1 i_ref i_lin]. split.
  - unfold modelsm, modelsv, tmm_r. cbn [tmap e0 e1 e2].
    rewrite !(dot_ident (@e0)), !(dot_ident (@e1)), !(dot_ident (@e2)) by auto.
    repeat match goal with |- _ /\ _ => split end; apply const_models; intros t _; rewrite R0; reflexivity.
  - unfold modelsv, tvsub, tmv_r, tvadd_r. cbn [tmap2 tmap e0 e1 e2].
    rewrite !(dot_ident (@e0)), !(dot_ident (@e1)), !(dot_ident (@e2)) by auto.
    repeat match goal with |- _ /\ _ => split end; intros t Ht; unfold inside in Ht; cbn in Ht; rewrite R0, clip_le by lra;
    unfold lin_model, gen_linear, tconst, tsub, tadd_r, isub, inside, tpoly, poly, tri_of, vsub, vadd, vscale;
    cbn [k0 k1 k2 k3 rem lo hi e0 e1 e2 VecR.c0 VecR.c1 VecR.c2];
    match goal with |- _ <= ?e <= _ => replace e with 0 by ring; lra end.
Qed.
Print Assumptions translation_model.

(** Then the swept box is right; concretely, a unit cube carried by 3 along x stays in
    its own box: the hypotheses of the first theorem can be met. *)
Lemma slide_at : forall t, 0 <= t <= 1 ->
  interp_at (Interp (mktf mid vzero) vzero (mk3 3 0 0) (mk3 0 0 1) 0) t = mktf mid (mk3 (3 * t) 0 0).
Proof.
  intros t Ht. unfold interp_at. cbn [i_axis i_ang i_tf1 i_ref i_lin tf_rot tf_tr]. rewrite clip_le by lra. rewrite Rmult_0_r. unfold rodm. rewrite !rod_0.
  assert (E : mmul (mkm (mk3 1 0 0) (mk3 0 1 0) (mk3 0 0 1)) mid = mid) by (unfold mmul, mapply, mid, vadd, vscale; cbn; f_equal; f_equal; ring).
  rewrite E. f_equal. unfold tf_apply, mapply, mid, vzero, vadd, vsub, vscale. cbn. f_equal; ring.
Qed.
Example swept_case : let m := Interp (mktf mid vzero) vzero (mk3 3 0 0) (mk3 0 0 1) 0 in
  let '(r, v) := interp_taylor (set_time 0 1) m in
  forall x t, 0 <= e0 x <= 1 -> 0 <= e1 x <= 1 -> 0 <= e2 x <= 1 -> 0 <= t <= 1 ->
  insidev (T3 (e0 x + 3 * t) (e1 x) (e2 x)) (swept (set_time 0 1) r v (T3 0 0 0) (T3 1 1 1)).
Proof.
  pose proof (translation_model (mktf mid vzero) (mk3 3 0 0) vzero (mk3 0 0 1)) as H. cbv zeta in H |- *.
  destruct (interp_taylor _ _) as [r v]. destruct H as [Hr Hv]. intros x t H0 H1 H2 Ht.
  pose proof (swept_encloses (set_time 0 1) r v _ _ (T3 0 0 0) (T3 1 1 1) x t Hr Hv H0 H1 H2 Ht) as S. cbv beta in S.
  rewrite (slide_at t Ht) in S. cbn [tf_rot tf_tr] in S. clear Hr Hv.
  replace (T3 (e0 x + 3 * t) (e1 x) (e2 x)) with (tmap2 Rplus (rmv (rows mid) x) (tri_of (mk3 (3 * t) 0 0))); [exact S|].
  clear S. unfold tmap2, rmv, rows, mid, tri_of, tcols, rdot, tmap. cbn [e0 e1 e2 VecR.m0 VecR.m1 VecR.m2 VecR.c0 VecR.c1 VecR.c2]. f_equal; ring.
Qed.
