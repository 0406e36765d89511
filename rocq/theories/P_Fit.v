(** C42 (second part): merging distant boxes; C60: boxes and rectangle swept spheres fitted to
    points enclose them; C61: growing and merging rectangle swept spheres. *)
From Coq Require Import Reals Lra Psatz Lia Arith List.
From Verif Require Import VecR Motion Obb Eigen3 P_Eigen3 Fit.
Import ListNotations.
Open Scope R_scope.
Opaque eigen_old.

Lemma sum3_zero : forall x y z, x * x + y * y + z * z = 0 -> x = 0 /\ y = 0 /\ z = 0.
Proof. intros. split; [|split]; nra. Qed.

(** ** C60: fitting *)
Theorem obb_fit1_encloses : forall p, inobb (obb_fit1 p) p.
Proof.
  intros p. exists 0, 0, 0. cbn. split; [lra|split; [lra|split; [lra|]]]. destruct p. unfold vadd, mapply, vadd, vscale, mid. cbn. f_equal; ring.
Qed.
Print Assumptions obb_fit1_encloses.

Theorem obb_fit2_encloses : forall uo p1 p2, p1 <> p2 -> inobb (obb_fit2 uo p1 p2) p1 /\ inobb (obb_fit2 uo p1 p2) p2.
Proof.
  intros uo p1 p2 Hn. set (d := vsub p1 p2).
  assert (Hd : 0 < norm2 d).
  { apply norm2_pos. intros E. apply Hn. unfold d in E. destruct p1, p2. unfold vsub, vzero in E. cbn in E. injection E as X Y Z. f_equal; lra. }
  assert (Pn : 0 < norm d) by (apply sqrt_lt_R0; exact Hd).
  assert (E : vscale (norm d) (normalize d) = d).
  { unfold normalize. destruct (Rlt_dec 0 (norm2 d)); [|lra]. clearbody d. destruct d as [x y z]. unfold vscale. cbn. f_equal; field; lra. }
  unfold obb_fit2, inobb. cbn [ax oc ext c0 c1 c2]. fold d.
  assert (K : forall s, mapply (coord_system uo d) (mk3 (s * (norm d / 2)) 0 0) = vscale (s / 2) d).
  { intros s. rewrite <- E at 3. unfold coord_system, mapply. cbn [VecR.m0 VecR.m1 VecR.m2 c0 c1 c2].
    generalize (normalize d) (uo (normalize d)) (norm d). clear. intros [] [] k. generalize (normalize (cross (mk3 c0 c1 c2) (mk3 c3 c4 c5))). intros [].
    unfold vadd, vscale. cbn. f_equal; field. }
  split.
  - exists (1 * (norm d / 2)), 0, 0. split; [lra|split; [lra|split; [lra|]]]. rewrite K. unfold d. destruct p1, p2. unfold vadd, vscale, vsub. cbn. f_equal; field.
  - exists (-1 * (norm d / 2)), 0, 0. split; [lra|split; [lra|split; [lra|]]]. rewrite K. unfold d. destruct p1, p2. unfold vadd, vscale, vsub. cbn. f_equal; field.
Qed.
Print Assumptions obb_fit2_encloses.

Theorem obb_fit3_encloses : forall big p1 p2 p3, cross (vsub p1 p2) (vsub p2 p3) <> vzero ->
  forall p, In p [p1; p2; p3] -> inobb (obb_fit3 big p1 p2 p3) p.
Proof. intros. apply extent_center_in; [apply fit3_ortho; assumption|assumption]. Qed.
Print Assumptions obb_fit3_encloses.

Theorem rss_fit3_encloses : forall p1 p2 p3, cross (vsub p1 p2) (vsub p2 p3) <> vzero ->
  forall p, In p [p1; p2; p3] -> in_rss (rss_fit3 p1 p2 p3) p.
Proof. intros. apply rect_fit_in; [apply fit3_ortho; assumption|assumption]. Qed.
Print Assumptions rss_fit3_encloses.

(** Three points on a line get axes that are zero. Unless the line runs through the origin the
    box and the rectangle swept sphere contain no point of the line at all. *)
Lemma fit3_line : forall p d s t, exists k, fit3_axis p (vadd p (vscale s d)) (vadd p (vscale t d)) = mkm (vscale k d) vzero vzero.
Proof.
  intros p d s t. unfold fit3_axis. cbv zeta.
  assert (C : cross (vsub p (vadd p (vscale s d))) (vsub (vadd p (vscale s d)) (vadd p (vscale t d))) = vzero).
  { destruct p, d. unfold cross, vsub, vadd, vscale, vzero. cbn. f_equal; ring. }
  rewrite C. assert (N : normalize vzero = vzero).
  { unfold normalize. destruct (Rlt_dec 0 (norm2 vzero)) as [H|_]; [unfold norm2, dot, vzero in H; cbn in H; lra|reflexivity]. }
  rewrite N.
  assert (E : forall e, (exists k, e = vscale k d) -> exists k, mkm (normalize e) (cross vzero (normalize e)) vzero = mkm (vscale k d) vzero vzero).
  { intros e (k & ->). destruct (normalize_dir (vscale k d)) as (k2 & ->). exists (k2 * k). f_equal.
    - destruct d. unfold vscale. cbn. f_equal; ring.
    - destruct d. unfold cross, vscale, vzero. cbn. f_equal; ring. }
  assert (Ea : exists k, vsub p (vadd p (vscale s d)) = vscale k d) by (exists (- s); destruct p, d; unfold vsub, vadd, vscale; cbn; f_equal; ring).
  assert (Eb : exists k, vsub (vadd p (vscale s d)) (vadd p (vscale t d)) = vscale k d) by (exists (s - t); destruct p, d; unfold vsub, vadd, vscale; cbn; f_equal; ring).
  assert (Ec : exists k, vsub (vadd p (vscale t d)) p = vscale k d) by (exists t; destruct p, d; unfold vsub, vadd, vscale; cbn; f_equal; ring).
  destruct (Rlt_dec _ _); destruct (Rlt_dec _ _); apply E; assumption.
Qed.

Theorem obb_fit3_line_refuted : forall big p d s t x, cross p d <> vzero ->
  ~ inobb (obb_fit3 big p (vadd p (vscale s d)) (vadd p (vscale t d))) (vadd p (vscale x d)).
Proof.
  intros big p d s t x Hc (u0 & u1 & u2 & _ & _ & _ & E). apply Hc.
  unfold obb_fit3, extent_center in E. cbv zeta in E. cbn [ax oc] in E. destruct (fit3_line p d s t) as (k & F). rewrite F in E.
  match type of E with _ = vadd (mapply _ ?o) _ => generalize dependent o end. intros o E. clear - E.
  assert (Q : vadd p (vscale x d) = vscale ((c0 o + u0) * k) d).
  { rewrite E. destruct o, d. unfold mapply, vadd, vscale, vzero. cbn. f_equal; ring. }
  clear E. generalize dependent ((c0 o + u0) * k). intros m Q. destruct p as [a b c], d as [e f g]. unfold vadd, vscale in Q. cbn in Q. injection Q as X Y Z.
  unfold cross, vzero. cbn. f_equal; nra.
Qed.
Print Assumptions obb_fit3_line_refuted.

Theorem rss_fit3_line_refuted : forall p d s t x, cross p d <> vzero ->
  ~ in_rss (rss_fit3 p (vadd p (vscale s d)) (vadd p (vscale t d))) (vadd p (vscale x d)).
Proof.
  intros p d s t x Hc (u & v & Hu & Hv & D). apply Hc. clear Hc.
  unfold rss_fit3, rect_fit in D. cbv zeta in D. destruct (fit3_line p d s t) as (k & F). rewrite F in D. unfold rect in D. cbn [To rax rl0 rl1 rr VecR.m0 VecR.m1 VecR.m2] in D.
  set (A := mkm (vscale k d) vzero vzero) in *. set (l := map (mtapply A) _) in D. set (p0 := mtapply A p) in D.
  assert (Z : forall q, c2 (mtapply A q) = 0) by (intros []; unfold mtapply, A, dot, vzero; cbn; ring).
  assert (R0 : rad p0 l = 0 /\ cz p0 l = 0).
  { assert (W : zrange p0 l = (0, 0)).
    { unfold zrange, p0. rewrite Z. assert (L : forall q, In q l -> c2 q = 0) by (intros q Hq; unfold l in Hq; apply in_map_iff in Hq; destruct Hq as (w & <- & _); apply Z).
      clear - L. induction l as [|a l IH]; cbn; [reflexivity|]. unfold zstep at 2. cbn. rewrite (L a (or_introl eq_refl)).
      destruct (Rlt_dec 0 0); [lra|]. apply IH. intros q Hq. apply L. right. exact Hq. }
    unfold rad, cz. rewrite W. cbn. split; field. }
  destruct R0 as [R0 Z0]. rewrite R0, Z0 in D.
  match type of D with dist _ ?w <= 0 => assert (EW : exists m, w = vscale m d) end.
  { generalize (after_corners p0 l). intros q. generalize (if Rlt_dec (BX q - bx q) 0 then 0 else BX q - bx q). intros m. generalize (bx q). intros e.
    exists (e * k + u * m * k). destruct d. unfold vadd, vscale, vzero. cbn. f_equal; ring. }
  destruct EW as (m & EW). rewrite EW in D.
  assert (N : norm2 (vsub (vadd p (vscale x d)) (vscale m d)) = 0).
  { unfold dist, norm in D. set (n := norm2 _) in *. assert (0 <= n) by (unfold n, norm2, dot; nra).
    destruct (Req_EM_T n 0) as [E|E]; [exact E|]. assert (0 < sqrt n) by (apply sqrt_lt_R0; lra). lra. }
  clear - N. destruct p as [a b c], d as [e f g]. unfold norm2, dot, vsub, vadd, vscale in N. cbn in N.
  apply sum3_zero in N. destruct N as (X & Y & Z).
  unfold cross, vzero. cbn. f_equal; nra.
Qed.
Print Assumptions rss_fit3_line_refuted.

(** So overlap can miss an intersection: the triangle (0,1,0), (1,1,0), (2,1,0) and a thin box
    with (2,1,0) in it. *)
Theorem obb_fit3_overlap_refuted : forall big, 2 < big ->
  let b1 := obb_fit3 big (mk3 0 1 0) (mk3 1 1 0) (mk3 2 1 0) in
  let b2 := mkobb (mkm (mk3 (3/5) (4/5) 0) (mk3 (-4/5) (3/5) 0) (mk3 0 0 1)) (mk3 (-1) (-3) 0) (mk3 5 (1/100) (1/100)) in
  ortho (ax b2) /\ inobb b2 (mk3 2 1 0) /\ obb_overlap b1 b2 = false.
Proof.
  intros big Hbig b1 b2. split; [unfold ortho, dot; cbn; lra|split].
  { exists 5, 0, 0. cbn. split; [lra|split; [lra|split; [lra|]]]. unfold vadd, mapply, vadd, vscale. cbn. f_equal; lra. }
  assert (Ax : fit3_axis (mk3 0 1 0) (mk3 1 1 0) (mk3 2 1 0) = mkm (mk3 1 0 0) vzero vzero).
  { unfold fit3_axis. cbv zeta. unfold vsub. cbn.
    destruct (Rlt_dec (norm2 (mk3 (0 - 1) (1 - 1) (0 - 0))) (norm2 (mk3 (1 - 2) (1 - 1) (0 - 0)))) as [H|_]; [unfold norm2, dot in H; cbn in H; lra|].
    destruct (Rlt_dec (norm2 (mk3 (0 - 1) (1 - 1) (0 - 0))) (norm2 (mk3 (2 - 0) (1 - 1) (0 - 0)))) as [_|H]; [|unfold norm2, dot in H; cbn in H; lra].
    assert (N : normalize (mk3 (2 - 0) (1 - 1) (0 - 0)) = mk3 1 0 0).
    { unfold normalize. destruct (Rlt_dec 0 _) as [_|H]; [|unfold norm2, dot in H; cbn in H; lra].
      assert (E : norm (mk3 (2 - 0) (1 - 1) (0 - 0)) = 2) by (unfold norm; replace (norm2 _) with (2 * 2) by (unfold norm2, dot; cbn; ring); apply sqrt_square; lra).
      rewrite E. unfold vscale. cbn. f_equal; lra. }
    rewrite N. replace (cross (mk3 (0 - 1) (1 - 1) (0 - 0)) (mk3 (1 - 2) (1 - 1) (0 - 0))) with vzero by (unfold cross, vzero; cbn; f_equal; lra).
    unfold normalize. destruct (Rlt_dec 0 (norm2 vzero)) as [H|_]; [unfold norm2, dot, vzero in H; cbn in H; lra|]. unfold cross, vzero. cbn. f_equal. f_equal; lra. }
  assert (B1 : b1 = mkobb (mkm (mk3 1 0 0) vzero vzero) (mk3 1 0 0) (mk3 1 0 0)).
  { unfold b1, obb_fit3. rewrite Ax. unfold extent_center. cbv zeta.
    assert (F : forall x y z, - big < x < big -> x <= y -> y <= z -> z < big -> fold_left ecstep [x; y; z] (big, - big) = (x, z)).
    { intros x y z H1 H2 H3 H4. unfold fold_left, ecstep. cbn [fst snd].
      destruct (Rlt_dec (- big) x); [|lra]. destruct (Rlt_dec x big); [|lra]. destruct (Rlt_dec x y).
      - destruct (Rlt_dec y x); [lra|]. destruct (Rlt_dec z x); [lra|]. destruct (Rlt_dec y z); f_equal; lra.
      - destruct (Rlt_dec y x); [lra|]. destruct (Rlt_dec z x); [lra|]. destruct (Rlt_dec x z); f_equal; lra. }
    assert (M0 : map (fun p => dot (col 0 (mkm (mk3 1 0 0) vzero vzero)) p) [mk3 0 1 0; mk3 1 1 0; mk3 2 1 0] = [0; 1; 2]) by (unfold dot; cbn; f_equal; [lra|f_equal; [lra|f_equal; lra]]).
    assert (M1 : map (fun p => dot (col 1 (mkm (mk3 1 0 0) vzero vzero)) p) [mk3 0 1 0; mk3 1 1 0; mk3 2 1 0] = [0; 0; 0]) by (unfold dot, vzero; cbn; f_equal; [lra|f_equal; [lra|f_equal; lra]]).
    assert (M2 : map (fun p => dot (col 2 (mkm (mk3 1 0 0) vzero vzero)) p) [mk3 0 1 0; mk3 1 1 0; mk3 2 1 0] = [0; 0; 0]) by (unfold dot, vzero; cbn; f_equal; [lra|f_equal; [lra|f_equal; lra]]).
    rewrite M0, M1, M2. rewrite !F by lra. cbn [fst snd]. unfold mapply, vadd, vscale, vzero. cbn. f_equal; f_equal; lra. }
  rewrite B1. unfold obb_overlap, obb_disjoint. cbv zeta.
  match goal with |- context [test (dot (col 1 ?B) ?T) ?r] => assert (E : test (dot (col 1 B) T) r = true) end.
  { unfold test, fcol, Bf, ent, mtmul, mtapply, dot, vsub, vzero, reps, b2. cbn. destruct (Rlt_dec _ _) as [|H]; [reflexivity|]. exfalso. apply H. clear H.
    match goal with |- _ < Rabs ?x => replace x with (8/5) by lra end. rewrite (Rabs_pos_eq (8/5)) by lra.
    match goal with |- context [Rabs ?x] => replace x with (-4/5) by lra end. rewrite (Rabs_left (-4/5)) by lra.
    match goal with |- context [Rabs ?x] => generalize (Rabs x) end. intros. try (match goal with |- context [Rabs ?x] => generalize (Rabs x) end; intros). lra. }
  rewrite E, !Bool.orb_true_r. reflexivity.
Qed.
Print Assumptions obb_fit3_overlap_refuted.

(** Any number of points: whenever the eigensolver returns. *)
Theorem obb_fitn_encloses : forall big absorbed ps b, obb_fitn big absorbed ps = Some b ->
  ortho (ax b) /\ forall p, In p ps -> inobb b p.
Proof.
  intros big absorbed ps b E. unfold obb_fitn in E. destruct (eigen_old absorbed (covariance ps)) as [[s V]|] eqn:F; [|discriminate].
  injection E as <-. apply eigen_old_orthonormal in F. destruct F as [_ F]. split; [exact F|]. intros p Hp. apply extent_center_in; assumption.
Qed.
Print Assumptions obb_fitn_encloses.

Theorem rss_fitn_encloses : forall absorbed q0 qs b, rss_fitn absorbed q0 qs = Some b ->
  ortho (rax b) /\ forall p, In p (q0 :: qs) -> in_rss b p.
Proof.
  intros absorbed q0 qs b E. unfold rss_fitn in E. destruct (eigen_old absorbed (covariance (q0 :: qs))) as [[s V]|] eqn:F; [|discriminate].
  injection E as <-. apply eigen_old_orthonormal in F. destruct F as [_ F]. split; [exact F|]. intros p Hp. apply rect_fit_in; assumption.
Qed.
Print Assumptions rss_fitn_encloses.

(** ** C42: distant boxes *)
Lemma sumf_acc : forall f ps a, fold_left (fun a p => a + f p) ps a = a + sumf f ps.
Proof.
  intros f. unfold sumf. induction ps as [|p ps IH]; intros a; cbn; [ring|]. rewrite (IH (a + f p)), (IH (0 + f p)). ring.
Qed.
Lemma sumf_cons : forall f p ps, sumf f (p :: ps) = f p + sumf f ps.
Proof. intros. unfold sumf at 1. cbn. rewrite sumf_acc. ring. Qed.
Lemma sumf_ext : forall f g ps, (forall p, In p ps -> f p = g p) -> sumf f ps = sumf g ps.
Proof.
  intros f g. induction ps as [|p ps IH]; intros H; [reflexivity|]. rewrite !sumf_cons, (H p (or_introl eq_refl)), IH; [reflexivity|]. intros q Hq. apply H. right. exact Hq.
Qed.
Lemma sumf_zero : forall ps, sumf (fun _ => 0) ps = 0.
Proof. induction ps as [|p ps IH]; [reflexivity|]. rewrite sumf_cons, IH. ring. Qed.

Lemma cov_bil : forall ps x y, dot (mapply (covariance ps) x) y =
  sumf (fun p => dot p x * dot p y) ps - sumf (fun p => dot p x) ps * sumf (fun p => dot p y) ps / INR (length ps).
Proof.
  intros ps x y.
  assert (L : forall x, sumf (fun p => dot p x) ps = c0 x * sumf c0 ps + c1 x * sumf c1 ps + c2 x * sumf c2 ps).
  { intros z. induction ps as [|p ps IH]; [unfold sumf; cbn; ring|]. rewrite !sumf_cons, IH. unfold dot. ring. }
  assert (Q : sumf (fun p => dot p x * dot p y) ps =
     c0 x * c0 y * sumf (fun p => c0 p * c0 p) ps + (c0 x * c1 y + c1 x * c0 y) * sumf (fun p => c0 p * c1 p) ps + (c0 x * c2 y + c2 x * c0 y) * sumf (fun p => c0 p * c2 p) ps
     + c1 x * c1 y * sumf (fun p => c1 p * c1 p) ps + (c1 x * c2 y + c2 x * c1 y) * sumf (fun p => c1 p * c2 p) ps + c2 x * c2 y * sumf (fun p => c2 p * c2 p) ps).
  { clear L. induction ps as [|p ps IH]; [unfold sumf; cbn; ring|]. rewrite !sumf_cons, IH. unfold dot. ring. }
  rewrite !L, Q. unfold covariance, mapply, vadd, vscale, dot. cbn. unfold Rdiv. ring.
Qed.

Lemma sum_sq_diff : forall f a ps, INR (length ps) * (a * a) - 2 * a * sumf f ps + sumf (fun p => f p * f p) ps = sumf (fun p => (a - f p) * (a - f p)) ps.
Proof.
  intros f a. induction ps as [|p ps IH]; [unfold sumf; cbn; ring|]. cbn [length]. rewrite S_INR, !sumf_cons, <- IH. ring.
Qed.
Lemma sumsq_nonneg : forall f ps, 0 <= sumf (fun p => f p * f p) ps /\ (sumf (fun p => f p * f p) ps = 0 -> forall p, In p ps -> f p = 0).
Proof.
  intros f. induction ps as [|p ps [I1 I2]]; [split; [unfold sumf; cbn; lra|intros _ p []]|]. rewrite sumf_cons. split; [nra|].
  intros H q [<-|Hq]; [nra|apply I2; [nra|exact Hq]].
Qed.
Lemma variance : forall f ps, let V := INR (length ps) * sumf (fun p => f p * f p) ps - sumf f ps * sumf f ps in
  0 <= V /\ (V = 0 -> forall p q, In p ps -> In q ps -> f p = f q).
Proof.
  intros f. induction ps as [|a ps [I1 I2]]; [split; [unfold sumf; cbn; lra|intros _ p q []]|]. cbv zeta in *. cbn [length]. rewrite S_INR, !sumf_cons.
  pose proof (sum_sq_diff f (f a) ps) as D. destruct (sumsq_nonneg (fun p => f a - f p) ps) as [N Z]. rewrite <- D in N, Z.
  split; [nra|]. intros H. assert (Hz : forall p, In p ps -> f a - f p = 0) by (apply Z; nra).
  intros p q [<-|Hp] [<-|Hq]; try reflexivity; try (specialize (Hz _ Hq) as Zq); try (specialize (Hz _ Hp) as Zp); lra.
Qed.

Lemma obb_conv : forall b B, ortho (ax B) -> (forall v, In v (vertices b) -> inobb B v) -> forall p, inobb b p -> inobb B p.
Proof.
  intros b B Ho Hv p Hp. apply inobb_iff; [exact Ho|].
  assert (K : forall L lo hi, (forall v, In v (vertices b) -> lo <= dot (vsub v (oc B)) L <= hi) -> lo <= dot (vsub p (oc B)) L <= hi).
  { intros L lo hi H. destruct (box_extreme b L p Hp) as [(v & V1 & V2) (w & W1 & W2)]. pose proof (H v V1). pose proof (H w W1). rewrite !dot_sub_l in *. lra. }
  split; [|split]; apply K; intros v V; apply Hv in V; apply inobb_iff in V; [|exact Ho| |exact Ho| |exact Ho]; tauto.
Qed.

(** Two boxes, the first with positive extents, with exact arithmetic. *)
Theorem merge_largedist_encloses : forall big absorbed b1 b2 b, exact_absorb absorbed -> ortho (ax b1) -> oc b1 <> oc b2 ->
  0 < c0 (ext b1) -> 0 < c1 (ext b1) -> 0 < c2 (ext b1) ->
  merge_largedist big absorbed b1 b2 = Some b ->
  ortho (ax b) /\ forall p, inobb b1 p \/ inobb b2 p -> inobb b p.
Proof.
  intros big absorbed b1 b2 b Ha O1 Hc X0 X1 X2 E. unfold merge_largedist in E. cbv zeta in E.
  set (vs := vertices b1 ++ vertices b2) in *. set (a0 := normalize (vsub (oc b1) (oc b2))) in *.
  set (vp := map _ vs) in E. destruct (eigen_old absorbed (covariance vp)) as [[s V]|] eqn:F; [|discriminate].
  assert (Hd : dot a0 a0 = 1).
  { apply normalize_self, norm2_pos. intros Z. apply Hc. destruct (oc b1), (oc b2). unfold vsub, vzero in Z. cbn in Z. injection Z as Z1 Z2 Z3. f_equal; lra. }
  assert (OV : ortho V) by (apply eigen_old_orthonormal in F; tauto).
  assert (EV : forall k, (k < 3)%nat -> mapply (covariance vp) (col k V) = vscale (comp k s) (col k V)) by (eapply eigen_old_exact; [exact Ha| | | |exact F]; apply cov_sym).
  assert (P0 : forall p, In p vp -> dot p a0 = 0).
  { intros p Hp. unfold vp in Hp. apply in_map_iff in Hp. destruct Hp as (v & <- & _). rewrite dot_sub_l, dot_scale_l, Hd. ring. }
  assert (U1 : forall k, (k < 3)%nat -> dot (col k V) (col k V) = 1) by (intros k Hk; destruct OV as (A & B & C & _); destruct k as [|[|[|k]]]; [exact A|exact B|exact C|lia]).
  assert (U0 : forall k l, (k < 3)%nat -> (l < 3)%nat -> k <> l -> dot (col k V) (col l V) = 0).
  { intros k l Hk Hl Hn. destruct OV as (_ & _ & _ & A & B & C). destruct k as [|[|[|k]]], l as [|[|[|l]]]; try lia; cbn [col]; try assumption; rewrite dot_comm; assumption. }
  assert (Ln : 0 < INR (length vp)) by (unfold vp; rewrite map_length; apply lt_0_INR; unfold vs; rewrite app_length; unfold vertices; cbn; lia).
  assert (SV : forall k, (k < 3)%nat -> INR (length vp) * comp k s = INR (length vp) * sumf (fun p => dot p (col k V) * dot p (col k V)) vp - sumf (fun p => dot p (col k V)) vp * sumf (fun p => dot p (col k V)) vp).
  { intros k Hk. pose proof (cov_bil vp (col k V) (col k V)) as Q. rewrite (EV k Hk), dot_scale_l, (U1 k Hk) in Q. rewrite Rmult_1_r in Q. rewrite Q. field. lra. }
  assert (D0 : forall k, (k < 3)%nat -> 0 <= comp k s).
  { intros k Hk. pose proof (SV k Hk) as Q. destruct (variance (fun p => dot p (col k V)) vp) as [N _]. rewrite <- Q in N. nra. }
  assert (DZ : forall k, (k < 3)%nat -> comp k s = 0 -> col k V = vscale (dot (col k V) a0) a0).
  { intros k Hk Z. pose proof (SV k Hk) as Q. rewrite Z, Rmult_0_r in Q. destruct (variance (fun p => dot p (col k V)) vp) as [_ N]. specialize (N (eq_sym Q)).
    set (u := col k V) in *. set (u' := vsub u (vscale (dot u a0) a0)).
    assert (Pr : forall v, dot (vsub v (vscale (dot v a0) a0)) u = dot v u') by (intros v; unfold u'; rewrite dot_sub_l, dot_sub_r, dot_scale_l, dot_scale_r, (dot_comm a0 u); ring).
    assert (Eq : forall v w, In v (vertices b1) -> In w (vertices b1) -> dot v u' = dot w u').
    { intros v w Hv Hw. rewrite <- !Pr. apply N; unfold vp; apply in_map_iff; [exists v|exists w]; (split; [reflexivity|apply in_or_app; left; assumption]). }
    assert (I : forall i, (i < 8)%nat -> In (nth i (vertices b1) vzero) (vertices b1)) by (intros i Hi; apply nth_In; unfold vertices; cbn; exact Hi).
    pose proof (Eq _ _ (I 0%nat ltac:(lia)) (I 1%nat ltac:(lia))) as Q0. pose proof (Eq _ _ (I 0%nat ltac:(lia)) (I 3%nat ltac:(lia))) as Q1. pose proof (Eq _ _ (I 0%nat ltac:(lia)) (I 4%nat ltac:(lia))) as Q2.
    unfold vertices in Q0, Q1, Q2. cbv zeta in Q0, Q1, Q2. cbn [nth] in Q0, Q1, Q2.
    repeat first [rewrite dot_sub_l in Q0|rewrite dot_add_l in Q0|rewrite dot_scale_l in Q0].
    repeat first [rewrite dot_sub_l in Q1|rewrite dot_add_l in Q1|rewrite dot_scale_l in Q1].
    repeat first [rewrite dot_sub_l in Q2|rewrite dot_add_l in Q2|rewrite dot_scale_l in Q2].
    assert (Z0 : dot (VecR.m0 (ax b1)) u' = 0) by nra. assert (Z1 : dot (VecR.m1 (ax b1)) u' = 0) by nra. assert (Z2 : dot (VecR.m2 (ax b1)) u' = 0) by nra.
    assert (Zu : u' = vzero).
    { rewrite <- (mapply_mt (ax b1) u' O1). unfold mtapply. rewrite Z0, Z1, Z2. destruct (ax b1) as [[] [] []]. unfold mapply, vadd, vscale, vzero. cbn. f_equal; ring. }
    unfold u' in Zu. clearbody u. clear - Zu. generalize dependent (vscale (dot u a0) a0). intros w Zu. destruct u, w. unfold vsub, vzero in Zu. cbn in Zu. injection Zu as W0 W1 W2. f_equal; lra. }
  pose proof (select_sorts s) as Hs. destruct (select s) as [[mn md] mx]. destruct Hs as ((L1 & L2) & N1 & N2 & N3 & K1 & K2 & K3).
  assert (Dm : 0 < comp md s).
  { destruct (Req_EM_T (comp md s) 0) as [Z|Z]; [|pose proof (D0 md K2); lra]. exfalso.
    assert (Z' : comp mn s = 0) by (pose proof (D0 mn K1); lra).
    pose proof (DZ md K2 Z) as A. pose proof (DZ mn K1 Z') as B. pose proof (U1 md K2) as Ua. pose proof (U1 mn K1) as Ub. pose proof (U0 mn md K1 K2 N1) as Uc.
    rewrite A in Ua. rewrite B in Ub. rewrite A, B in Uc. rewrite !dot_scale_l, !dot_scale_r, Hd in Ua, Ub, Uc.
    set (x := dot (col md V) a0) in *. set (y := dot (col mn V) a0) in *. clearbody x y. nra. }
  assert (Pe : forall k, (k < 3)%nat -> 0 < comp k s -> dot a0 (col k V) = 0).
  { intros k Hk Hp. pose proof (cov_bil vp (col k V) a0) as Q. rewrite (EV k Hk), dot_scale_l in Q.
    rewrite (sumf_ext (fun p => dot p (col k V) * dot p a0) (fun _ => 0)), (sumf_ext (fun p => dot p a0) (fun _ => 0)), !sumf_zero in Q; [|exact P0|intros p Hp'; rewrite (P0 p Hp'); ring].
    rewrite dot_comm. unfold Rdiv in Q. rewrite Rmult_0_r, Rmult_0_l, Rminus_0_r in Q. nra. }
  injection E as <-. cbn [ax extent_center].
  assert (OB : ortho (mkm a0 (col mx V) (col md V))).
  { unfold ortho. cbn [VecR.m0 VecR.m1 VecR.m2]. split; [exact Hd|split; [apply U1; exact K3|split; [apply U1; exact K2|split; [apply Pe; [exact K3|lra]|split; [apply Pe; [exact K2|exact Dm]|]]]]].
    apply U0; auto. }
  split; [exact OB|].
  intros p [Hp|Hp]; (eapply obb_conv; [exact OB| |exact Hp]; intros v Hv; apply extent_center_in; [exact OB|apply in_or_app; auto]).
Qed.
Print Assumptions merge_largedist_encloses.

(** operator + of boxes far apart *)
Theorem obb_plus_far_encloses : forall big absorbed quat_of b1 b2 b, exact_absorb absorbed -> ortho (ax b1) ->
  0 < c0 (ext b1) -> 0 < c1 (ext b1) -> 0 < c2 (ext b1) -> 0 <= c0 (ext b2) ->
  2 * (Rmax (Rmax (c0 (ext b1)) (c1 (ext b1))) (c2 (ext b1)) + Rmax (Rmax (c0 (ext b2)) (c1 (ext b2))) (c2 (ext b2))) < dist (oc b1) (oc b2) ->
  obb_plus big absorbed quat_of b1 b2 = Some b -> forall p, inobb b1 p \/ inobb b2 p -> inobb b p.
Proof.
  intros big absorbed quat_of b1 b2 b Ha O1 X0 X1 X2 Y0 Hf E. unfold obb_plus in E. unfold dist in Hf. destruct (Rlt_dec _ _) as [_|n]; [|contradiction].
  apply merge_largedist_encloses in E; try assumption; [apply E|].
  intros EQ. rewrite EQ in Hf. assert (Z : norm (vsub (oc b2) (oc b2)) = 0) by apply dist_refl. rewrite Z in Hf.
  pose proof (Rmax_l (Rmax (c0 (ext b1)) (c1 (ext b1))) (c2 (ext b1))). pose proof (Rmax_l (c0 (ext b1)) (c1 (ext b1))).
  pose proof (Rmax_l (Rmax (c0 (ext b2)) (c1 (ext b2))) (c2 (ext b2))). pose proof (Rmax_l (c0 (ext b2)) (c1 (ext b2))). lra.
Qed.
Print Assumptions obb_plus_far_encloses.

(** Far apart but flat boxes, here two points as made by += from fit1: the covariance of the
    projected vertices is zero, the two other axes are not orthogonal to the first, and neither
    point is in the sum. *)
Theorem obb_plus_far_refuted : forall big absorbed quat_of, exists b,
  obb_plus big absorbed quat_of (obb_fit1 (mk3 1 0 0)) (obb_fit1 (mk3 1 1 0)) = Some b /\ ~ ortho (ax b) /\ ~ inobb b (mk3 1 0 0) /\ ~ inobb b (mk3 1 1 0).
Proof.
  intros. unfold obb_plus, obb_fit1. cbn [oc ext]. destruct (Rlt_dec _ _) as [_|n].
  2:{ exfalso. apply n. cbn. assert (M : Rmax 0 0 = 0) by (apply Rmax_left; lra). rewrite !M. unfold vsub, norm, norm2, dot. cbn. apply Rle_lt_trans with (sqrt 0); [rewrite sqrt_0; lra|]. apply sqrt_lt_1_alt. lra. }
  assert (Vt : forall p, vertices (mkobb mid p vzero) = repeat p 8).
  { intros []. unfold vertices, mid, vzero, vscale, vsub, vadd. cbn. repeat (apply f_equal2; [f_equal; ring|]). reflexivity. }
  unfold merge_largedist. cbv zeta. rewrite !Vt. cbn [oc].
  assert (A0 : normalize (vsub (mk3 1 0 0) (mk3 1 1 0)) = mk3 0 (-1) 0).
  { unfold normalize, vsub. cbn. destruct (Rlt_dec 0 _) as [_|H]; [|unfold norm2, dot in H; cbn in H; lra].
    replace (norm (mk3 (1 - 1) (0 - 1) (0 - 0))) with 1 by (unfold norm; replace (norm2 _) with (1 * 1) by (unfold norm2, dot; cbn; ring); symmetry; apply sqrt_square; lra).
    unfold vscale. cbn. f_equal; field. }
  rewrite A0.
  match goal with |- context [covariance (map ?f ?l)] => assert (EP : map f l = repeat (mk3 1 0 0) 16) end.
  { cbn. unfold vsub, vscale, dot. cbn. repeat (apply f_equal2; [f_equal; ring|]). reflexivity. }
  rewrite EP. clear EP.
  assert (C : covariance (repeat (mk3 1 0 0) 16) = mkm (mk3 0 0 0) (mk3 0 0 0) (mk3 0 0 0)).
  { unfold covariance, sumf. cbn. f_equal; f_equal; field. }
  rewrite C, eigen_old_diagonal. 
  assert (Sel : select (mk3 0 0 0) = (0, 2, 1)%nat) by (unfold select; cbn; destruct (Rlt_dec 0 0) as [H|_]; [lra|]; cbn; destruct (Rlt_dec 0 0) as [H|_]; [lra|reflexivity]).
  rewrite Sel. cbn [col mid].
  eexists. split; [reflexivity|]. split; [unfold ortho, dot; cbn; lra|].
  unfold extent_center, inobb. cbv zeta. cbn [ax oc].
  split; intros (u0 & u1 & u2 & _ & _ & _ & E); apply (f_equal c0) in E; unfold mid in E; match type of E with _ = c0 (vadd (mapply _ ?o) _) => generalize dependent o end; intros o E; unfold mapply, vadd, vscale in E; cbn in E; lra.
Qed.
Print Assumptions obb_plus_far_refuted.

(** ** C61: rectangle swept spheres *)
Lemma norm_scale_pos : forall k v, 0 <= k -> norm (vscale k v) = k * norm v.
Proof.
  intros k v Hk. unfold norm. replace (norm2 (vscale k v)) with ((k * k) * norm2 v) by (destruct v; unfold norm2, dot, vscale; cbn; ring).
  rewrite sqrt_mult_alt by nra. rewrite sqrt_square by exact Hk. reflexivity.
Qed.

Lemma rss_convex : forall b p q t, 0 <= t <= 1 -> in_rss b p -> in_rss b q -> in_rss b (vadd (vscale (1 - t) p) (vscale t q)).
Proof.
  intros b p q t Ht (x1 & y1 & X1 & Y1 & D1) (x2 & y2 & X2 & Y2 & D2).
  exists ((1 - t) * x1 + t * x2), ((1 - t) * y1 + t * y2). split; [nra|split; [nra|]].
  unfold dist in *. set (u := vsub p (rect b x1 y1)) in *. set (v := vsub q (rect b x2 y2)) in *.
  assert (E : vsub (vadd (vscale (1 - t) p) (vscale t q)) (rect b ((1 - t) * x1 + t * x2) ((1 - t) * y1 + t * y2)) = vadd (vscale (1 - t) u) (vscale t v)).
  { unfold u, v, rect. generalize (VecR.m0 (rax b)) (VecR.m1 (rax b)). intros [] []. destruct p, q, (To b). unfold vadd, vsub, vscale. cbn. f_equal; ring. }
  rewrite E. pose proof (norm_triangle (vscale (1 - t) u) (vscale t v)) as T. rewrite !norm_scale_pos in T by lra. nra.
Qed.

Lemma interp : forall (S : v3 -> Prop), (forall p q t, 0 <= t <= 1 -> S p -> S q -> S (vadd (vscale (1 - t) p) (vscale t q))) ->
  forall (f : R -> v3), (forall a b t, f ((1 - t) * a + t * b) = vadd (vscale (1 - t) (f a)) (vscale t (f b))) ->
  forall a b c, a <= c <= b -> S (f a) -> S (f b) -> S (f c).
Proof.
  intros S HS f Hf a b c Hc A B. destruct (Req_EM_T a b) as [E|N]; [replace c with a by lra; exact A|].
  replace c with ((1 - (c - a) / (b - a)) * a + (c - a) / (b - a) * b) by (field; lra). rewrite Hf. apply HS; [|exact A|exact B].
  assert (0 < b - a) by lra. split; [apply Rmult_le_pos; [lra|apply Rlt_le, Rinv_0_lt_compat; lra]|].
  apply Rmult_le_reg_r with (b - a); [lra|]. unfold Rdiv. rewrite Rmult_assoc, Rinv_l by lra. lra.
Qed.

(** an RSS lies in the convex hull of its eight points *)
Lemma rss_hull : forall (S : v3 -> Prop) b, (forall p q t, 0 <= t <= 1 -> S p -> S q -> S (vadd (vscale (1 - t) p) (vscale t q))) ->
  ortho (rax b) -> 0 <= rl0 b -> 0 <= rl1 b -> (forall p, In p (rss_points b) -> S p) -> forall p, in_rss b p -> S p.
Proof.
  intros S b HS Ho L0 L1 HP p (x & y & Hx & Hy & D).
  set (j := mtapply (rax b) (vsub p (To b))).
  assert (R0 : 0 <= rr b) by (pose proof (dist_nonneg p (rect b x y)); lra).
  assert (Ej : p = vadd (vadd (vadd (To b) (vscale (c0 j) (VecR.m0 (rax b)))) (vscale (c1 j) (VecR.m1 (rax b)))) (vscale (c2 j) (VecR.m2 (rax b)))).
  { pose proof (mapply_mt (rax b) (vsub p (To b)) Ho) as M. fold j in M. unfold mapply in M. generalize dependent (VecR.m0 (rax b)). generalize dependent (VecR.m1 (rax b)). generalize dependent (VecR.m2 (rax b)).
    intros u v w M. clear - M. destruct p, (To b), u, v, w. unfold vadd, vscale, vsub in *. cbn in *. injection M as A B C. f_equal; lra. }
  assert (Dj : norm (vsub j (mk3 (x * rl0 b) (y * rl1 b) 0)) <= rr b).
  { assert (E : vsub j (mk3 (x * rl0 b) (y * rl1 b) 0) = mtapply (rax b) (vsub p (rect b x y))).
    { unfold j. rewrite <- (mt_mapply (rax b) (mk3 (x * rl0 b) (y * rl1 b) 0) Ho) at 1. rewrite <- mtapply_sub. f_equal.
      unfold rect, mapply. generalize (VecR.m0 (rax b)) (VecR.m1 (rax b)) (VecR.m2 (rax b)). intros [] [] []. destruct p, (To b). unfold vsub, vadd, vscale. cbn. f_equal; ring. }
    rewrite E. unfold dist in D. assert (N : norm (mtapply (rax b) (vsub p (rect b x y))) = norm (vsub p (rect b x y))); [|rewrite N; exact D].
    unfold norm, norm2. rewrite mt_dot by exact Ho. reflexivity. }
  assert (Cj : - rr b <= c0 j <= rl0 b + rr b /\ - rr b <= c1 j <= rl1 b + rr b /\ - rr b <= c2 j <= rr b).
  { clearbody j. destruct j as [jx jy jz]. unfold vsub in Dj. cbn in *. unfold norm in Dj.
    assert (Q : (jx - x * rl0 b) * (jx - x * rl0 b) + (jy - y * rl1 b) * (jy - y * rl1 b) + (jz - 0) * (jz - 0) <= rr b * rr b).
    { set (n := norm2 _) in Dj. assert (n = (jx - x * rl0 b) * (jx - x * rl0 b) + (jy - y * rl1 b) * (jy - y * rl1 b) + (jz - 0) * (jz - 0)) as <- by (unfold n, norm2, dot; cbn; ring).
      assert (0 <= n) by (unfold n, norm2, dot; nra). pose proof (sqrt_sqrt n H). pose proof (sqrt_pos n). nra. }
    assert (G : forall a r, 0 <= r -> a * a <= r * r -> - r <= a <= r) by (intros; split; nra).
    pose proof (Rle_0_sqr (jx - x * rl0 b)) as Sx. pose proof (Rle_0_sqr (jy - y * rl1 b)) as Sy. pose proof (Rle_0_sqr (jz - 0)) as Sz. unfold Rsqr in Sx, Sy, Sz.
    assert (Gx := G (jx - x * rl0 b) (rr b) R0 ltac:(lra)). assert (Gy := G (jy - y * rl1 b) (rr b) R0 ltac:(lra)). assert (Gz := G (jz - 0) (rr b) R0 ltac:(lra)).
    assert (0 <= x * rl0 b <= rl0 b) by nra. assert (0 <= y * rl1 b <= rl1 b) by nra. lra. }
  destruct Cj as (C0 & C1 & C2). rewrite Ej. unfold rss_points in HP. cbv zeta in HP. cbn [In] in HP.
  set (P := fun a b' c => vadd (vadd (vadd (To b) (vscale a (VecR.m0 (rax b)))) (vscale b' (VecR.m1 (rax b)))) (vscale c (VecR.m2 (rax b)))).
  change (S (P (c0 j) (c1 j) (c2 j))).
  apply (interp S HS (fun c => P (c0 j) (c1 j) c)) with (a := - rr b) (b := rr b); [clear; intros; unfold P; generalize (VecR.m0 (rax b)) (VecR.m1 (rax b)) (VecR.m2 (rax b)); intros [] [] []; destruct (To b); unfold vadd, vscale; cbn; f_equal; ring|exact C2| |];
  apply (interp S HS (fun c => P (c0 j) c _)) with (a := - rr b) (b := rl1 b + rr b); try exact C1; try (clear; intros; unfold P; generalize (VecR.m0 (rax b)) (VecR.m1 (rax b)) (VecR.m2 (rax b)); intros [] [] []; destruct (To b); unfold vadd, vscale; cbn; f_equal; ring);
  apply (interp S HS (fun c => P c _ _)) with (a := - rr b) (b := rl0 b + rr b); try exact C0; try (clear; intros; unfold P; generalize (VecR.m0 (rax b)) (VecR.m1 (rax b)) (VecR.m2 (rax b)); intros [] [] []; destruct (To b); unfold vadd, vscale; cbn; f_equal; ring);
  apply HP; unfold P; tauto.
Qed.

(** If the axes of the sum come out orthonormal it encloses both operands. *)
Theorem rss_merge_encloses : forall absorbed a b c, ortho (rax a) -> ortho (rax b) ->
  0 <= rl0 a -> 0 <= rl1 a -> 0 <= rl0 b -> 0 <= rl1 b ->
  rss_merge absorbed a b = Some c -> ortho (rax c) -> forall p, in_rss a p \/ in_rss b p -> in_rss c p.
Proof.
  intros absorbed a b c Oa Ob A0 A1 B0 B1 E Oc. unfold rss_merge in E.
  assert (K : forall p, In p (rss_points b ++ rss_points a) -> in_rss c p).
  { destruct (rss_points b ++ rss_points a) as [|v0 vs]; [intros p []|]. destruct (eigen_old absorbed (covariance (v0 :: vs))) as [[s V]|]; [|discriminate].
    destruct (select s) as [[mn md] mx]. injection E as <-. intros p Hp. apply rect_fit_in; [exact Oc|exact Hp]. }
  intros p [Hp|Hp]; (eapply rss_hull; [intros; apply rss_convex; assumption| | | | |exact Hp]; try assumption; intros q Hq; apply K; apply in_or_app; auto).
Qed.
Print Assumptions rss_merge_encloses.

(** All points on the two faces of the slab: nothing is trimmed. *)
Lemma zfold_min : forall ps mn mx, let s := fold_left zstep ps (mn, mx) in fst s = mn \/ exists p, In p ps /\ fst s = c2 p.
Proof.
  induction ps as [|p ps IH]; intros mn mx; cbn [fold_left]; [left; reflexivity|]. cbv zeta.
  replace (zstep (mn, mx) p) with (if Rlt_dec (c2 p) mn then (c2 p, mx) else if Rlt_dec mx (c2 p) then (mn, c2 p) else (mn, mx)) by reflexivity.
  destruct (Rlt_dec (c2 p) mn); [|destruct (Rlt_dec mx (c2 p))];
  match goal with |- context [fold_left zstep ps (?a, ?b)] => destruct (IH a b) as [E|(q & Q & E)]; rewrite E end; eauto; right; [exists p|exists q| exists q|exists q]; cbn; auto.
Qed.
Lemma start_fold : forall k ps a b, comp k a <= comp k b -> let s := fold_left (fun s p => if Rlt_dec (comp k p) (comp k (fst s)) then (p, snd s)
    else if Rlt_dec (comp k (snd s)) (comp k p) then (fst s, p) else s) ps (a, b) in
  In (fst s) (a :: ps) /\ In (snd s) (b :: ps) /\ comp k (fst s) <= comp k a /\ comp k b <= comp k (snd s) /\ forall p, In p ps -> comp k (fst s) <= comp k p <= comp k (snd s).
Proof.
  intros k. induction ps as [|p ps IH]; intros a b Hab; cbn [fold_left]; cbv zeta.
  - cbn. split; [auto|split; [auto|split; [lra|split; [lra|intros p []]]]].
  - cbn [fst snd]. destruct (Rlt_dec (comp k p) (comp k a)) as [L|L]; [|destruct (Rlt_dec (comp k b) (comp k p)) as [M|M]].
    + destruct (IH p b ltac:(lra)) as (I1 & I2 & I3 & I4 & I5). split; [right; exact I1|split; [destruct I2; cbn; auto|split; [lra|split; [lra|]]]]. intros q [<-|Hq]; [lra|auto].
    + destruct (IH a p ltac:(lra)) as (I1 & I2 & I3 & I4 & I5). split; [destruct I1; cbn; auto|split; [right; exact I2|split; [lra|split; [lra|]]]]. intros q [<-|Hq]; [lra|auto].
    + destruct (IH a b ltac:(lra)) as (I1 & I2 & I3 & I4 & I5). split; [destruct I1; cbn; auto|split; [destruct I2; cbn; auto|split; [lra|split; [lra|]]]]. intros q [<-|Hq]; [lra|auto].
Qed.
Lemma fold_id : forall A B (f : A -> B -> A) l a, (forall b, In b l -> f a b = a) -> fold_left f l a = a.
Proof. intros A B f. induction l as [|b l IH]; intros a H; cbn; [reflexivity|]. rewrite (H b (or_introl eq_refl)). apply IH. intros c Hc. apply H. right. exact Hc. Qed.

Lemma after_flat : forall p0 ps x0 x1 y0 y1, (forall p, In p (p0 :: ps) -> sq p0 ps p = 0) ->
  (forall p, In p (p0 :: ps) -> x0 <= c0 p <= x1 /\ y0 <= c1 p <= y1) ->
  (exists p, In p (p0 :: ps) /\ c0 p = x0) -> (exists p, In p (p0 :: ps) /\ c0 p = x1) -> (exists p, In p (p0 :: ps) /\ c1 p = y0) -> (exists p, In p (p0 :: ps) /\ c1 p = y1) ->
  after_corners p0 ps = mk4 x0 x1 y0 y1.
Proof.
  intros p0 ps x0 x1 y0 y1 Hs Hb (pa & Pa & Ea) (pb & Pb & Eb) (pc & Pc & Ec) (pd & Pd & Ed).
  assert (St : forall k lo hi, (forall p, In p (p0 :: ps) -> lo <= comp k p <= hi) -> (exists p, In p (p0 :: ps) /\ comp k p = lo) -> (exists p, In p (p0 :: ps) /\ comp k p = hi) ->
    grow_min p0 ps k (fst (start p0 ps k)) = lo /\ grow_max p0 ps k (snd (start p0 ps k)) = hi).
  { intros k lo hi H (u & U & Eu) (v & V & Ev). unfold start.
    pose proof (start_fold k ps p0 p0 (Rle_refl _)) as SF. cbv zeta in SF. destruct (fold_left _ ps (p0, p0)) as [a b]. cbn [fst snd] in *. destruct SF as (I1 & I2 & I3 & I4 & I5).
    assert (I6 : forall p, In p (p0 :: ps) -> comp k a <= comp k p <= comp k b) by (intros p [<-|Hp]; [lra|auto]).
    rewrite (Hs a I1), (Hs b I2).
    assert (Ea' : comp k a + 0 = lo) by (pose proof (I6 u U); pose proof (H a I1); lra). assert (Eb' : comp k b - 0 = hi) by (pose proof (I6 v V); pose proof (H b I2); lra).
    rewrite Ea', Eb'. split; unfold grow_min, grow_max; apply fold_id; intros p Hp; pose proof (H p Hp); [destruct (Rlt_dec (comp k p) lo)|destruct (Rlt_dec hi (comp k p))]; try lra; reflexivity. }
  destruct (St 0%nat x0 x1) as [S0 S1]; [intros p Hp; apply (Hb p Hp)|eauto|eauto|]. destruct (St 1%nat y0 y1) as [S2 S3]; [intros p Hp; apply (Hb p Hp)|eauto|eauto|].
  unfold after_corners, before_corners. rewrite S0, S1, S2, S3. apply fold_id. intros p Hp. destruct (Hb p Hp) as [A B]. unfold corner. cbn [bx BX by' BY].
  destruct (Rlt_dec x1 (c0 p)); [lra|]. destruct (Rlt_dec (c0 p) x0); [lra|reflexivity].
Qed.

(** In general the axes are wrong: two parallel unit squares ten apart, third axis along x. The
    sum has the axes x, z, x and misses corners of the first square. *)
Theorem rss_merge_refuted : forall absorbed,
  let A := mkm (mk3 0 1 0) (mk3 0 0 1) (mk3 1 0 0) in
  let a := Rss (mk3 0 0 0) A 1 1 0 in let b := Rss (mk3 10 0 0) A 1 1 0 in
  ortho A /\ in_rss a (mk3 0 1 0) /\
  exists c, rss_merge absorbed a b = Some c /\ rax c = mkm (mk3 1 0 0) (mk3 0 0 1) (mk3 1 0 0) /\ ~ in_rss c (mk3 0 1 0).
Proof.
  intros absorbed A a b. split; [unfold ortho, dot; cbn; lra|]. split.
  { exists 1, 0. split; [lra|split; [lra|]]. unfold rect, a, A. cbn. replace (dist _ _) with 0; [lra|]. symmetry. unfold dist, norm.
    match goal with |- sqrt ?x = 0 => replace x with 0 by (unfold norm2, dot, vsub, vadd, vscale; cbn; ring) end. apply sqrt_0. }
  assert (Pt : forall x, rss_points (Rss (mk3 x 0 0) A 1 1 0) = [mk3 x 1 1; mk3 x 1 1; mk3 x 1 0; mk3 x 1 0; mk3 x 0 1; mk3 x 0 1; mk3 x 0 0; mk3 x 0 0]).
  { intros x. unfold rss_points, A, vadd, vscale. cbn. repeat (apply f_equal2; [f_equal; ring|]). reflexivity. }
  unfold rss_merge, a, b. rewrite !Pt. cbn [app].
  set (L := [mk3 10 1 1; mk3 10 1 0; mk3 10 1 0; mk3 10 0 1; mk3 10 0 1; mk3 10 0 0; mk3 10 0 0; mk3 0 1 1; mk3 0 1 1; mk3 0 1 0; mk3 0 1 0; mk3 0 0 1; mk3 0 0 1; mk3 0 0 0; mk3 0 0 0]).
  assert (C : covariance (mk3 10 1 1 :: L) = mkm (mk3 400 0 0) (mk3 0 4 0) (mk3 0 0 4)).
  { unfold covariance, sumf, L. cbn. f_equal; f_equal; field. }
  rewrite C, eigen_old_diagonal.
  assert (Sel : select (mk3 400 4 4) = (1, 2, 0)%nat).
  { unfold select. cbn. destruct (Rlt_dec 4 400) as [_|n]; [|lra]. cbn. destruct (Rlt_dec 4 4) as [n|_]; [lra|]. destruct (Rlt_dec 400 4) as [n|_]; [lra|reflexivity]. }
  rewrite Sel. eexists. split; [reflexivity|].
  assert (EA : mkm (mrow mid 0) (mrow mid 2) (cross (VecR.m0 (rax (Rss (mk3 0 0 0) A 1 1 0))) (VecR.m1 (rax (Rss (mk3 0 0 0) A 1 1 0)))) = mkm (mk3 1 0 0) (mk3 0 0 1) (mk3 1 0 0)).
  { unfold mrow, mid, A, cross. cbn. f_equal. f_equal; lra. }
  rewrite EA. split; [reflexivity|].
  set (B := mkm (mk3 1 0 0) (mk3 0 0 1) (mk3 1 0 0)). unfold rect_fit. cbv zeta.
  assert (EB : forall q, mtapply B q = mk3 (c0 q) (c2 q) (c0 q)) by (intros []; unfold mtapply, B, dot; cbn; f_equal; ring).
  set (p0 := mtapply B (mk3 10 1 1)). set (ps := map (mtapply B) L).
  assert (In0 : forall p, In p (p0 :: ps) -> (c2 p = 0 \/ c2 p = 10) /\ 0 <= c0 p <= 10 /\ 0 <= c1 p <= 1).
  { intros p Hp. change (In p (map (mtapply B) (mk3 10 1 1 :: L))) in Hp. apply in_map_iff in Hp. destruct Hp as (q & <- & Hq). rewrite EB. cbn [c0 c1 c2].
    unfold L in Hq. cbn [In] in Hq. decompose [or] Hq; subst; cbn; try contradiction; (split; [auto|lra]). }
  assert (Ex : forall q, In q (mk3 10 1 1 :: L) -> In (mk3 (c0 q) (c2 q) (c0 q)) (p0 :: ps)).
  { intros q Hq. change (In (mk3 (c0 q) (c2 q) (c0 q)) (map (mtapply B) (mk3 10 1 1 :: L))). apply in_map_iff. exists q. split; [apply EB|exact Hq]. }
  assert (I1 : In (mk3 10 1 10) (p0 :: ps)) by (apply (Ex (mk3 10 1 1)); left; reflexivity).
  assert (I2 : In (mk3 0 0 0) (p0 :: ps)) by (apply (Ex (mk3 0 0 0)); unfold L; cbn; tauto).
  clear Ex. clearbody p0 ps.
  assert (Zr : zrange p0 ps = (0, 10)).
  { pose proof (zfold ps (c2 p0) (c2 p0) (Rle_refl _)) as (Z1 & Z2 & Z3 & Z4). pose proof (zfold_min ps (c2 p0) (c2 p0)) as Z5. cbv zeta in Z5. fold (zrange p0 ps) in *.
    assert (Zi : forall p, In p (p0 :: ps) -> fst (zrange p0 ps) <= c2 p <= snd (zrange p0 ps)) by (intros p [<-|Hp]; [lra|auto]).
    pose proof (Zi _ I1) as Za. pose proof (Zi _ I2) as Zb. cbn in Za, Zb.
    assert (Zm : fst (zrange p0 ps) = 0 \/ fst (zrange p0 ps) = 10) by (destruct Z5 as [->|(q & Q & ->)]; [apply (In0 p0); left; reflexivity|apply (In0 q); right; exact Q]).
    assert (ZM : snd (zrange p0 ps) = 0 \/ snd (zrange p0 ps) = 10) by (destruct Z4 as [->|(q & Q & ->)]; [apply (In0 p0); left; reflexivity|apply (In0 q); right; exact Q]).
    destruct (zrange p0 ps) as [u v]. cbn [fst snd] in *. clear - Za Zb Zm ZM. destruct Zm, ZM; f_equal; lra. }
  assert (Rd : rad p0 ps = 5 /\ cz p0 ps = 5) by (unfold rad, cz; rewrite Zr; cbn; split; field). destruct Rd as [Rd Cz].
  assert (Af : after_corners p0 ps = mk4 0 10 0 1).
  { apply after_flat.
    - intros p Hp. destruct (In0 p Hp) as [Hz _]. unfold sq. cbv zeta. rewrite Rd, Cz.
      replace (5 * 5 - (c2 p - 5) * (c2 p - 5)) with 0 by (destruct Hz as [-> | ->]; ring). rewrite Rmax_left by lra. apply sqrt_0.
    - intros p Hp. apply (In0 p Hp).
    - exists (mk3 0 0 0). auto.
    - exists (mk3 10 1 10). auto.
    - exists (mk3 0 0 0). auto.
    - exists (mk3 10 1 10). auto. }
  rewrite Af, Rd, Cz. cbn [bx BX by' BY]. destruct (Rlt_dec (10 - 0) 0) as [n|_]; [lra|]. destruct (Rlt_dec (1 - 0) 0) as [n|_]; [lra|].
  intros (x & y & Hx & Hy & D). unfold rect, B in D. cbn in D. unfold dist, norm in D.
  match type of D with sqrt ?n <= 5 => assert (N : n = (5 + 10 * x) * (5 + 10 * x) + 1 + y * y) by (unfold norm2, dot, vsub, vadd, vscale; cbn; ring); rewrite N in D end.
  assert (Q : 5 < sqrt ((5 + 10 * x) * (5 + 10 * x) + 1 + y * y)); [|lra].
  rewrite <- (sqrt_square 5) at 1 by lra. apply sqrt_lt_1_alt. nra.
Qed.
Print Assumptions rss_merge_refuted.

(** contain: what it accepts is inside; off the four lines bounding the rectangle it decides
    the open set. *)
Lemma rltb_spec : forall a b, rltb a b = true <-> a < b.
Proof. intros. unfold rltb. destruct (Rlt_dec a b); split; intros; try congruence; lra. Qed.

(** distance in the frame of the rectangle *)
Lemma rss_local : forall b p x y, ortho (rax b) ->
  dist p (rect b x y) = norm (vsub (mtapply (rax b) (vsub p (To b))) (mk3 (x * rl0 b) (y * rl1 b) 0)).
Proof.
  intros b p x y Ho.
  assert (E : vsub (mtapply (rax b) (vsub p (To b))) (mk3 (x * rl0 b) (y * rl1 b) 0) = mtapply (rax b) (vsub p (rect b x y))).
  { rewrite <- (mt_mapply (rax b) (mk3 (x * rl0 b) (y * rl1 b) 0) Ho) at 1. rewrite <- mtapply_sub. f_equal.
    unfold rect, mapply. generalize (VecR.m0 (rax b)) (VecR.m1 (rax b)) (VecR.m2 (rax b)). intros [] [] []. destruct p, (To b). unfold vsub, vadd, vscale. cbn. f_equal; ring. }
  rewrite E. unfold dist, norm, norm2. rewrite mt_dot by exact Ho. reflexivity.
Qed.
Lemma frac : forall c l, 0 <= c <= l -> exists x, 0 <= x <= 1 /\ x * l = c.
Proof.
  intros c l H. destruct (Req_EM_T l 0) as [->|n]; [exists 0; split; lra|]. exists (c / l). assert (0 < l) by lra. split; [|field; lra].
  split; [apply Rmult_le_pos; [lra|apply Rlt_le, Rinv_0_lt_compat; lra]|]. apply Rmult_le_reg_r with l; [lra|]. unfold Rdiv. rewrite Rmult_assoc, Rinv_l by lra. lra.
Qed.
Lemma norm_lt : forall v r, 0 <= r -> (norm v < r <-> norm2 v < r * r).
Proof.
  intros v r Hr. unfold norm. assert (N : 0 <= norm2 v) by (destruct v; unfold norm2, dot; cbn; nra). pose proof (sqrt_sqrt _ N). pose proof (sqrt_pos (norm2 v)). split; intros; nra.
Qed.
Lemma near_lt : forall b p x y, ortho (rax b) -> 0 <= rr b -> 0 <= x <= rl0 b -> 0 <= y <= rl1 b ->
  norm2 (vsub (mtapply (rax b) (vsub p (To b))) (mk3 x y 0)) < rr b * rr b -> exists s t, 0 <= s <= 1 /\ 0 <= t <= 1 /\ dist p (rect b s t) < rr b.
Proof.
  intros b p x y Ho Hr Hx Hy H. destruct (frac _ _ Hx) as (s & S & Es). destruct (frac _ _ Hy) as (t & T & Et).
  exists s, t. split; [exact S|split; [exact T|]]. rewrite rss_local by exact Ho. rewrite Es, Et. apply norm_lt; assumption.
Qed.

Theorem rss_contain_sound : forall b p, ortho (rax b) -> 0 <= rl0 b -> 0 <= rl1 b -> 0 <= rr b -> rss_contain b p = true ->
  exists s t, 0 <= s <= 1 /\ 0 <= t <= 1 /\ dist p (rect b s t) < rr b.
Proof.
  intros b p Ho L0 L1 R0 H. unfold rss_contain in H. cbv zeta in H. set (j := mtapply (rax b) (vsub p (To b))) in *.
  assert (X : 0 <= (if rltb 0 (c0 j) then rl0 b else 0) <= rl0 b) by (destruct (rltb 0 (c0 j)); lra).
  assert (Y : 0 <= (if rltb 0 (c1 j) then rl1 b else 0) <= rl1 b) by (destruct (rltb 0 (c1 j)); lra).
  destruct (rltb (c0 j) (rl0 b) && rltb 0 (c0 j) && rltb (c1 j) (rl1 b) && rltb 0 (c1 j))%bool eqn:E1.
  { rewrite !Bool.andb_true_iff, !rltb_spec in E1. apply rltb_spec in H. destruct E1 as (((A & B) & C) & D). apply (near_lt b p (c0 j) (c1 j)); try assumption; [lra|lra|].
    fold j. clearbody j. destruct j as [jx jy jz]. unfold norm2, dot, vsub. cbn in *. assert (jz * jz < rr b * rr b) by (unfold Rabs in H; destruct (Rcase_abs jz); nra). nra. }
  destruct (rltb (c0 j) (rl0 b) && rltb 0 (c0 j) && (rltb (c1 j) 0 || rltb (rl1 b) (c1 j)))%bool eqn:E2.
  { rewrite !Bool.andb_true_iff, !rltb_spec in E2. apply rltb_spec in H. eapply near_lt; [exact Ho|exact R0| |exact Y|exact H]. lra. }
  destruct (rltb (c1 j) (rl1 b) && rltb 0 (c1 j) && (rltb (c0 j) 0 || rltb (rl0 b) (c0 j)))%bool eqn:E3.
  { rewrite !Bool.andb_true_iff, !rltb_spec in E3. apply rltb_spec in H. eapply near_lt; [exact Ho|exact R0|exact X| |exact H]. lra. }
  apply rltb_spec in H. eapply near_lt; [exact Ho|exact R0|exact X|exact Y|exact H].
Qed.
Print Assumptions rss_contain_sound.

Theorem rss_contain_complete : forall b p, ortho (rax b) -> 0 < rl0 b -> 0 < rl1 b -> 0 <= rr b ->
  (let j := mtapply (rax b) (vsub p (To b)) in c0 j <> 0 /\ c0 j <> rl0 b /\ c1 j <> 0 /\ c1 j <> rl1 b) ->
  (exists s t, 0 <= s <= 1 /\ 0 <= t <= 1 /\ dist p (rect b s t) < rr b) -> rss_contain b p = true.
Proof.
  intros b p Ho L0 L1 R0 Hn (s & t & Hs & Ht & D). rewrite rss_local in D by exact Ho. apply norm_lt in D; [|exact R0].
  unfold rss_contain. cbv zeta in *. set (j := mtapply (rax b) (vsub p (To b))) in *. clearbody j. destruct j as [x y z]. unfold norm2, dot, vsub in *. cbn in *.
  assert (Sx : 0 <= s * rl0 b <= rl0 b) by nra. assert (Sy : 0 <= t * rl1 b <= rl1 b) by nra. destruct Hn as (N1 & N2 & N3 & N4).
  set (u := s * rl0 b) in *. set (v := t * rl1 b) in *. clearbody u v. clear Hs Ht s t.
  assert (Ax : forall c, 0 <= c <= rl0 b -> (x < 0 \/ 0 < x < rl0 b \/ rl0 b < x) -> (x < 0 -> x * x <= (x - c) * (x - c)) /\ (rl0 b < x -> (x - rl0 b) * (x - rl0 b) <= (x - c) * (x - c))) by (intros; split; intros; nra).
  assert (Ay : forall c, 0 <= c <= rl1 b -> (y < 0 \/ 0 < y < rl1 b \/ rl1 b < y) -> (y < 0 -> y * y <= (y - c) * (y - c)) /\ (rl1 b < y -> (y - rl1 b) * (y - rl1 b) <= (y - c) * (y - c))) by (intros; split; intros; nra).
  assert (Px : x < 0 \/ 0 < x < rl0 b \/ rl0 b < x) by (destruct (Rlt_dec x 0); [auto|destruct (Rlt_dec x (rl0 b)); [right; left; lra|right; right; lra]]).
  assert (Py : y < 0 \/ 0 < y < rl1 b \/ rl1 b < y) by (destruct (Rlt_dec y 0); [auto|destruct (Rlt_dec y (rl1 b)); [right; left; lra|right; right; lra]]).
  destruct (Ax u Sx Px) as [Bx Cx]. destruct (Ay v Sy Py) as [By Cy]. clear Ax Ay.
  pose proof (Rle_0_sqr (x - u)) as Qx. pose proof (Rle_0_sqr (y - v)) as Qy. unfold Rsqr in Qx, Qy.
  assert (T : forall a c, a < c -> rltb a c = true) by (intros; apply rltb_spec; assumption).
  assert (F : forall a c, c <= a -> rltb a c = false) by (intros a c Hac; unfold rltb; destruct (Rlt_dec a c); [lra|reflexivity]).
  destruct Px as [Px|[Px|Px]], Py as [Py|[Py|Py]];
  try specialize (Bx Px); try specialize (Cx Px); try specialize (By Py); try specialize (Cy Py);
  repeat match goal with
  | |- context [rltb x (rl0 b)] => first [rewrite (T x (rl0 b)) by lra|rewrite (F x (rl0 b)) by lra]
  | |- context [rltb y (rl1 b)] => first [rewrite (T y (rl1 b)) by lra|rewrite (F y (rl1 b)) by lra]
  | |- context [rltb 0 x] => first [rewrite (T 0 x) by lra|rewrite (F 0 x) by lra]
  | |- context [rltb 0 y] => first [rewrite (T 0 y) by lra|rewrite (F 0 y) by lra]
  | |- context [rltb x 0] => first [rewrite (T x 0) by lra|rewrite (F x 0) by lra]
  | |- context [rltb y 0] => first [rewrite (T y 0) by lra|rewrite (F y 0) by lra]
  | |- context [rltb (rl0 b) x] => first [rewrite (T (rl0 b) x) by lra|rewrite (F (rl0 b) x) by lra]
  | |- context [rltb (rl1 b) y] => first [rewrite (T (rl1 b) y) by lra|rewrite (F (rl1 b) y) by lra]
  end; cbn [andb orb]; apply rltb_spec; cbn [c0 c1 c2]; try lra.
  apply Rsqr_lt_abs_1 || idtac. assert (Z : z * z < rr b * rr b) by lra. unfold Rabs. destruct (Rcase_abs z); nra.
Qed.
Print Assumptions rss_contain_complete.

(** On those lines it looks at a corner: the middle of an edge of the rectangle is refused. *)
Theorem rss_contain_edge_refuted : forall b, ortho (rax b) -> 0 < rl0 b -> 0 <= rr b -> 2 * rr b <= rl1 b -> 0 < rl1 b ->
  rss_contain b (rect b 1 (1/2)) = false.
Proof.
  intros b Ho L0 R0 L1 L2. unfold rss_contain. cbv zeta.
  assert (E : mtapply (rax b) (vsub (rect b 1 (1/2)) (To b)) = mk3 (rl0 b) (rl1 b / 2) 0).
  { rewrite <- (mt_mapply (rax b) (mk3 (rl0 b) (rl1 b / 2) 0) Ho). f_equal. unfold rect, mapply. generalize (VecR.m0 (rax b)) (VecR.m1 (rax b)) (VecR.m2 (rax b)). intros [] [] []. destruct (To b). unfold vadd, vsub, vscale. cbn. f_equal; field. }
  rewrite E. cbn [c0 c1 c2]. unfold rltb. unfold norm2, dot, vsub. cbn [c0 c1 c2].
  destruct (Rlt_dec (rl0 b) (rl0 b)); [lra|]. destruct (Rlt_dec (rl0 b) 0); [lra|]. destruct (Rlt_dec 0 (rl0 b)); [|lra]. destruct (Rlt_dec 0 (rl1 b / 2)); [|lra]. destruct (Rlt_dec (rl1 b / 2) (rl1 b)); [|lra]. cbn [andb orb].
  destruct (Rlt_dec _ _); [nra|reflexivity].
Qed.
Print Assumptions rss_contain_edge_refuted.

(** += of a point. Even with axes along the world axes, a point further than r from the plane
    of the rectangle is never in the result. *)
Theorem rss_add_far_refuted : forall b p, rax b = mid -> 0 <= rr b -> rr b < Rabs (c2 p - c2 (To b)) -> ~ in_rss (rss_add b p) p.
Proof.
  intros b p Hm R0 Hf.
  assert (E : mtapply (rax b) (vsub p (To b)) = vsub p (To b)) by (rewrite Hm; generalize (vsub p (To b)); intros []; unfold mtapply, mid, dot; cbn; f_equal; ring).
  assert (K : forall T l0 l1 r, 0 <= r -> r < Rabs (c2 p - c2 T) -> ~ in_rss (Rss T mid l0 l1 r) p).
  { intros T l0 l1 r Hr Hz (x & y & _ & _ & D). unfold rect in D. cbn [To rax rl0 rl1 rr] in D. unfold dist in D.
    set (w := vsub p _) in D. assert (Ew : c2 w = c2 p - c2 T) by (unfold w, vsub, vadd, vscale, mid; cbn; ring).
    assert (N : norm2 w <= r * r).
    { unfold norm in D. assert (N : 0 <= norm2 w) by (destruct w; unfold norm2, dot; cbn; nra). pose proof (sqrt_sqrt _ N). pose proof (sqrt_pos (norm2 w)). nra. }
    assert (c2 w * c2 w <= norm2 w) by (destruct w; unfold norm2, dot; cbn; nra). rewrite <- Ew in Hz. unfold Rabs in Hz. destruct (Rcase_abs (c2 w)); nra. }
  unfold rss_add. cbv zeta. rewrite E, Hm. set (j := vsub p (To b)) in *. assert (Ez : c2 j = c2 p - c2 (To b)) by reflexivity.
  assert (Na : rltb (Rabs (c2 j)) (rr b) = false) by (unfold rltb; destruct (Rlt_dec _ _); [rewrite Ez in *; lra|reflexivity]).
  assert (Nn : forall x y, rltb (norm2 (vsub j (mk3 x y 0))) (rr b * rr b) = false).
  { intros x y. unfold rltb. destruct (Rlt_dec _ _) as [H|_]; [|reflexivity]. exfalso. rewrite <- Ez in Hf. clear - H Hf R0. destruct j as [u v w]. unfold norm2, dot, vsub in H. cbn in *. pose proof (Rle_0_sqr (u - x)) as A. pose proof (Rle_0_sqr (v - y)) as B. unfold Rsqr in A, B.
    assert (W : w * w < rr b * rr b) by lra. unfold Rabs in Hf. destruct (Rcase_abs w); nra. }
  rewrite Na, !Nn.
  assert (Lf : forall r, r < Rabs (c2 j) -> Rabs (c2 p - (if rltb 0 (c2 j) then c2 (To b) + 1/2 * (Rabs (c2 j) - r) else c2 (To b) - 1/2 * (Rabs (c2 j) - r))) = 1/2 * (Rabs (c2 j) + r)
     \/ (c2 j = 0) \/ r < 0).
  { intros r Hr. unfold rltb. rewrite Ez in *. clear - Hr Hf R0. set (z := c2 p) in *. set (t := c2 (To b)) in *. destruct (Rlt_dec 0 (z - t)) as [P|P].
    - rewrite (Rabs_pos_eq (z - t)) in * by lra. destruct (Rlt_dec r 0); [auto|]. left. rewrite Rabs_pos_eq; lra.
    - destruct (Req_EM_T (z - t) 0); [auto|]. rewrite (Rabs_left (z - t)) in * by lra. destruct (Rlt_dec r 0); [auto|]. left. rewrite Rabs_left; lra. }
  assert (Lf2 : forall r, 0 <= r < Rabs (c2 j) -> r < Rabs (c2 p - (if rltb 0 (c2 j) then c2 (To b) + 1/2 * (Rabs (c2 j) - r) else c2 (To b) - 1/2 * (Rabs (c2 j) - r)))).
  { intros r [Hr0 Hr]. destruct (Lf r Hr) as [-> | [Z|Z]]; [lra| |lra]. rewrite Z, Rabs_R0 in Hr. lra. }
  rewrite <- Ez in Hf.
  destruct (_ && _ && _ && _)%bool; [apply K; cbn [c2]; [lra|apply Lf2; lra]|].
  destruct (_ && _ && _)%bool; [apply K; cbn [c2]; [lra|apply Lf2; lra]|].
  destruct (_ && _ && _)%bool; [apply K; cbn [c2]; [lra|apply Lf2; lra]|].
  apply K; cbn [c2]; [lra|apply Lf2; lra].
Qed.
Print Assumptions rss_add_far_refuted.

(** With turned axes not even a near point: To is moved along the world axes. Here axes y, -x, z,
    l = (1,1), r = 1 and the point at local (1/2, -3, 0), that is (3, 1/2, 0). *)
Theorem rss_add_turned_refuted :
  let b := Rss (mk3 0 0 0) (mkm (mk3 0 1 0) (mk3 (-1) 0 0) (mk3 0 0 1)) 1 1 1 in
  ortho (rax b) /\ ~ in_rss (rss_add b (mk3 3 (1/2) 0)) (mk3 3 (1/2) 0).
Proof.
  intros b. split; [unfold ortho, dot; cbn; lra|].
  assert (E : mtapply (rax b) (vsub (mk3 3 (1/2) 0) (To b)) = mk3 (1/2) (-3) 0) by (unfold mtapply, dot, vsub, b; cbn; f_equal; lra).
  unfold rss_add. cbv zeta. rewrite E. cbn [c0 c1 c2 rl0 rl1 rr To rax b].
  assert (T : forall a c, a < c -> rltb a c = true) by (intros; apply rltb_spec; assumption).
  assert (F : forall a c, c <= a -> rltb a c = false) by (intros a c Hac; unfold rltb; destruct (Rlt_dec a c); [lra|reflexivity]).
  rewrite (T (1/2) 1), (T 0 (1/2)), (T (-3) 1), (F 0 (-3)), (T (-3) 0) by lra. cbn [andb orb].
  rewrite (F (norm2 _)) by (unfold norm2, dot, vsub; cbn; lra). rewrite Rabs_R0, (T 0 1) by lra.
  replace (1 * 1 - 0 * 0) with 1 by ring. rewrite sqrt_1, (Rabs_left (-3 - 0)) by lra.
  intros (x & y & Hx & Hy & D). unfold rect in D. cbn in D. unfold dist, norm in D.
  match type of D with sqrt ?n <= 1 => assert (N : n = (3 + 3 * y) * (3 + 3 * y) + (5/2 - x) * (5/2 - x)) by (unfold norm2, dot, vsub, vadd, vscale; cbn; field); rewrite N in D end.
  assert (Q : 1 < sqrt ((3 + 3 * y) * (3 + 3 * y) + (5/2 - x) * (5/2 - x))); [|lra].
  rewrite <- sqrt_1 at 1. apply sqrt_lt_1_alt. nra.
Qed.
Print Assumptions rss_add_turned_refuted.

Lemma in_rss_mid : forall T l0 l1 r p, 0 <= l0 -> 0 <= l1 -> 0 <= r ->
  (in_rss (Rss T mid l0 l1 r) p <-> exists x y, 0 <= x <= l0 /\ 0 <= y <= l1 /\
     (c0 p - c0 T - x) * (c0 p - c0 T - x) + (c1 p - c1 T - y) * (c1 p - c1 T - y) + (c2 p - c2 T) * (c2 p - c2 T) <= r * r).
Proof.
  intros T l0 l1 r p H0 H1 Hr.
  assert (N : forall x y, norm2 (vsub p (rect (Rss T mid l0 l1 r) x y)) = (c0 p - c0 T - x * l0) * (c0 p - c0 T - x * l0) + (c1 p - c1 T - y * l1) * (c1 p - c1 T - y * l1) + (c2 p - c2 T) * (c2 p - c2 T)).
  { intros x y. unfold rect, mid. cbn [To rax rl0 rl1 rr]. destruct p, T. unfold norm2, dot, vsub, vadd, vscale. cbn. ring. }
  assert (D : forall x y, dist p (rect (Rss T mid l0 l1 r) x y) <= r <-> norm2 (vsub p (rect (Rss T mid l0 l1 r) x y)) <= r * r).
  { intros x y. unfold dist, norm. set (n := norm2 _). assert (0 <= n) by (unfold n; rewrite N; pose proof (Rle_0_sqr (c0 p - c0 T - x * l0)); pose proof (Rle_0_sqr (c1 p - c1 T - y * l1)); pose proof (Rle_0_sqr (c2 p - c2 T)); unfold Rsqr in *; lra).
    pose proof (sqrt_sqrt n H). pose proof (sqrt_pos n). split; intros; nra. }
  split.
  - intros (x & y & Hx & Hy & E). cbn [rr] in E. apply D in E. rewrite N in E. exists (x * l0), (y * l1). split; [nra|split; [nra|exact E]].
  - intros (x & y & Hx & Hy & E). destruct (frac _ _ Hx) as (s & S & <-). destruct (frac _ _ Hy) as (t & Ht & <-). exists s, t. split; [exact S|split; [exact Ht|]]. cbn [rr]. apply D. rewrite N. exact E.
Qed.

(** Near the plane (closer than r) and with axes along the world axes += keeps every old point and
    takes in the new one, unless the point lies beyond a corner with mixed signs. *)
Theorem rss_add_near : forall b p, rax b = mid -> 0 < rl0 b -> 0 < rl1 b ->
  let x := c0 p - c0 (To b) in let y := c1 p - c1 (To b) in let z := c2 p - c2 (To b) in
  Rabs z < rr b -> x <> 0 -> x <> rl0 b -> y <> 0 -> y <> rl1 b ->
  ~ (x < 0 /\ rl1 b < y) -> ~ (rl0 b < x /\ y < 0) ->
  in_rss (rss_add b p) p /\ forall q, in_rss b q -> in_rss (rss_add b p) q.
Proof.
  intros [T A l0 l1 r] p Hm L0 L1 x y z Hz X0 X1 Y0 Y1 M1 M2. cbn [To rax rl0 rl1 rr] in *. subst A.
  assert (R0 : 0 < r) by (pose proof (Rabs_pos z); lra).
  assert (Zz : z * z < r * r) by (unfold Rabs in Hz; destruct (Rcase_abs z); nra).
  set (s := sqrt (r * r - z * z)). assert (S2 : s * s = r * r - z * z) by (apply sqrt_sqrt; lra). assert (S0 : 0 < s) by (apply sqrt_lt_R0; lra).
  assert (E : mtapply mid (vsub p T) = mk3 x y z) by (unfold x, y, z; destruct p, T; unfold mtapply, mid, dot, vsub; cbn; f_equal; ring).
  assert (Tt : forall a c, a < c -> rltb a c = true) by (intros; apply rltb_spec; assumption).
  assert (Ff : forall a c, c <= a -> rltb a c = false) by (intros a c Hac; unfold rltb; destruct (Rlt_dec a c); [lra|reflexivity]).
  (* growing the rectangle *)
  assert (Grow : forall tx ty m0 m1, tx <= 0 -> ty <= 0 -> l0 <= tx + m0 -> l1 <= ty + m1 ->
     (exists u v, tx <= u <= tx + m0 /\ ty <= v <= ty + m1 /\ (x - u) * (x - u) + (y - v) * (y - v) <= s * s) ->
     forall T', c0 T' = c0 T + tx -> c1 T' = c1 T + ty -> c2 T' = c2 T ->
     in_rss (Rss T' mid m0 m1 r) p /\ forall q, in_rss (Rss T mid l0 l1 r) q -> in_rss (Rss T' mid m0 m1 r) q).
  { intros tx ty m0 m1 Htx Hty Hm0 Hm1 (u & v & Hu & Hv & D) T' T0 T1 T2. split.
    - apply in_rss_mid; [lra|lra|lra|]. exists (u - tx), (v - ty). split; [lra|split; [lra|]]. rewrite T0, T1, T2. unfold x, y, z in *.
      replace (c0 p - (c0 T + tx) - (u - tx)) with (c0 p - c0 T - u) by ring. replace (c1 p - (c1 T + ty) - (v - ty)) with (c1 p - c1 T - v) by ring. lra.
    - intros q Hq. apply in_rss_mid in Hq; [|lra|lra|lra]. destruct Hq as (u' & v' & Hu' & Hv' & D'). apply in_rss_mid; [lra|lra|lra|].
      exists (u' - tx), (v' - ty). split; [lra|split; [lra|]]. rewrite T0, T1, T2.
      replace (c0 q - (c0 T + tx) - (u' - tx)) with (c0 q - c0 T - u') by ring. replace (c1 q - (c1 T + ty) - (v' - ty)) with (c1 q - c1 T - v') by ring. exact D'. }
  assert (Same : forall u v, 0 <= u <= l0 -> 0 <= v <= l1 -> (x - u) * (x - u) + (y - v) * (y - v) <= s * s ->
     in_rss (Rss T mid l0 l1 r) p /\ forall q, in_rss (Rss T mid l0 l1 r) q -> in_rss (Rss T mid l0 l1 r) q).
  { intros u v Hu Hv D. apply (Grow 0 0); try lra. exists u, v. split; [lra|split; [lra|exact D]]. }
  assert (Nr : forall u v, norm2 (vsub (mk3 x y z) (mk3 u v 0)) = (x - u) * (x - u) + (y - v) * (y - v) + z * z) by (intros; unfold norm2, dot, vsub; cbn; ring).
  (* the corner step *)
  assert (Cor : forall fx fy, fx * fx + fy * fy + z * z >= r * r -> let d := sqrt (fx * fx + fy * fy) in
     let k := (- s + d) / d in 0 <= k <= 1 /\ (fx - k * fx) * (fx - k * fx) + (fy - k * fy) * (fy - k * fy) <= s * s).
  { intros fx fy Hf d k. assert (D2 : d * d = fx * fx + fy * fy) by (apply sqrt_sqrt; nra). assert (Hd0 : 0 <= d) by apply sqrt_pos.
    assert (Hsd : s <= d) by nra. assert (Hd : 0 < d) by lra.
    assert (K : k * d = d - s) by (unfold k; field; lra). split; [split; nra|].
    replace ((fx - k * fx) * (fx - k * fx) + (fy - k * fy) * (fy - k * fy)) with ((1 - k) * (1 - k) * (d * d)) by (rewrite D2; ring).
    replace ((1 - k) * (1 - k) * (d * d)) with ((d - k * d) * (d - k * d)) by ring. rewrite K. right. ring. }
  assert (Px : x < 0 \/ 0 < x < l0 \/ l0 < x) by (destruct (Rlt_dec x 0); [auto|destruct (Rlt_dec x l0); [right; left; lra|right; right; lra]]).
  assert (Py : y < 0 \/ 0 < y < l1 \/ l1 < y) by (destruct (Rlt_dec y 0); [auto|destruct (Rlt_dec y l1); [right; left; lra|right; right; lra]]).
  clearbody x y z. unfold rss_add. cbv zeta. cbn [To rax rl0 rl1 rr]. rewrite E. cbn [c0 c1 c2]. fold s. rewrite !Nr.
  destruct Px as [Px|[Px|Px]], Py as [Py|[Py|Py]]; try (exfalso; apply M1; split; assumption); try (exfalso; apply M2; split; assumption);
  repeat match goal with
  | |- context [rltb x l0] => first [rewrite (Tt x l0) by lra|rewrite (Ff x l0) by lra]
  | |- context [rltb y l1] => first [rewrite (Tt y l1) by lra|rewrite (Ff y l1) by lra]
  | |- context [rltb 0 x] => first [rewrite (Tt 0 x) by lra|rewrite (Ff 0 x) by lra]
  | |- context [rltb 0 y] => first [rewrite (Tt 0 y) by lra|rewrite (Ff 0 y) by lra]
  | |- context [rltb x 0] => first [rewrite (Tt x 0) by lra|rewrite (Ff x 0) by lra]
  | |- context [rltb y 0] => first [rewrite (Tt y 0) by lra|rewrite (Ff y 0) by lra]
  | |- context [rltb l0 x] => first [rewrite (Tt l0 x) by lra|rewrite (Ff l0 x) by lra]
  | |- context [rltb l1 y] => first [rewrite (Tt l1 y) by lra|rewrite (Ff l1 y) by lra]
  | |- context [rltb (Rabs z) r] => rewrite (Tt (Rabs z) r) by exact Hz
  end; cbn [andb orb].
  - destruct (rltb _ _) eqn:Q; [apply rltb_spec in Q; apply (Same 0 0); lra|].
    assert (Q' : r * r <= (x - 0) * (x - 0) + (y - 0) * (y - 0) + z * z) by (apply Rnot_lt_le; intros H; apply rltb_spec in H; congruence).
    destruct (Cor x y ltac:(lra)) as [K1 K2].
    replace (sqrt ((x - 0) * (x - 0) + (y - 0) * (y - 0) + z * z - z * z)) with (sqrt (x * x + y * y)) by (f_equal; ring).
    set (k := (- s + sqrt (x * x + y * y)) / sqrt (x * x + y * y)) in *. rewrite !Rminus_0_r, (Rabs_left x), (Rabs_left y) by lra.
    apply (Grow (k * x) (k * y)); cbn [c0 c1 c2]; try lra; try nra.
    exists (k * x), (k * y). split; [nra|split; [nra|exact K2]].
  - destruct (rltb _ _) eqn:Q; [apply rltb_spec in Q; apply (Same 0 y); lra|].
    assert (Q' : r * r <= (x - 0) * (x - 0) + (y - y) * (y - y) + z * z) by (apply Rnot_lt_le; intros H; apply rltb_spec in H; congruence).
    rewrite !Rminus_0_r, (Rabs_left x) by lra. assert (s <= - x) by nra.
    apply (Grow (x + s) 0); cbn [c0 c1 c2]; try lra. exists (x + s), y. split; [lra|split; [lra|nra]].
  - destruct (rltb _ _) eqn:Q; [apply rltb_spec in Q; apply (Same x 0); lra|].
    assert (Q' : r * r <= (x - x) * (x - x) + (y - 0) * (y - 0) + z * z) by (apply Rnot_lt_le; intros H; apply rltb_spec in H; congruence).
    rewrite !Rminus_0_r, (Rabs_left y) by lra. assert (s <= - y) by nra.
    apply (Grow 0 (y + s)); cbn [c0 c1 c2]; try lra. exists x, (y + s). split; [lra|split; [lra|nra]].
  - apply (Same x y); nra.
  - destruct (rltb _ _) eqn:Q; [apply rltb_spec in Q; apply (Same x l1); lra|].
    assert (Q' : r * r <= (x - x) * (x - x) + (y - l1) * (y - l1) + z * z) by (apply Rnot_lt_le; intros H; apply rltb_spec in H; congruence).
    rewrite (Rabs_pos_eq (y - l1)) by lra. assert (s <= y - l1) by nra.
    apply (Grow 0 0); cbn [c0 c1 c2]; try lra. exists x, (y - s). split; [lra|split; [lra|nra]].
  - destruct (rltb _ _) eqn:Q; [apply rltb_spec in Q; apply (Same l0 y); lra|].
    assert (Q' : r * r <= (x - l0) * (x - l0) + (y - y) * (y - y) + z * z) by (apply Rnot_lt_le; intros H; apply rltb_spec in H; congruence).
    rewrite (Rabs_pos_eq (x - l0)) by lra. assert (s <= x - l0) by nra.
    apply (Grow 0 0); cbn [c0 c1 c2]; try lra. exists (x - s), y. split; [lra|split; [lra|nra]].
  - destruct (rltb _ _) eqn:Q; [apply rltb_spec in Q; apply (Same l0 l1); lra|].
    assert (Q' : r * r <= (x - l0) * (x - l0) + (y - l1) * (y - l1) + z * z) by (apply Rnot_lt_le; intros H; apply rltb_spec in H; congruence).
    destruct (Cor (x - l0) (y - l1) ltac:(lra)) as [K1 K2].
    replace (sqrt ((x - l0) * (x - l0) + (y - l1) * (y - l1) + z * z - z * z)) with (sqrt ((x - l0) * (x - l0) + (y - l1) * (y - l1))) by (f_equal; ring).
    set (k := (- s + sqrt _) / sqrt _) in *. rewrite (Rabs_pos_eq (x - l0)), (Rabs_pos_eq (y - l1)) by lra.
    apply (Grow 0 0); cbn [c0 c1 c2]; try lra; try nra.
    exists (l0 + k * (x - l0)), (l1 + k * (y - l1)). split; [nra|split; [nra|]].
    replace (x - (l0 + k * (x - l0))) with (x - l0 - k * (x - l0)) by ring. replace (y - (l1 + k * (y - l1))) with (y - l1 - k * (y - l1)) by ring. exact K2.
Qed.
Print Assumptions rss_add_near.

(** Beyond a mixed corner the rectangle grows the wrong way: the point stays outside. *)
Theorem rss_add_corner_refuted : forall b p, rax b = mid -> 0 < rl0 b -> 0 < rl1 b ->
  let x := c0 p - c0 (To b) in let y := c1 p - c1 (To b) in let z := c2 p - c2 (To b) in
  Rabs z < rr b -> rl0 b < x -> y < 0 -> ~ in_rss b p -> ~ in_rss (rss_add b p) p.
Proof.
  intros [T A l0 l1 r] p Hm L0 L1 x y z Hz X Y Hn. cbn [To rax rl0 rl1 rr] in *. subst A.
  assert (R0 : 0 < r) by (pose proof (Rabs_pos z); lra).
  assert (Zz : z * z < r * r) by (unfold Rabs in Hz; destruct (Rcase_abs z); nra).
  set (s := sqrt (r * r - z * z)). assert (S2 : s * s = r * r - z * z) by (apply sqrt_sqrt; lra). assert (S0 : 0 < s) by (apply sqrt_lt_R0; lra).
  assert (E : mtapply mid (vsub p T) = mk3 x y z) by (unfold x, y, z; destruct p, T; unfold mtapply, mid, dot, vsub; cbn; f_equal; ring).
  assert (Tt : forall a c, a < c -> rltb a c = true) by (intros; apply rltb_spec; assumption).
  assert (Ff : forall a c, c <= a -> rltb a c = false) by (intros a c Hac; unfold rltb; destruct (Rlt_dec a c); [lra|reflexivity]).
  assert (Q : r * r < (x - l0) * (x - l0) + (y - 0) * (y - 0) + z * z).
  { apply Rnot_le_lt. intros H. apply Hn. apply in_rss_mid; [lra|lra|lra|]. exists l0, 0. split; [lra|split; [lra|]]. fold x y z. lra. }
  assert (Nr : norm2 (vsub (mk3 x y z) (mk3 l0 0 0)) = (x - l0) * (x - l0) + (y - 0) * (y - 0) + z * z) by (unfold norm2, dot, vsub; cbn; ring).
  unfold rss_add. cbv zeta. cbn [To rax rl0 rl1 rr]. rewrite E. cbn [c0 c1 c2]. fold s.
  rewrite (Ff x l0), (Tt 0 x), (Ff 0 y), (Ff x 0), (Tt y 0), (Tt l0 x) by lra. rewrite !Nr. cbn [andb orb]. rewrite !Bool.andb_false_r. cbn [andb].
  rewrite (Ff _ (r * r)) by lra. rewrite (Tt (Rabs z) r Hz).
  replace (sqrt ((x - l0) * (x - l0) + (y - 0) * (y - 0) + z * z - z * z)) with (sqrt ((x - l0) * (x - l0) + y * y)) by (f_equal; ring).
  set (d := sqrt ((x - l0) * (x - l0) + y * y)). rewrite (Rabs_pos_eq (x - l0)), (Rabs_left (y - 0)) by lra.
  set (fx := x - l0) in *. assert (D2 : d * d = fx * fx + y * y) by (apply sqrt_sqrt; nra). assert (Hd0 : 0 <= d) by apply sqrt_pos.
  assert (Hsd : s < d) by nra. set (k := (- s + d) / d). assert (K : k * d = d - s) by (unfold k; field; lra). assert (K0 : 0 <= k < 1) by (split; nra).
  assert (F0 : 0 < fx) by (unfold fx; lra). assert (G1 : 0 <= k * fx) by nra. assert (G2 : 0 <= k * - (y - 0)) by nra.
  intros Hin. apply in_rss_mid in Hin; [|lra|lra|lra]. destruct Hin as (u & v & Hu & Hv & D). cbn [c0 c1 c2] in D. fold x y z in D. clearbody k.
  assert (B1 : (1 - k) * fx <= x - u) by (unfold fx in *; nra). assert (B2 : y * y <= (y - v) * (y - v)) by nra.
  assert (B3 : ((1 - k) * fx) * ((1 - k) * fx) <= (x - u) * (x - u)) by (assert (0 <= (1 - k) * fx) by nra; nra).
  assert (B4 : s * s = (1 - k) * (1 - k) * (fx * fx + y * y)) by (rewrite <- D2; replace s with ((1 - k) * d) by lra; ring).

  assert (B6 : 0 < k) by (apply Rnot_le_lt; intros H; assert (k * d <= 0) by nra; lra).
  assert (B7 : (1 - k) * (1 - k) < 1) by nra. assert (B8 : 0 < y * y) by nra.
  assert (B9 : 0 < (1 - (1 - k) * (1 - k)) * (y * y)) by (apply Rmult_lt_0_compat; lra).
  replace (((1 - k) * fx) * ((1 - k) * fx)) with ((1 - k) * (1 - k) * (fx * fx)) in B3 by ring. lra.
Qed.
Print Assumptions rss_add_corner_refuted.

(** Concrete: a unit square of radius 1 and the point (1/2, 3, 0). *)
Example rss_add_case : in_rss (rss_add (Rss (mk3 0 0 0) mid 1 1 1) (mk3 (1/2) 3 0)) (mk3 (1/2) 3 0).
Proof. refine (proj1 (rss_add_near (Rss (mk3 0 0 0) mid 1 1 1) (mk3 (1/2) 3 0) _ _ _ _ _ _ _ _ _ _)); cbn; try reflexivity; try lra. rewrite Rabs_pos_eq; lra. Qed.
(** Concrete: a right triangle and its fitted box and rectangle. *)
Example fit3_case : inobb (obb_fit3 10 (mk3 0 0 0) (mk3 3 0 0) (mk3 0 4 1)) (mk3 0 4 1) /\ in_rss (rss_fit3 (mk3 0 0 0) (mk3 3 0 0) (mk3 0 4 1)) (mk3 0 4 1).
Proof.
  assert (C : cross (vsub (mk3 0 0 0) (mk3 3 0 0)) (vsub (mk3 3 0 0) (mk3 0 4 1)) <> vzero) by (unfold cross, vsub, vzero; cbn; intros E; injection E; lra).
  split; [apply obb_fit3_encloses|apply rss_fit3_encloses]; cbn; tauto.
Qed.
