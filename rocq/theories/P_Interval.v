(** * Properties C36 and C53: interval arithmetic, interval vectors and matrices *)

From Coq Require Import Reals Lra List Bool.
From Verif Require Import Interval.
Open Scope R_scope.

(** ** C36: every operation returns exactly the set of results *)

Theorem interval_add_exact : forall a b z, lo a <= hi a -> lo b <= hi b ->
  (inside z (iadd a b) <-> exists x y, inside x a /\ inside y b /\ z = x + y).
Proof.
  intros a b z Ha Hb. split; [|intros (x & y & Hx & Hy & ->); apply iadd_in; assumption].
  unfold inside, iadd. cbn. intros [H1 H2].
  destruct (Rle_dec (z - lo a) (hi b)) as [H|H].
  - exists (lo a), (z - lo a). lra.
  - exists (z - hi b), (hi b). lra.
Qed.
Print Assumptions interval_add_exact.

Theorem interval_sub_exact : forall a b z, lo a <= hi a -> lo b <= hi b ->
  (inside z (isub a b) <-> exists x y, inside x a /\ inside y b /\ z = x - y).
Proof.
  intros a b z Ha Hb. split; [|intros (x & y & Hx & Hy & ->); apply isub_in; assumption].
  unfold inside, isub. cbn. intros [H1 H2].
  destruct (Rle_dec (lo b) (lo a - z)) as [H|H].
  - exists (lo a), (lo a - z). lra.
  - exists (z + lo b), (lo b). lra.
Qed.
Print Assumptions interval_sub_exact.

Theorem interval_neg_exact : forall a z, inside z (iopp a) <-> exists x, inside x a /\ z = - x.
Proof.
  intros a z. split; [|intros (x & Hx & ->); apply iopp_in; assumption].
  unfold inside, iopp. cbn. intros H. exists (- z). lra.
Qed.
Print Assumptions interval_neg_exact.

Theorem interval_scale_exact : forall a d z, lo a <= hi a ->
  (inside z (iscale a d) <-> exists x, inside x a /\ z = x * d).
Proof.
  intros a d z Ha. split; [|intros (x & Hx & ->); apply iscale_in; assumption].
  unfold inside, iscale. destruct (Rle_dec 0 d) as [Hd|Hd]; cbn; intros [H1 H2].
  - destruct (Req_dec d 0) as [->|Hn]; [exists (lo a); lra|]. exists (z / d).
    split; [|field; exact Hn]. assert (z = z / d * d) by (field; exact Hn). nra.
  - exists (z / d). assert (d <> 0) by lra. split; [|field; assumption].
    assert (z = z / d * d) by (field; assumption). nra.
Qed.
Print Assumptions interval_scale_exact.

Theorem interval_mul_exact : forall a b z, lo a <= hi a -> lo b <= hi b ->
  (inside z (imul a b) <-> exists x y, inside x a /\ inside y b /\ z = x * y).
Proof.
  intros a b z Ha Hb. split; [|intros (x & y & Hx & Hy & ->); apply imul_in; assumption].
  destruct (imul_corners a b Ha Hb) as (Hl & Hh & _). intros [H1 H2].
  assert (Hc : forall v, In v (lo a * lo b :: lo a * hi b :: hi a * lo b :: hi a * hi b :: nil) ->
            exists x y, inside x a /\ inside y b /\ v = x * y).
  { unfold inside. intros v [<-|[<-|[<-|[<-|[]]]]]; eexists; eexists; (split; [|split; [|reflexivity]]); lra. }
  destruct (Hc _ Hl) as (x0 & y0 & Hx0 & Hy0 & E0), (Hc _ Hh) as (x1 & y1 & Hx1 & Hy1 & E1).
  set (f := fun s => (x0 + s * (x1 - x0)) * (y0 + s * (y1 - y0)) - z).
  assert (Cf : continuity f).
  { unfold f. intros s. reg. }
  destruct (IVT_cor f 0 1 Cf) as (s & Hs & Es); [lra| |].
  { unfold f. replace ((x0 + 0 * (x1 - x0)) * (y0 + 0 * (y1 - y0))) with (lo (imul a b)) by (rewrite E0; ring).
    replace ((x0 + 1 * (x1 - x0)) * (y0 + 1 * (y1 - y0))) with (hi (imul a b)) by (rewrite E1; ring). nra. }
  exists (x0 + s * (x1 - x0)), (y0 + s * (y1 - y0)). unfold f in Es. unfold inside in *.
  split; [nra|]. split; [nra|]. lra.
Qed.
Print Assumptions interval_mul_exact.

Theorem interval_mul_assign : forall a b, imul_assign a b = imul a b.
Proof. exact imul_assign_eq. Qed.
Print Assumptions interval_mul_assign.

Theorem interval_div_exact : forall a b z, lo a <= hi a -> lo b <= hi b -> 0 < lo b \/ hi b < 0 ->
  (inside z (idiv a b) <-> exists x y, inside x a /\ inside y b /\ z = x / y).
Proof.
  intros a b z Ha Hb H0. split; [|intros (x & y & Hx & Hy & ->); apply idiv_in; assumption].
  unfold idiv. intros H. apply interval_mul_exact in H; [|exact Ha|].
  - destruct H as (x & w & Hx & Hw & ->). exists x, (/ w). unfold inside in Hw. cbn in Hw. unfold Rdiv in Hw. rewrite !Rmult_1_l in Hw.
    assert (Hw0 : w <> 0 /\ inside (/ w) b).
    { unfold inside. destruct H0 as [H0|H0].
      - assert (0 < / hi b) by (apply Rinv_0_lt_compat; lra). split; [lra|].
        rewrite <- (Rinv_inv (lo b)), <- (Rinv_inv (hi b)). split; apply Rinv_le_contravar; lra.
      - assert (/ lo b < 0) by (apply Rinv_lt_0_compat; lra). split; [lra|].
        rewrite <- (Rinv_inv (lo b)), <- (Rinv_inv (hi b)).
        split; apply inv_le_neg; lra. }
    split; [exact Hx|]. split; [apply Hw0|]. unfold Rdiv. rewrite Rinv_inv. reflexivity.
  - cbn. unfold Rdiv. rewrite !Rmult_1_l. destruct H0 as [H0|H0].
    + apply Rinv_le_contravar; lra.
    + apply inv_le_neg; lra.
Qed.
Print Assumptions interval_div_exact.

Example interval_mul_case : forall x y, -2 <= x <= 3 -> -5 <= y <= 1 -> -15 <= x * y <= 10.
Proof.
  intros x y Hx Hy. assert (H : imul (Iv (-2) 3) (Iv (-5) 1) = Iv (3 * -5) (-2 * -5)).
  { unfold imul. cbn [lo hi]. dec_all; try lra; reflexivity. }
  pose proof (imul_in (Iv (-2) 3) (Iv (-5) 1) x y Hx Hy) as Hi. rewrite H in Hi. unfold inside in Hi. cbn in Hi. lra.
Qed.

Theorem interval_overlap_exact : forall a b, lo a <= hi a -> lo b <= hi b ->
  (ioverlap a b = true <-> exists x, inside x a /\ inside x b).
Proof.
  intros a b Ha Hb. unfold ioverlap, inside. dec_all; (split; [intros; try discriminate|intros (x & Hx); try reflexivity; lra]).
  destruct (Rle_dec (lo a) (lo b)); [exists (lo b)|exists (lo a)]; lra.
Qed.
Print Assumptions interval_overlap_exact.

Theorem interval_intersect_exact : forall a b, lo a <= hi a -> lo b <= hi b ->
  (fst (iintersect a b) = true <-> exists x, inside x a /\ inside x b) /\
  (fst (iintersect a b) = true -> forall x, inside x (snd (iintersect a b)) <-> inside x a /\ inside x b) /\
  (fst (iintersect a b) = false -> snd (iintersect a b) = a).
Proof.
  intros a b Ha Hb. split.
  - rewrite <- interval_overlap_exact by assumption. unfold iintersect, ioverlap. dec_all; cbn; tauto.
  - unfold iintersect, inside. dec_all; cbn; (split; [intros; try discriminate; lra|intros; try discriminate; reflexivity]).
Qed.
Print Assumptions interval_intersect_exact.

Theorem interval_contains_exact : forall a v, icontains a v = true <-> inside v a.
Proof. intros a v. unfold icontains, inside. dec_all; split; intros; try discriminate; try reflexivity; lra. Qed.
Print Assumptions interval_contains_exact.

(** bound is the least interval with both. *)
Theorem interval_bound_hull : forall a b c, lo a <= hi a -> lo b <= hi b ->
  ((forall x, inside x a \/ inside x b -> inside x c) <-> lo c <= lo (ibound a b) /\ hi (ibound a b) <= hi c).
Proof.
  intros a b c Ha Hb. unfold ibound, inside. cbn. split.
  - intros H. assert (lo c <= lo a <= hi c) by (apply H; left; lra). assert (lo c <= hi a <= hi c) by (apply H; left; lra).
    assert (lo c <= lo b <= hi c) by (apply H; right; lra). assert (lo c <= hi b <= hi c) by (apply H; right; lra). dec_all; lra.
  - dec_all; intros H x [Hx|Hx]; lra.
Qed.
Print Assumptions interval_bound_hull.

Theorem interval_bound_point : forall a v, ibound_pt a v = ibound a (ipoint v).
Proof. reflexivity. Qed.
Print Assumptions interval_bound_point.

(** getAbsLower is the distance of the interval to zero. *)
Theorem interval_abs_lower : forall a, lo a <= hi a ->
  (forall x, inside x a -> abs_lower a <= Rabs x) /\ exists x, inside x a /\ Rabs x = abs_lower a.
Proof.
  intros a Ha. unfold abs_lower, inside. dec_all; (split; [intros x Hx; unfold Rabs; destruct (Rcase_abs x); lra|]).
  - exists (lo a). split; [lra|]. apply Rabs_right. lra.
  - exists 0. split; [lra|apply Rabs_R0].
  - exists (hi a). split; [lra|]. apply Rabs_left. lra.
Qed.
Print Assumptions interval_abs_lower.

(** getAbsUpper is the greatest absolute value when the interval reaches further
    up than down... *)
Theorem interval_abs_upper : forall a, lo a <= hi a -> 0 <= lo a + hi a ->
  (forall x, inside x a -> Rabs x <= abs_upper a) /\ exists x, inside x a /\ Rabs x = abs_upper a.
Proof.
  intros a Ha H0. unfold abs_upper, inside. dec_all; [|lra].
  split; [intros x Hx; unfold Rabs; destruct (Rcase_abs x); lra|].
  exists (hi a). split; [lra|]. apply Rabs_right. lra.
Qed.
Print Assumptions interval_abs_upper.

(** ... and negative, so not an absolute value at all, in every other case. *)
Theorem interval_abs_upper_refuted : forall a, lo a <= hi a -> lo a + hi a < 0 -> abs_upper a < 0.
Proof. intros a Ha H0. unfold abs_upper. dec_all; lra. Qed.
Print Assumptions interval_abs_upper_refuted.

(** Operators with their own left operand as argument: a -= a loses part of the
    difference whenever the interval is negative, a *= a gives an interval whose
    ends are reversed. *)
Theorem interval_self_refuted :
  (forall a, lo a < hi a -> hi a < 0 -> exists x y, inside x a /\ inside y a /\ ~ inside (x - y) (isub_self a)) /\
  (forall a, lo a <= hi a -> hi a < 0 -> hi (imul_self a) < lo (imul_self a)).
Proof.
  split.
  - intros a Ha H0. exists (hi a), (lo a). unfold inside, isub_self. cbn. split; [lra|]. split; [lra|]. lra.
  - intros a Ha H0. unfold imul_self. dec_all; nra.
Qed.
Print Assumptions interval_self_refuted.

(** Division by an interval with zero inside gives an interval with reversed
    ends, which contains nothing. *)
Theorem interval_div_zero_refuted : forall a b, 0 < lo a <= hi a -> lo b < 0 < hi b ->
  forall z, ~ inside z (idiv a b).
Proof.
  intros a b Ha Hb z. unfold idiv, inside, imul. cbn.
  assert (0 < 1 / hi b) by (apply Rdiv_lt_0_compat; lra).
  assert (1 / lo b < 0) by (unfold Rdiv; rewrite Rmult_1_l; apply Rinv_lt_0_compat; lra).
  destruct (Rle_dec 0 (1 / hi b)); [|lra]. destruct (Rle_dec 0 (lo a)); [|lra]. cbn. nra.
Qed.
Print Assumptions interval_div_zero_refuted.

(** ** C53: interval vectors and matrices *)

Theorem ivector_ops : forall u v x y, insidev x u -> insidev y v ->
  insidev (tmap2 Rplus x y) (tmap2 iadd u v) /\ insidev (tmap2 Rminus x y) (tmap2 isub u v) /\
  inside (rdot x y) (ivdot u v) /\ inside (rdot x y) (ivdot_r u y) /\
  insidev (rcross x y) (ivcross u v) /\ insidev (rcross x y) (ivcross_r u y).
Proof.
  intros u v x y Hu Hv. split; [|split; [|split; [|split; [|split]]]].
  - apply (tall2_tmap2 _ _ _ _ _ _ inside inside inside); auto using iadd_in.
  - apply (tall2_tmap2 _ _ _ _ _ _ inside inside inside); auto using isub_in.
  - apply ivdot_in; assumption.
  - apply ivdot_r_in; assumption.
  - destruct Hu as (?&?&?), Hv as (?&?&?). unfold insidev, tall2, ivcross, rcross. cbn. auto using isub_in, imul_in.
  - destruct Hu as (?&?&?), Hv as (?&?&?). unfold insidev, tall2, ivcross_r, rcross. cbn. auto using isub_in, iscale_in.
Qed.
Print Assumptions ivector_ops.

(** bound encloses both operands, overlap and contain are the set relations. *)
Theorem ivector_sets : forall u v x, insidev x u \/ insidev x v -> insidev x (ivbound u v).
Proof.
  intros u v x H. unfold insidev, tall2, ivbound, tmap2, ibound, inside in *. cbn.
  destruct H as [(?&?&?)|(?&?&?)]; repeat split; dec_all; lra.
Qed.
Print Assumptions ivector_sets.

Theorem ivector_overlap : forall u v, insidev (tmap lo u) u -> insidev (tmap lo v) v ->
  (ivoverlap u v = true <-> exists x, insidev x u /\ insidev x v).
Proof.
  intros u v (U0 & U1 & U2) (V0 & V1 & V2). unfold ivoverlap, insidev, tall2, inside in *. cbn in *. split.
  - dec_all; try discriminate. intros _.
    exists (T3 (Rmax (lo (e0 u)) (lo (e0 v))) (Rmax (lo (e1 u)) (lo (e1 v))) (Rmax (lo (e2 u)) (lo (e2 v)))). cbn.
    unfold Rmax. repeat split; dec_all; lra.
  - intros (x & (?&?&?) & (?&?&?)). dec_all; try reflexivity; lra.
Qed.
Print Assumptions ivector_overlap.

Theorem ivector_contain : forall u v, insidev (tmap lo v) v ->
  (ivcontain u v = true <-> forall x, insidev x v -> insidev x u).
Proof.
  intros u v (V0 & V1 & V2). unfold ivcontain, insidev, tall2, inside in *. cbn in *. split.
  - dec_all; try discriminate. intros _ x (?&?&?). repeat split; lra.
  - intros H. assert (H1 := H (tmap lo v)). assert (H2 := H (tmap hi v)). cbn in H1, H2.
    destruct H1 as (?&?&?); [lra|]. destruct H2 as (?&?&?); [lra|].
    dec_all; try reflexivity; lra.
Qed.
Print Assumptions ivector_contain.

Theorem imatrix_ops : forall m n x y u v, insidem x m -> insidem y n -> insidev v u ->
  insidev (rmv x v) (imv_r m v) /\ insidev (rmv x v) (imv m u) /\
  insidem (rmm x y) (imm_r m y) /\ insidem (rmm x y) (imm m n) /\
  insidem (tmap2 (tmap2 Rplus) x y) (imadd m n) /\ insidem (tmap2 (tmap2 Rminus) x y) (imsub m n).
Proof.
  intros m n x y u v Hm Hn Hu. split; [|split; [|split; [|split; [|split]]]].
  - apply (tall2_tmap _ _ _ _ insidev inside); [|exact Hm]. intros. apply ivdot_r_in. assumption.
  - apply (tall2_tmap _ _ _ _ insidev inside); [|exact Hm]. intros. apply ivdot_in; assumption.
  - apply (tall2_tmap _ _ _ _ insidev insidev); [|exact Hm]. intros a b Hab.
    destruct (tcols y) as [y0 y1 y2]. unfold insidev, tall2, tmap. cbn. auto using ivdot_r_in.
  - apply (tall2_tmap _ _ _ _ insidev insidev); [|exact Hm]. intros a b Hab.
    apply (tall2_tmap _ _ _ _ insidev inside); [|apply tall2_cols; exact Hn]. intros. apply ivdot_in; assumption.
  - apply (tall2_tmap2 _ _ _ _ _ _ insidev insidev insidev); auto. intros.
    apply (tall2_tmap2 _ _ _ _ _ _ inside inside inside); auto using iadd_in.
  - apply (tall2_tmap2 _ _ _ _ _ _ insidev insidev insidev); auto. intros.
    apply (tall2_tmap2 _ _ _ _ _ _ inside inside inside); auto using isub_in.
Qed.
Print Assumptions imatrix_ops.

(** The member rotationConstrain keeps every matrix with entries in [-1,1]. *)
Theorem imatrix_constrain : forall m x, insidem x m ->
  (forall r, In r (e0 x :: e1 x :: e2 x :: nil) -> forall c, In c (e0 r :: e1 r :: e2 r :: nil) -> -1 <= c <= 1) ->
  insidem x (imconstrain m).
Proof.
  intros m x Hm H. destruct Hm as ((?&?&?)&(?&?&?)&(?&?&?)).
  assert (K : forall i c, inside c i -> -1 <= c <= 1 -> inside c (Iv (clamp (lo i)) (clamp (hi i)))).
  { intros i c. unfold inside, clamp. cbn. dec_all; lra. }
  unfold insidem, insidev, tall2, imconstrain, tmap. cbn.
  repeat split; apply K; try assumption; (eapply H; [|cbn; eauto]; cbn; tauto).
Qed.
Print Assumptions imatrix_constrain.

Example imatrix_case : insidem (T3 (T3 0 (-1) 0) (T3 1 0 0) (T3 0 0 1))
    (let i := Iv (-2) 2 in T3 (T3 i i i) (T3 i i i) (T3 i i i)).
Proof. unfold insidem, insidev, tall2, inside. cbn. lra. Qed.

(** The free function rotationConstrain returns zero for every interval entry
    already inside [-1,1], getLow returns the upper ends. *)
Theorem imatrix_constrain_free_refuted : forall c, 0 < c <= 1 ->
  let i := ipoint c in
  let m := T3 (T3 i i i) (T3 i i i) (T3 i i i) in
  let z := Iv 0 0 in
  imconstrain_free m = T3 (T3 z z z) (T3 z z z) (T3 z z z).
Proof.
  intros c Hc. cbn. unfold imconstrain_free, tmap, ipoint. cbn.
  replace (clamp0 c) with 0; [reflexivity|]. unfold clamp0. dec_all; lra.
Qed.
Print Assumptions imatrix_constrain_free_refuted.

Theorem imatrix_low_refuted : forall m, imlow m = tmap (tmap hi) m /\
  (lo (e0 (e0 m)) < hi (e0 (e0 m)) -> e0 (e0 (imlow m)) <> lo (e0 (e0 m))).
Proof. intros m. split; [reflexivity|]. cbn. lra. Qed.
Print Assumptions imatrix_low_refuted.
