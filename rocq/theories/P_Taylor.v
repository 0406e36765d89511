(** * Properties C37, C38, C39 and C54: Taylor models *)

From Coq Require Import Reals Lra List Bool.
From Coquelicot Require Import Coquelicot.
From Verif Require Import Interval Taylor.
Open Scope R_scope.

(** ** C37: arithmetic *)

(** The powers of a time interval enclose the powers of its points when it does
    not begin before zero... *)
Theorem time_interval_powers : forall l r t, 0 <= l -> l <= t <= r ->
  inside t (T1 (set_time l r)) /\
  inside (t ^ 2) (T2 (set_time l r)) /\ inside (t ^ 3) (T3' (set_time l r)) /\ inside (t ^ 4) (T4 (set_time l r)) /\
  inside (t ^ 5) (T5 (set_time l r)) /\ inside (t ^ 6) (T6 (set_time l r)).
Proof. intros l r t Hl Ht. split; [exact Ht|]. apply set_time_good; assumption. Qed.
Print Assumptions time_interval_powers.

(** ... and never when zero is strictly inside. *)
Theorem time_interval_negative_refuted : forall l r, l < 0 < r -> ~ inside (0 ^ 2) (T2 (set_time l r)).
Proof. intros l r H. unfold set_time, inside. cbn. nra. Qed.
Print Assumptions time_interval_negative_refuted.

(** Sum, difference, negation and scalar operations enclose over any time
    interval, the product over one that does not begin before zero. *)
Theorem taylor_arithmetic : forall T m n f g d, models T m f -> models T n g ->
  models T (tadd m n) (fun t => f t + g t) /\ models T (tsub m n) (fun t => f t - g t) /\
  models T (topp m) (fun t => - f t) /\ models T (tscale m d) (fun t => f t * d) /\
  models T (tadd_r m d) (fun t => f t + d) /\ models T (tsub_r m d) (fun t => f t - d) /\
  models T (trsub d m) (fun t => d - f t).
Proof.
  intros T m n f g d Hf Hg. split; [|split; [|split; [|split; [|split; [|split]]]]].
  - apply tadd_models; assumption.
  - apply tsub_models; assumption.
  - apply topp_models; assumption.
  - apply tscale_models; assumption.
  - apply tadd_r_models; assumption.
  - apply tsub_r_models; assumption.
  - apply (models_ext T (trsub d m) (fun t => - f t + d)); [intros; ring|]. apply tadd_r_models, topp_models, Hf.
Qed.
Print Assumptions taylor_arithmetic.

Theorem taylor_product : forall l r m n f g, 0 <= l -> models (set_time l r) m f -> models (set_time l r) n g ->
  models (set_time l r) (tmul (set_time l r) m n) (fun t => f t * g t).
Proof. intros l r m n f g Hl. apply tmul_models. apply set_time_good. exact Hl. Qed.
Print Assumptions taylor_product.

Example taylor_product_case :
  let T := set_time 0 1 in
  let m := TM 1 2 0 1 (Iv (-1) 1) in
  models T m (fun t => 1 + 2 * t + t ^ 3) /\ models T (tmul T m m) (fun t => (1 + 2 * t + t ^ 3) * (1 + 2 * t + t ^ 3)).
Proof.
  assert (H : models (set_time 0 1) (TM 1 2 0 1 (Iv (-1) 1)) (fun t => 1 + 2 * t + t ^ 3)).
  { intros t Ht. unfold tpoly, poly, inside. cbn. lra. }
  split; [exact H|]. apply tmul_models; [apply set_time_good; lra|exact H|exact H].
Qed.

(** Over [-1, 1] the product of t^2 and t^2 is not enclosed. *)
Theorem taylor_product_negative_refuted : exists m f,
  models (set_time (-1) 1) m f /\ ~ models (set_time (-1) 1) (tmul (set_time (-1) 1) m m) (fun t => f t * f t).
Proof.
  exists (TM 0 0 1 0 (Iv 0 0)), (fun t => t ^ 2). split.
  - intros t Ht. unfold tpoly, poly, inside. cbn. lra.
  - intros H. specialize (H 0). unfold inside in H at 1. cbn in H. specialize (H ltac:(lra)).
    unfold inside, tmul, tpoly, poly, trange, imul, iscale, iadd, ipoint in H. cbn in H.
    revert H. dec_all; lra.
Qed.
Print Assumptions taylor_product_negative_refuted.

(** getBound(t) and getBound(t0, t1), for 0 <= t0, enclose the values. *)
Theorem taylor_bound : forall T m f, models T m f ->
  (forall t, inside t (T1 T) -> inside (f t) (bound_at m t)) /\
  (forall t0 t1 t, 0 <= t0 -> inside t (T1 T) -> t0 <= t <= t1 -> inside (f t) (bound_on m t0 t1)).
Proof.
  intros T m f H. split.
  - intros t Ht. apply (inside_eq (tpoly m t + (f t - tpoly m t))); [ring|]. apply iadd_in; [apply ipoint_in|apply H, Ht].
  - intros t0 t1 t H0 Ht H01.
    apply (inside_eq (k0 m + t * k1 m + t ^ 2 * k2 m + t ^ 3 * k3 m + (f t - tpoly m t))).
    { unfold tpoly, poly. ring. }
    unfold bound_on. repeat (apply iadd_in); try (apply iscale_in); try (apply H, Ht); try apply ipoint_in; unfold inside; cbn [lo hi pow]; try lra.
    + nra.
    + assert (0 <= t0 * t0 <= t * t) by nra. assert (t * t <= t1 * t1) by nra. nra.
Qed.
Print Assumptions taylor_bound.

Theorem taylor_bound_negative_refuted : let m := TM 0 0 1 0 (Iv 0 0) in
  models (set_time (-1) 1) m (fun t => t ^ 2) /\ ~ inside (0 ^ 2) (bound_on m (-1) 1).
Proof.
  split.
  - intros t Ht. unfold tpoly, poly, inside. cbn. lra.
  - unfold bound_on, inside, iscale, iadd, ipoint. cbn. dec_all; lra.
Qed.
Print Assumptions taylor_bound_negative_refuted.

(** getBound() uses the first-order coefficient where the constant belongs: it
    encloses the values when that is not smaller... *)
Theorem taylor_bound_all : forall l r m f, 0 <= l -> models (set_time l r) m f -> k0 m <= k1 m ->
  forall t, l <= t <= r -> inside (f t) (bound_all (set_time l r) m).
Proof.
  intros l r m f Hl H Hk t Ht. destruct (set_time_good l r Hl t Ht) as (H2 & H3 & _).
  apply (inside_eq (k0 m + (f t - tpoly m t) + t * k1 m + t ^ 2 * k2 m + t ^ 3 * k3 m)).
  { unfold tpoly, poly. ring. }
  unfold bound_all. repeat (apply iadd_in); try (apply iscale_in); try assumption.
  specialize (H t Ht). unfold inside in *. cbn. lra.
Qed.
Print Assumptions taylor_bound_all.

(** ... and misses every value of a positive constant. *)
Theorem taylor_bound_all_refuted : forall T c, 0 < c ->
  models T (tconst c) (fun _ => c) /\ ~ inside c (bound_all T (tconst c)).
Proof.
  intros T c Hc. split; [apply tconst_models|]. unfold bound_all, inside, iscale, iadd, tconst. cbn. dec_all; lra.
Qed.
Print Assumptions taylor_bound_all_refuted.

(** m -= m on the model itself: the remainder is subtracted from itself in
    place. *)
Theorem taylor_self_refuted : let T := set_time 0 1 in let r := Iv (-2) (-1) in
  models T (TM 0 0 0 0 r) (fun _ => -1) /\ models T (TM 0 0 0 0 r) (fun _ => -2) /\
  ~ models T (TM 0 0 0 0 (isub_self r)) (fun _ => -1 - -2).
Proof.
  unfold models, inside, tpoly, poly, isub_self. cbn. repeat split; intros; try lra.
  intros H. specialize (H 0). lra.
Qed.
Print Assumptions taylor_self_refuted.

(** ** C38: getTightBound *)

(** It encloses every function modelled over the part of [t0, t1] inside the time
    interval, and when the remainder is zero both ends are values. *)
Theorem taylor_tight : forall T m f t0 t1, models T m f ->
  let s0 := Rmax t0 (lo (T1 T)) in
  let s1 := Rmin t1 (hi (T1 T)) in
  s0 <= s1 ->
  (forall t, s0 <= t <= s1 -> inside (f t) (tight_on T m t0 t1)) /\
  (rem m = Iv 0 0 -> (exists s, s0 <= s <= s1 /\ lo (tight_on T m t0 t1) = f s) /\ (exists s, s0 <= s <= s1 /\ hi (tight_on T m t0 t1) = f s)).
Proof.
  intros T m f t0 t1 H s0 s1 H01.
  assert (E0 : s0 = if Rlt_dec t0 (lo (T1 T)) then lo (T1 T) else t0) by (unfold s0, Rmax; dec_all; lra).
  assert (E1 : s1 = if Rlt_dec (hi (T1 T)) t1 then hi (T1 T) else t1) by (unfold s1, Rmin; dec_all; lra).
  destruct (tight_spec T m t0 t1) as (i & E & Hi & (sl & Hsl & El) & (sh & Hsh & Eh)).
  { rewrite <- E0, <- E1. exact H01. }
  rewrite <- E0, <- E1 in *.
  assert (Hin : forall t, s0 <= t <= s1 -> inside t (T1 T)).
  { intros t Ht. unfold inside. pose proof (Rmax_r t0 (lo (T1 T))). pose proof (Rmin_r t1 (hi (T1 T))). unfold s0, s1 in Ht. lra. }
  rewrite E. split.
  - intros t Ht. apply (inside_eq (tpoly m t + (f t - tpoly m t))); [ring|]. apply iadd_in; auto.
  - intros Er.
    assert (Hf : forall t, s0 <= t <= s1 -> f t = tpoly m t).
    { intros t Ht. pose proof (H t (Hin t Ht)) as Hr. rewrite Er in Hr. unfold inside in Hr. cbn in Hr. lra. }
    unfold iadd. rewrite Er. cbn. split; [exists sl|exists sh]; rewrite Hf by assumption; split; try assumption; lra.
Qed.
Print Assumptions taylor_tight.

Theorem taylor_tight_all : forall T m f, models T m f -> forall t, inside t (T1 T) -> inside (f t) (tight_all T m).
Proof.
  intros T m f H t Ht. unfold tight_all. destruct (taylor_tight T m f (lo (T1 T)) (hi (T1 T)) H) as [A _].
  - unfold inside, Rmax, Rmin in *. dec_all; lra.
  - apply A. unfold inside, Rmax, Rmin in *. dec_all; lra.
Qed.
Print Assumptions taylor_tight_all.

Example taylor_tight_case : tight_all (set_time 0 2) (TM 0 (-2) 1 0 (Iv 0 0)) = Iv (-1) 0.
Proof.
  unfold tight_all, tight_on, set_time, iadd. cbn [T1 lo hi k0 k1 k2 k3 rem].
  destruct (Rlt_dec 0 0); [lra|]. destruct (Rlt_dec 2 2); [lra|]. destruct (Req_EM_T 0 0); [|lra]. destruct (Req_EM_T 1 0); [lra|].
  replace (- (-2) / (2 * 1)) with 1 by field.
  destruct (Rle_dec 1 2); [|lra]. destruct (Rle_dec 0 1); [|lra].
  destruct (Rlt_dec (0 + 2 * (-2 + 2 * 1)) (0 + 0 * (-2 + 0 * 1))); [lra|]. dec_all; f_equal; lra.
Qed.

(** ** C39: models of cosine, sine and linear functions *)

Theorem taylor_linear : forall T p v, models T (gen_linear p v) (fun t => p + v * t).
Proof. intros T p v t Ht. unfold tpoly, poly, gen_linear, inside. cbn. lra. Qed.
Print Assumptions taylor_linear.

(** The cosine model encloses cos(wt+q0) when the cosine keeps its sign over the
    time interval (by 1e-15), or for w = 0. *)
Theorem taylor_cos : forall T w q0, lo (T1 T) <= hi (T1 T) ->
  w = 0 \/ (forall t, inside t (T1 T) -> eps15 < cos (w * t + q0)) \/ (forall t, inside t (T1 T) -> cos (w * t + q0) <= - eps15) ->
  models T (gen_cos T w q0) (fun t => cos (w * t + q0)).
Proof. exact gen_cos_models. Qed.
Print Assumptions taylor_cos.

(** The sine model likewise; for w = 0 it keeps the remainder it had. *)
Theorem taylor_sin : forall T w q0 old, lo (T1 T) <= hi (T1 T) ->
  (w = 0 /\ inside 0 old) \/
  (w <> 0 /\ ((forall t, inside t (T1 T) -> eps15 < sin (w * t + q0)) \/ (forall t, inside t (T1 T) -> sin (w * t + q0) <= - eps15))) ->
  models T (gen_sin T w q0 old) (fun t => sin (w * t + q0)).
Proof.
  intros T w q0 old HT [[-> H0]|[Hw Hs]].
  - intros t Ht. unfold gen_sin. rewrite expansion_poly. unfold expansion, taylor3. cbn [rem].
    destruct (Req_EM_T 0 0); [|congruence].
    apply (inside_eq 0); [|exact H0]. rewrite !Rmult_0_l. field.
  - rewrite gen_sin_cos by exact Hw.
    apply (models_ext T _ (fun t => cos (w * t + (q0 - PI / 2)))).
    { intros t. rewrite (sin_as_cos (w * t + q0)). f_equal. ring. }
    apply gen_cos_models; [exact HT|]. right. unfold one_sign.
    assert (E : forall t, cos (w * t + (q0 - PI / 2)) = sin (w * t + q0)) by (intros t; rewrite sin_as_cos; f_equal; ring).
    destruct Hs as [Hs|Hs]; [left|right]; intros t Ht; rewrite E; auto.
Qed.
Print Assumptions taylor_sin.

(** The bounds computed for the fourth derivative are correct without condition;
    it is their product with [0, m^4] that is not. *)
Theorem taylor_cos_fourth : forall T w q0 t, w <> 0 -> inside t (T1 T) -> inside (cos (w * t + q0)) (cos_bounds T w q0).
Proof. exact cos_bounds_in. Qed.
Print Assumptions taylor_cos_fourth.

(** Over the time interval [0, 1] and with phase 0 -- the only use in the
    library, by the screw and the interpolated motion -- the model of the sine
    never encloses it. *)
Theorem taylor_sin_refuted : forall w old, 0 < w <= PI ->
  ~ models (set_time 0 1) (gen_sin (set_time 0 1) w 0 old) (fun t => sin (w * t + 0)).
Proof.
  intros w old Hw H. rewrite gen_sin_cos in H by lra. specialize (H 1). cbn beta in H.
  assert (I1 : inside 1 (T1 (set_time 0 1))) by (unfold inside; cbn; lra). specialize (H I1).
  unfold gen_cos in H. rewrite expansion_poly in H. unfold expansion in H. cbn [rem] in H.
  assert (Ea : icenter (T1 (set_time 0 1)) = / 2) by (unfold icenter; cbn; field). rewrite Ea in H.
  replace (0 - PI / 2) with (- (PI / 2)) in H by ring.
  rewrite (sin_as_cos (w * 1 + 0)) in H. replace (w * 1 + 0 - PI / 2) with (w * 1 + - (PI / 2)) in H by ring.
  destruct (cos_taylor_right w (- (PI / 2)) (/ 2) 1 ltac:(lra)) as (z & Hz & E). rewrite E in H.
  replace (- (w * w) * (- w * sin (w * / 2 + - (PI / 2)))) with (w * w * w * sin (w * / 2 + - (PI / 2))) in H by ring.
  assert (Hpos : 0 < cos (w * z + - (PI / 2))).
  { replace (w * z + - (PI / 2)) with (w * z - PI / 2) by ring. rewrite <- sin_as_cos. apply sin_gt_0; nra. }
  assert (Hhi : hi (rem_of (iscale (cos_bounds (set_time 0 1) w (- (PI / 2))) (w * w * (w * w))) (mid4 (set_time 0 1))) <= 0).
  { assert (Hlo : lo (cos_bounds (set_time 0 1) w (- (PI / 2))) < 0).
    { unfold cos_bounds. destruct (Req_EM_T w 0); [lra|]. unfold pos. destruct (Rlt_dec 0 w); [|lra]. cbn [T1 set_time lo hi].
      unfold fourth_bounds. replace (0 * w + - (PI / 2)) with (- (PI / 2)) by ring. rewrite cos_neg, cos_PI2.
      pose proof eps15_pos. destruct (Z.ltb 1 (ceil ((1 * w + - (PI / 2)) / (2 * PI) - / 2) - _)); [cbn; lra|].
      destruct (Z.ltb 1 _); dec_all; lra. }
    assert (0 < w * w * (w * w)) by (assert (0 < w * w) by nra; nra).
    unfold rem_of, iscale. destruct (Rle_dec 0 (w * w * (w * w))); [|lra]. cbn [lo hi].
    destruct (Rlt_dec 0 (lo (cos_bounds (set_time 0 1) w (- (PI / 2))) * (w * w * (w * w)))); [nra|].
    destruct (Rlt_dec (lo (cos_bounds (set_time 0 1) w (- (PI / 2))) * (w * w * (w * w))) 0); [cbn; lra|nra]. }
  destruct H as [_ H].
  assert (0 < w ^ 4 * cos (w * z + - (PI / 2)) * (1 - / 2) ^ 4 / 24).
  { assert (0 < w ^ 4) by (apply pow_lt; lra). assert (0 < (1 - / 2) ^ 4) by (apply pow_lt; lra).
    apply Rdiv_lt_0_compat; [|lra]. apply Rmult_lt_0_compat; [apply Rmult_lt_0_compat|]; assumption. }
  lra.
Qed.
Print Assumptions taylor_sin_refuted.

(** A model reused for w = 0 keeps a remainder that has nothing to do with it. *)
Theorem taylor_sin_zero_refuted : forall T q0 old t, inside t (T1 T) -> ~ inside 0 old ->
  ~ models T (gen_sin T 0 q0 old) (fun t => sin (0 * t + q0)).
Proof.
  intros T q0 old t Ht H0 H. apply H0. specialize (H t Ht). unfold gen_sin in H. rewrite expansion_poly in H.
  unfold expansion, taylor3 in H. cbn [rem] in H. destruct (Req_EM_T 0 0); [|congruence].
  revert H. apply inside_eq. rewrite !Rmult_0_l. field.
Qed.
Print Assumptions taylor_sin_zero_refuted.

(** ** C54: vectors and matrices of Taylor models *)

Theorem tvector_ops : forall T u v f g (x : tri R), good_time T -> modelsv T u f -> modelsv T v g ->
  models T (tvdot T u v) (fun t => rdot (f t) (g t)) /\ models T (tvdot_r u x) (fun t => rdot (f t) x) /\
  modelsv T (tvcross T u v) (fun t => rcross (f t) (g t)) /\
  modelsv T (tvadd u v) (fun t => tmap2 Rplus (f t) (g t)) /\ modelsv T (tvsub u v) (fun t => tmap2 Rminus (f t) (g t)) /\
  modelsv T (trvsub x u) (fun t => tmap2 Rminus x (f t)).
Proof.
  intros T u v f g x HT Hu Hv. split; [apply tvdot_models; assumption|]. split; [apply tvdot_r_models; assumption|].
  destruct Hu as (?&?&?), Hv as (?&?&?).
  split; [|split; [|split]].
  - split; [|split]; apply (tsub_models T); apply (tmul_models T _ _ _ _ HT); assumption.
  - split; [|split]; apply (tadd_models T); assumption.
  - split; [|split]; apply (tsub_models T); assumption.
  - assert (K : forall m h c, models T m h -> models T (tadd_r (topp m) c) (fun t => c - h t)).
    { intros m h c Hm. apply (models_ext T _ (fun t => - h t + c)); [intros; ring|]. apply tadd_r_models, topp_models, Hm. }
    split; [|split]; apply K; assumption.
Qed.
Print Assumptions tvector_ops.

Theorem tvector_tight : forall T u f, modelsv T u f -> forall t, inside t (T1 T) -> insidev (f t) (tvtight T u).
Proof. intros T u f (H&H0&H1) t Ht. unfold insidev, tall2, tvtight, tmap. cbn. exact (conj (taylor_tight_all T _ _ H t Ht) (conj (taylor_tight_all T _ _ H0 t Ht) (taylor_tight_all T _ _ H1 t Ht))). Qed.
Print Assumptions tvector_tight.

Theorem tmatrix_ops : forall T m n f g (y : tri (tri R)) u h (x : tri R), good_time T -> modelsm T m f -> modelsm T n g -> modelsv T u h ->
  modelsm T (tmm_r m y) (fun t => rmm (f t) y) /\ modelsm T (tmm T m n) (fun t => rmm (f t) (g t)) /\
  modelsv T (tmv_r m x) (fun t => rmv (f t) x) /\ modelsv T (tmv T m u) (fun t => rmv (f t) (h t)) /\
  modelsm T (tmadd m n) (fun t => tmap2 (tmap2 Rplus) (f t) (g t)) /\ modelsm T (tmsub m n) (fun t => tmap2 (tmap2 Rminus) (f t) (g t)) /\
  modelsm T (tmadd_r m y) (fun t => tmap2 (tmap2 Rplus) (f t) y).
Proof.
  intros T m n f g y u h x HT (M0 & M1 & M2) (N0 & N1 & N2) Hu.
  assert (C : modelsm T (tcols n) (fun t => tcols (g t))).
  { destruct N0 as (?&?&?), N1 as (?&?&?), N2 as (?&?&?). unfold modelsm, modelsv. cbn. tauto. }
  destruct C as (C0 & C1 & C2).
  split; [|split; [|split; [|split; [|split; [|split]]]]].
  - split; [|split]; (split; [|split]); apply tvdot_r_models; assumption.
  - split; [|split]; (split; [|split]); apply (tvdot_models T _ _ _ _ HT); assumption.
  - split; [|split]; apply tvdot_r_models; assumption.
  - split; [|split]; apply (tvdot_models T _ _ _ _ HT); assumption.
  - destruct M0 as (?&?&?), M1 as (?&?&?), M2 as (?&?&?), N0 as (?&?&?), N1 as (?&?&?), N2 as (?&?&?).
    split; [|split]; (split; [|split]); apply (tadd_models T); assumption.
  - destruct M0 as (?&?&?), M1 as (?&?&?), M2 as (?&?&?), N0 as (?&?&?), N1 as (?&?&?), N2 as (?&?&?).
    split; [|split]; (split; [|split]); apply (tsub_models T); assumption.
  - destruct M0 as (?&?&?), M1 as (?&?&?), M2 as (?&?&?).
    split; [|split]; (split; [|split]); apply (tadd_r_models T); assumption.
Qed.
Print Assumptions tmatrix_ops.

(** Matrix3 * TaylorModel is not the product: the second column of the result is
    the third of the matrix and the third is zero. *)
Theorem matrix_taylor_refuted : forall m a,
  e1 (tcols (rm_tm m a)) = tmap (tscale a) (e2 (tcols m)) /\ e2 (tcols (rm_tm m a)) = T3 (tconst 0) (tconst 0) (tconst 0).
Proof. intros m a. split; reflexivity. Qed.
Print Assumptions matrix_taylor_refuted.

(** It encloses the product with a function that is not identically zero only if
    the second and third columns of the matrix agree and the third is zero. *)
Theorem matrix_taylor_needs : forall T m a f t, inside t (T1 T) -> f t <> 0 ->
  rem a = Iv 0 0 -> models T a f ->
  modelsm T (rm_tm m a) (fun t => tmap (tmap (fun x => f t * x)) m) ->
  e2 (tcols m) = T3 0 0 0 /\ e1 (tcols m) = T3 0 0 0.
Proof.
  intros T m a f t Ht Hf Hr Ha ((_ & A1 & A2) & (_ & B1 & B2) & (_ & C1 & C2)).
  assert (Ea : f t = tpoly a t) by (specialize (Ha t Ht); rewrite Hr in Ha; unfold inside in Ha; cbn in Ha; lra).
  assert (Z : forall x, models T (tconst 0) (fun t => f t * x) -> x = 0).
  { intros x H. specialize (H t Ht). unfold inside, tconst, tpoly, poly in H. cbn in H.
    assert (f t * x = 0) by lra. destruct (Rmult_integral (f t) x); [assumption|contradiction|assumption]. }
  assert (W : forall x y, models T (tscale a y) (fun t => f t * x) -> x = y).
  { intros x y H. specialize (H t Ht). unfold inside, tscale, tpoly, poly, iscale in H. cbn in H. rewrite Hr in H.
    assert (E : f t * x = f t * y).
    { rewrite Ea in *. unfold tpoly, poly in *. revert H. dec_all; lra. }
    apply Rmult_eq_reg_l in E; assumption. }
  apply Z in A2, B2, C2. apply W in A1, B1, C1.
  destruct m as [[? ? ?] [? ? ?] [? ? ?]]. cbn in *. subst. auto.
Qed.
Print Assumptions matrix_taylor_needs.

(** rotationConstrain keeps an entry of a rotation enclosed if the remainder
    already lies in [-1, 1] or covers it... *)
Theorem taylor_constrain : forall T m f, models T m f -> (forall t, inside t (T1 T) -> -1 <= f t <= 1) ->
  (-1 <= lo (rem m) /\ hi (rem m) <= 1 /\ ~ (lo (rem m) = -1 /\ hi (rem m) = 1)) \/ (lo (rem m) <= -1 /\ 1 <= hi (rem m)) ->
  models T (tconstrain1 m) f.
Proof.
  intros T [c0 c1 c2 c3 [r0 r1]] f H Hf Hr t Ht. specialize (H t Ht). specialize (Hf t Ht).
  unfold models, inside, tpoly, tconstrain1, clamp in *. cbn [k0 k1 k2 k3 rem lo hi] in *.
  dec_all; cbn [k0 k1 k2 k3 rem lo hi]; unfold poly in *; try lra.
Qed.
Print Assumptions taylor_constrain.

(** ... but clamps the remainder of a model whose polynomial is not zero. *)
Theorem taylor_constrain_refuted : let T := set_time 0 1 in let m := TM (-1) 0 0 0 (Iv 0 2) in
  models T m (fun t => 1) /\ ~ models T (tconstrain1 m) (fun t => 1).
Proof.
  unfold models, inside, tconstrain1, clamp, tpoly. cbn [k0 k1 k2 k3 rem lo hi]. split.
  - intros t Ht. unfold poly. lra.
  - intros H. specialize (H 0). cbn in H. revert H. dec_all; cbn [k0 k1 k2 k3 rem lo hi]; unfold poly; lra.
Qed.
Print Assumptions taylor_constrain_refuted.

(** The free function drops the polynomial and every remainder end inside
    [-1, 1]: it returns the zero model for any exact entry. *)
Theorem taylor_constrain_free_refuted : forall m, rem m = Iv 0 0 -> tconstrain1_free m = tconst 0.
Proof. intros [? ? ? ? r] H. cbn in H. subst r. unfold tconstrain1_free, clamp0, tconst. cbn. dec_all; try lra; reflexivity. Qed.
Print Assumptions taylor_constrain_free_refuted.

Example taylor_cos_case : models (set_time 0 1) (gen_cos (set_time 0 1) 1 0) (fun t => cos (1 * t + 0)).
Proof.
  apply taylor_cos; [cbn; lra|]. right. left. intros t [H0 H1]. cbn in H0, H1. rewrite Rmult_1_l, Rplus_0_r.
  pose proof PI2_3_2 as P.
  assert (He : eps15 < / 2) by (unfold eps15; apply Rinv_lt_contravar; simpl; lra).
  assert (Hc : cos (PI / 3) < cos t) by (apply cos_decreasing_1; lra).
  rewrite cos_PI3 in Hc. lra.
Qed.

Example taylor_constrain_case : models (set_time 0 1) (TM (/ 2) 0 0 0 (Iv (-1) (/ 2))) (fun t => t).
Proof. intros t [H0 H1]. cbn in *. unfold inside, tpoly, poly. cbn. lra. Qed.
