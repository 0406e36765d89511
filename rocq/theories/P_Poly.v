(** Which roots the polynomial solver finds (C51). *)
From Coq Require Import Reals Lra List Psatz.
From Verif Require Import Poly.
Import ListNotations.
Local Open Scope R_scope.

(** [roots_are l f]: the list has every zero of f, exactly once *)
Definition roots_are (l : list R) (f : R -> R) : Prop := NoDup l /\ forall x, In x l <-> f x = 0.

Lemma near0_true : forall th v, near0 th v = true <-> - th < v < th.
Proof. intros. unfold near0. destruct (Rlt_dec v th); [destruct (Rlt_dec (- th) v)|]; split; intros; try discriminate; try reflexivity; lra. Qed.
Lemma near0_false : forall th v, near0 th v = false <-> v <= - th \/ th <= v.
Proof. intros. unfold near0. destruct (Rlt_dec v th); [destruct (Rlt_dec (- th) v)|]; split; intros; try discriminate; try reflexivity; try lra; destruct H; lra. Qed.
Lemma near0_zero : forall th v, 0 < th -> near0 th v = false -> v <> 0.
Proof. intros th v H E Z. apply near0_false in E. destruct E; lra. Qed.
Lemma nodup1 : forall a : R, NoDup [a]. Proof. intros. constructor; [easy|constructor]. Qed.

Theorem linear_roots : forall th a0 a1, 0 < th -> near0 th a1 = false -> roots_are (solve_linear th a0 a1) (fun x => a0 + a1 * x).
Proof.
  intros th a0 a1 Ht E. pose proof (near0_zero _ _ Ht E). unfold solve_linear. rewrite E. split; [apply nodup1|]. intros x. split.
  - intros [<-|[]]. field. assumption.
  - intros Z. left. apply Rmult_eq_reg_l with a1; [|assumption]. replace (a1 * (- a0 / a1)) with (- a0) by (field; assumption). lra.
Qed.
Print Assumptions linear_roots.

(** The discriminant is that of the equation divided by the leading coefficient. *)
Definition quad_D (a0 a1 a2 : R) : R := a1 / (2 * a2) * (a1 / (2 * a2)) - a0 / a2.

Lemma quad_form : forall a0 a1 a2 x, a2 <> 0 -> a0 + a1 * x + a2 * (x * x) = a2 * ((x + a1 / (2 * a2)) * (x + a1 / (2 * a2)) - quad_D a0 a1 a2).
Proof. intros. unfold quad_D. field. assumption. Qed.

Theorem quadric_roots : forall th a0 a1 a2, 0 < th -> near0 th a2 = false -> let D := quad_D a0 a1 a2 in
  D = 0 \/ near0 th D = false -> roots_are (solve_quadric th a0 a1 a2) (fun x => a0 + a1 * x + a2 * (x * x)).
Proof.
  intros th a0 a1 a2 Ht E D HD. pose proof (near0_zero _ _ Ht E) as N. unfold solve_quadric. rewrite E. cbv zeta. change (a1 / (2 * a2) * (a1 / (2 * a2)) - a0 / a2) with D.
  set (p := a1 / (2 * a2)).
  assert (F : forall x, a0 + a1 * x + a2 * (x * x) = 0 <-> (x + p) * (x + p) = D).
  { intros x. rewrite quad_form by exact N. fold p D. split; intros H; [|rewrite H; ring]. apply Rmult_integral in H. destruct H; lra. }
  destruct (near0 th D) eqn:ED.
  - destruct HD as [HD|]; [|discriminate]. split; [apply nodup1|]. intros x. rewrite F, HD. split.
    + intros [<-|[]]. ring.
    + intros Z. left. assert (x + p = 0) by (apply Rmult_integral in Z; tauto). lra.
  - pose proof (near0_zero _ _ Ht ED) as Dn. destruct (Rlt_dec D 0) as [L|L].
    + split; [constructor|]. intros x. rewrite F. split; [easy|]. intros Z. pose proof (Rle_0_sqr (x + p)) as Q. unfold Rsqr in Q. lra.
    + assert (Sq : sqrt D * sqrt D = D) by (apply sqrt_sqrt; lra). assert (Sp : 0 < sqrt D) by (apply sqrt_lt_R0; lra). split.
      * constructor; [|apply nodup1]. intros [H|[]]. lra.
      * intros x. rewrite F. split.
        -- intros [<-|[<-|[]]]; (transitivity (sqrt D * sqrt D); [ring|exact Sq]).
        -- intros Z. assert (H : (x + p - sqrt D) * (x + p + sqrt D) = 0) by (clear - Sq Z; lra). apply Rmult_integral in H. destruct H; [left|right; left]; lra.
Qed.
Print Assumptions quadric_roots.

(** Between the thresholds one value is returned: not a root, but with a small residual; a real
    root, when there is one, is within sqrt th of it. *)
Theorem quadric_near : forall th a0 a1 a2, 0 < th -> near0 th a2 = false -> let D := quad_D a0 a1 a2 in
  near0 th D = true -> D <> 0 -> exists x, solve_quadric th a0 a1 a2 = [x] /\ a0 + a1 * x + a2 * (x * x) = - a2 * D /\ a0 + a1 * x + a2 * (x * x) <> 0 /\
  forall y, a0 + a1 * y + a2 * (y * y) = 0 -> Rabs (y - x) < sqrt th.
Proof.
  intros th a0 a1 a2 Ht E D ED Dn. pose proof (near0_zero _ _ Ht E) as N. unfold solve_quadric. rewrite E. cbv zeta. change (a1 / (2 * a2) * (a1 / (2 * a2)) - a0 / a2) with D. rewrite ED.
  set (p := a1 / (2 * a2)). exists (- p). split; [reflexivity|]. rewrite quad_form by exact N. fold p D. split; [ring|split].
  - replace (a2 * ((- p + p) * (- p + p) - D)) with (- (a2 * D)) by ring. intros Z. assert (Z' : a2 * D = 0) by lra. apply Rmult_integral in Z'. tauto.
  - intros y. rewrite quad_form by exact N. fold p D. intros Z. apply Rmult_integral in Z. destruct Z as [Z|Z]; [tauto|]. apply near0_true in ED.
    rewrite <- sqrt_Rsqr_abs. apply sqrt_lt_1_alt. split; [apply Rle_0_sqr|]. unfold Rsqr. replace (y - - p) with (y + p) by ring. lra.
Qed.
Print Assumptions quadric_near.

(** ** The cubic *)
Definition dep (p q y : R) : R := y * y * y + 3 * p * y + 2 * q.
Lemma cubic_dep : forall a0 a1 a2 a3 x, a3 <> 0 ->
  a0 + a1 * x + a2 * (x * x) + a3 * (x * x * x) = a3 * dep (cub_p a1 a2 a3) (cub_q a0 a1 a2 a3) (x + 1 / 3 * (a2 / a3)).
Proof. intros. unfold dep, cub_p, cub_q. field. assumption. Qed.

Lemma roots_shift : forall th a0 a1 a2 a3, 0 < th -> near0 th a3 = false ->
  (roots_are (solve_cubic th a0 a1 a2 a3) (fun x => a0 + a1 * x + a2 * (x * x) + a3 * (x * x * x)) <->
   roots_are (solve_depressed th (cub_p a1 a2 a3) (cub_q a0 a1 a2 a3)) (dep (cub_p a1 a2 a3) (cub_q a0 a1 a2 a3))).
Proof.
  intros th a0 a1 a2 a3 Ht E. pose proof (near0_zero _ _ Ht E) as N. unfold solve_cubic. rewrite E.
  set (l := solve_depressed th (cub_p a1 a2 a3) (cub_q a0 a1 a2 a3)). set (P := cub_p a1 a2 a3). set (Q := cub_q a0 a1 a2 a3). set (sub := 1 / 3 * (a2 / a3)).
  assert (F : forall x, a0 + a1 * x + a2 * (x * x) + a3 * (x * x * x) = 0 <-> dep P Q (x + sub) = 0).
  { intros x. rewrite cubic_dep by exact N. fold P Q sub. split; intros H; [|rewrite H; ring]. apply Rmult_integral in H. tauto. }
  assert (In' : forall x, In x (map (fun s => s - sub) l) <-> In (x + sub) l).
  { intros x. rewrite in_map_iff. split; [intros (y & <- & I); replace (y - sub + sub) with y by ring; exact I|intros I; exists (x + sub); split; [ring|exact I]]. }
  unfold roots_are. split; intros [Nd R].
  - split; [apply NoDup_map_inv in Nd; exact Nd|]. intros y. replace y with (y - sub + sub) by ring. rewrite <- In', <- F. apply R.
  - split; [|intros x; rewrite F, In'; apply R]. clear - Nd. induction Nd as [|a l' Na _ IH]; cbn; constructor; [|exact IH]. rewrite in_map_iff. intros (y & Ey & Iy). assert (y = a) by lra. subst. contradiction.
Qed.

Lemma dep_factor : forall p q r0 r1 r2, dep p q r0 = 0 -> dep p q r1 = 0 -> dep p q r2 = 0 -> r0 <> r1 -> r0 <> r2 -> r1 <> r2 -> forall x, dep p q x = (x - r0) * (x - r1) * (x - r2).
Proof.
  unfold dep. intros p q r0 r1 r2 E0 E1 E2 N1 N2 N3 x.
  assert (A1 : r0 * r0 + r0 * r1 + r1 * r1 + 3 * p = 0). { apply Rmult_eq_reg_l with (r0 - r1); [|lra]. replace ((r0 - r1) * (r0 * r0 + r0 * r1 + r1 * r1 + 3 * p)) with ((r0 * r0 * r0 + 3 * p * r0 + 2 * q) - (r1 * r1 * r1 + 3 * p * r1 + 2 * q)) by ring. lra. }
  assert (A2 : r0 * r0 + r0 * r2 + r2 * r2 + 3 * p = 0). { apply Rmult_eq_reg_l with (r0 - r2); [|lra]. replace ((r0 - r2) * (r0 * r0 + r0 * r2 + r2 * r2 + 3 * p)) with ((r0 * r0 * r0 + 3 * p * r0 + 2 * q) - (r2 * r2 * r2 + 3 * p * r2 + 2 * q)) by ring. lra. }
  assert (A3 : r0 + r1 + r2 = 0). { apply Rmult_eq_reg_l with (r1 - r2); [|lra]. replace ((r1 - r2) * (r0 + r1 + r2)) with ((r0 * r0 + r0 * r1 + r1 * r1 + 3 * p) - (r0 * r0 + r0 * r2 + r2 * r2 + 3 * p)) by ring. lra. }
  assert (r2 = - r0 - r1) by lra. subst r2. assert (P3 : 3 * p = - (r0 * r0 + r0 * r1 + r1 * r1)) by lra. assert (Q2 : 2 * q = - (r0 * r0 * r0) - 3 * p * r0) by lra. rewrite Q2, P3. ring.
Qed.

Lemma cos3 : forall x, cos (3 * x) = 4 * (cos x * cos x * cos x) - 3 * cos x.
Proof.
  intros x. replace (3 * x) with (2 * x + x) by ring. rewrite cos_plus, cos_2a, sin_2a.
  assert (S : sin x * sin x = 1 - cos x * cos x) by (pose proof (sin2_cos2 x) as H; unfold Rsqr in H; lra).
  replace ((cos x * cos x - sin x * sin x) * cos x - 2 * sin x * cos x * sin x) with (cos x * cos x * cos x - 3 * (sin x * sin x) * cos x) by ring. rewrite S. ring.
Qed.

(** Three real roots: found exactly. *)
Lemma depressed_three : forall th p q, 0 < th -> near0 th (cub_D p q) = false -> cub_D p q < 0 -> roots_are (solve_depressed th p q) (dep p q) /\ length (solve_depressed th p q) = 3%nat.
Proof.
  intros th p q Ht E L. unfold solve_depressed. cbv zeta. rewrite E. destruct (Rlt_dec (cub_D p q) 0); [|lra]. split; [|reflexivity]. unfold cub_D in L.
  assert (Pn : p < 0). { pose proof (Rle_0_sqr q) as Q. unfold Rsqr in Q. destruct (Rlt_dec p 0) as [|G]; [assumption|]. assert (0 <= p * p * p) by (apply Rmult_le_pos; [apply Rmult_le_pos; lra|lra]). lra. }
  set (s := sqrt (- p)). assert (Sp : 0 < s) by (apply sqrt_lt_R0; lra). assert (Ss : s * s = - p) by (apply sqrt_sqrt; lra).
  assert (Cb : sqrt (- (p * p * p)) = s * s * s). { replace (- (p * p * p)) with ((s * s * s) * (s * s * s)) by (replace ((s * s * s) * (s * s * s)) with ((s * s) * (s * s) * (s * s)) by ring; rewrite Ss; ring). apply sqrt_square. apply Rlt_le, Rmult_lt_0_compat; [apply Rmult_lt_0_compat|]; lra. }
  rewrite Cb. set (m := s * s * s). assert (Mp : 0 < m) by (apply Rmult_lt_0_compat; [apply Rmult_lt_0_compat|]; lra). assert (Mm : m * m = - (p * p * p)) by (unfold m; replace ((s * s * s) * (s * s * s)) with ((s * s) * (s * s) * (s * s)) by ring; rewrite Ss; ring).
  set (z := - q / m). assert (Zq : z * m = - q) by (unfold z; field; lra).
  assert (Zb : -1 < z < 1). { assert (Qm : q * q < m * m) by lra. assert (- m < - q < m) by (split; nra). split; apply Rmult_lt_reg_r with m; lra. }
  set (phi := 1 / 3 * acos z).
  assert (C3 : cos (3 * phi) = z). { unfold phi. replace (3 * (1 / 3 * acos z)) with (acos z) by field. apply cos_acos. lra. }
  assert (Root : forall th', cos (3 * th') = z -> dep p q (2 * s * cos th') = 0).
  { intros th' H. rewrite cos3 in H. unfold dep. replace p with (- (s * s)) by lra. replace (2 * q) with (- 2 * (z * m)) by lra. unfold m. rewrite <- H. ring. }
  assert (R0 : dep p q (2 * s * cos phi) = 0) by (apply Root, C3).
  assert (N1 : - (2 * s) * cos (phi + PI / 3) = 2 * s * cos (phi + PI / 3 - PI)) by (rewrite cos_minus, cos_PI, sin_PI; ring).
  assert (N2 : - (2 * s) * cos (phi - PI / 3) = 2 * s * cos (phi - PI / 3 + PI)) by (rewrite neg_cos; ring).
  assert (R1 : dep p q (- (2 * s) * cos (phi + PI / 3)) = 0). { rewrite N1. apply Root. replace (3 * (phi + PI / 3 - PI)) with (3 * phi - 2 * PI) by field. rewrite cos_minus, cos_2PI, sin_2PI. lra. }
  assert (R2 : dep p q (- (2 * s) * cos (phi - PI / 3)) = 0). { rewrite N2. apply Root. replace (3 * (phi - PI / 3 + PI)) with (3 * phi + 2 * PI) by field. rewrite cos_plus, cos_2PI, sin_2PI. lra. }
  assert (Pp : 0 < PI) by apply PI_RGT_0.
  assert (Ph : 0 < phi < PI / 3).
  { pose proof (acos_bound z) as [B1 B2]. assert (acos z <> 0). { intros Z. assert (cos (acos z) = z) by (apply cos_acos; lra). rewrite Z, cos_0 in H. lra. }
    assert (acos z <> PI). { intros Z. assert (cos (acos z) = z) by (apply cos_acos; lra). rewrite Z, cos_PI in H0. lra. } unfold phi. lra. }
  assert (K0 : 1 / 2 < cos phi). { rewrite <- cos_PI3. apply cos_decreasing_1; lra. }
  assert (K1 : - (1 / 2) < cos (phi + PI / 3) < 1 / 2).
  { split; [|rewrite <- cos_PI3; apply cos_decreasing_1; lra]. replace (- (1 / 2)) with (cos (2 * (PI / 3))) by (rewrite cos_2PI3; lra). apply cos_decreasing_1; lra. }
  assert (K2 : 1 / 2 < cos (phi - PI / 3)). { replace (phi - PI / 3) with (- (PI / 3 - phi)) by ring. rewrite cos_neg, <- cos_PI3. apply cos_decreasing_1; lra. }
  set (r0 := 2 * s * cos phi) in *. set (r1 := - (2 * s) * cos (phi + PI / 3)) in *. set (r2 := - (2 * s) * cos (phi - PI / 3)) in *.
  assert (O1 : s < r0) by (unfold r0; nra). assert (O2 : - s < r1 < s) by (unfold r1; split; nra). assert (O3 : r2 < - s) by (unfold r2; nra).
  split.
  - constructor; [intros [H|[H|[]]]; lra|]. constructor; [intros [H|[]]; lra|]. apply nodup1.
  - intros x. split; [intros [<-|[<-|[<-|[]]]]; assumption|]. intros Z.
    rewrite (dep_factor p q r0 r1 r2 R0 R1 R2) in Z by lra. apply Rmult_integral in Z. destruct Z as [Z|Z]; [apply Rmult_integral in Z; destruct Z|]; [left|right; left|right; right; left]; lra.
Qed.

Theorem cubic_three_roots : forall th a0 a1 a2 a3, 0 < th -> near0 th a3 = false -> let D := cub_D (cub_p a1 a2 a3) (cub_q a0 a1 a2 a3) in
  D < 0 -> near0 th D = false -> roots_are (solve_cubic th a0 a1 a2 a3) (fun x => a0 + a1 * x + a2 * (x * x) + a3 * (x * x * x)) /\ length (solve_cubic th a0 a1 a2 a3) = 3%nat.
Proof.
  intros th a0 a1 a2 a3 Ht E D L N. destruct (depressed_three th _ _ Ht N L) as [A B]. split; [apply roots_shift; assumption|]. unfold solve_cubic. rewrite E, map_length. exact B.
Qed.
Print Assumptions cubic_three_roots.

Theorem cubic_triple_root : forall th a0 a1 a2 a3, 0 < th -> near0 th a3 = false -> cub_p a1 a2 a3 = 0 -> cub_q a0 a1 a2 a3 = 0 ->
  roots_are (solve_cubic th a0 a1 a2 a3) (fun x => a0 + a1 * x + a2 * (x * x) + a3 * (x * x * x)).
Proof.
  intros th a0 a1 a2 a3 Ht E P Q. apply roots_shift; [exact Ht|exact E|]. rewrite P, Q. unfold solve_depressed, cub_D.
  assert (Z : near0 th 0 = true) by (apply near0_true; lra). replace (0 * 0 + 0 * 0 * 0) with 0 by ring. cbv zeta. rewrite Z. split; [apply nodup1|]. intros x. unfold dep. split.
  - intros [<-|[]]. ring.
  - intros H. left. assert (H' : x * x * x = 0) by lra. apply Rmult_integral in H'. destruct H' as [H'|]; [apply Rmult_integral in H'; destruct H'|]; lra.
Qed.
Print Assumptions cubic_triple_root.

(** One real root (D > 0), or a simple and a double one (D = 0, q <> 0): the cube root is
    truncated to 1, and the answer is right only by coincidence. *)
Theorem cubic_double_root_iff : forall th a0 a1 a2 a3, 0 < th -> near0 th a3 = false ->
  let p := cub_p a1 a2 a3 in let q := cub_q a0 a1 a2 a3 in cub_D p q = 0 -> near0 th q = false ->
  (roots_are (solve_cubic th a0 a1 a2 a3) (fun x => a0 + a1 * x + a2 * (x * x) + a3 * (x * x * x)) <-> q = -1).
Proof.
  intros th a0 a1 a2 a3 Ht E p q HD Hq. rewrite (roots_shift th a0 a1 a2 a3 Ht E). fold p q. unfold solve_depressed. cbv zeta. rewrite HD.
  assert (Z : near0 th 0 = true) by (apply near0_true; lra). rewrite Z, Hq. pose proof (near0_zero _ _ Ht Hq) as Qn. unfold cbrt. destruct (Req_EM_T (- q) 0) as [Z0|_]; [lra|]. unfold cub_D in HD.
  split.
  - intros [_ R]. assert (H1 : dep p q (2 * 1) = 0) by (apply R; left; reflexivity). assert (H2 : dep p q (- (1)) = 0) by (apply R; right; left; reflexivity). unfold dep in *. lra.
  - intros Hm. rewrite Hm in *. assert (P3 : p * p * p = -1) by lra.
    assert (P1 : p = -1). { assert (F : (p + 1) * (p * p - p + 1) = 0) by lra. apply Rmult_integral in F. destruct F as [F|F]; [lra|]. exfalso. pose proof (Rle_0_sqr (p - 1 / 2)) as Q. unfold Rsqr in Q. lra. }
    split; [constructor; [intros [H|[]]; lra|apply nodup1]|]. intros x. unfold dep. rewrite P1. split.
    + intros [<-|[<-|[]]]; lra.
    + intros F. assert (F' : (x - 2) * ((x + 1) * (x + 1)) = 0) by lra. apply Rmult_integral in F'. destruct F' as [F'|F']; [left; lra|right; left]. apply Rmult_integral in F'. lra.
Qed.
Print Assumptions cubic_double_root_iff.

Lemma unique_root : forall p q y z, 0 < cub_D p q -> dep p q y = 0 -> dep p q z = 0 -> y = z.
Proof.
  unfold cub_D, dep. intros p q y z L Y Z. destruct (Req_EM_T y z) as [|N]; [assumption|exfalso].
  assert (A : y * y + y * z + z * z + 3 * p = 0). { apply Rmult_eq_reg_l with (y - z); [|lra]. replace ((y - z) * (y * y + y * z + z * z + 3 * p)) with ((y * y * y + 3 * p * y + 2 * q) - (z * z * z + 3 * p * z + 2 * q)) by ring. lra. }
  assert (B : y * y + 4 * p <= 0). { pose proof (Rle_0_sqr (y + 2 * z)) as Q. unfold Rsqr in Q. assert (3 * (y * y + 4 * p) = - ((y + 2 * z) * (y + 2 * z))); [|lra]. replace (12 * p) with (4 * (3 * p)) by ring. replace (3 * p) with (- (y * y + y * z + z * z)) by lra. lra. }
  assert (Qe : q = - (y * y * y + 3 * p * y) / 2) by lra. rewrite Qe in L.
  replace (- (y * y * y + 3 * p * y) / 2 * (- (y * y * y + 3 * p * y) / 2) + p * p * p) with ((y * y + 4 * p) * ((y * y + p) * (y * y + p)) / 4) in L by field.
  pose proof (Rle_0_sqr (y * y + p)) as Q. unfold Rsqr in Q. assert (0 <= - (y * y + 4 * p) * ((y * y + p) * (y * y + p))) by (apply Rmult_le_pos; lra). lra.
Qed.

Theorem cubic_single_root_iff : forall th a0 a1 a2 a3, 0 < th -> near0 th a3 = false ->
  let p := cub_p a1 a2 a3 in let q := cub_q a0 a1 a2 a3 in let D := cub_D p q in 0 < D -> near0 th D = false ->
  (roots_are (solve_cubic th a0 a1 a2 a3) (fun x => a0 + a1 * x + a2 * (x * x) + a3 * (x * x * x)) <-> D = (1 - Rabs q) * (1 - Rabs q)) /\
  exists x, solve_cubic th a0 a1 a2 a3 = [x].
Proof.
  intros th a0 a1 a2 a3 Ht E p q D L HD. split.
  - rewrite (roots_shift th a0 a1 a2 a3 Ht E). fold p q. unfold solve_depressed. cbv zeta. fold D. rewrite HD. destruct (Rlt_dec D 0); [lra|].
    assert (0 < sqrt D) by (apply sqrt_lt_R0; lra). pose proof (Rabs_pos q). unfold cbrt. destruct (Req_EM_T (sqrt D + Rabs q) 0) as [Z0|_]; [lra|].
    assert (One : forall y, roots_are [y] (dep p q) <-> dep p q y = 0).
    { intros y. split; [intros [_ R]; apply R; left; reflexivity|]. intros Y. split; [apply nodup1|]. intros x. split; [intros [<-|[]]; exact Y|]. intros X. left. apply (unique_root p q y x L Y X). }
    destruct (Rlt_dec 0 q) as [Qp|Qp]; rewrite One; unfold dep.
    + rewrite Rabs_right by lra. unfold D, cub_D. unfold Rdiv. rewrite Rinv_1. split; intros; lra.
    + rewrite Rabs_left1 by lra. unfold D, cub_D. unfold Rdiv. rewrite Rinv_1. split; intros; lra.
  - unfold solve_cubic. rewrite E. fold p q. unfold solve_depressed. cbv zeta. fold D. rewrite HD. destruct (Rlt_dec D 0); [lra|]. destruct (Rlt_dec 0 q); eexists; reflexivity.
Qed.
Print Assumptions cubic_single_root_iff.

(** x^3 = 8 is "solved" by 1. *)
Theorem cubic_refuted : forall th, 0 < th <= 1 -> solve_cubic th (-8) 0 0 1 = [1] /\ -8 + 0 * 1 + 0 * (1 * 1) + 1 * (1 * 1 * 1) <> 0 /\ -8 + 0 * 2 + 0 * (2 * 2) + 1 * (2 * 2 * 2) = 0.
Proof.
  intros th Ht. split; [|split; lra]. unfold solve_cubic. assert (E1 : near0 th 1 = false) by (apply near0_false; lra). rewrite E1.
  replace (cub_p 0 0 1) with 0 by (unfold cub_p; field). replace (cub_q (-8) 0 0 1) with (-4) by (unfold cub_q; field).
  unfold solve_depressed, cub_D. replace (-4 * -4 + 0 * 0 * 0) with 16 by ring. assert (E2 : near0 th 16 = false) by (apply near0_false; lra). cbv zeta. rewrite E2.
  destruct (Rlt_dec 16 0); [lra|]. destruct (Rlt_dec 0 (-4)); [lra|]. unfold cbrt. destruct (Req_EM_T (sqrt 16 + Rabs (-4)) 0) as [Z|_].
  - pose proof (sqrt_pos 16). rewrite Rabs_left in Z by lra. lra.
  - cbn. f_equal. field.
Qed.
Print Assumptions cubic_refuted.

(** Dropping a small leading coefficient: what is left of the exactness. *)
Theorem small_leading : forall th a0 a1 a2 a3, near0 th a3 = true -> near0 th a2 = true ->
  solve_cubic th a0 a1 a2 a3 = solve_linear th a0 a1 /\ (near0 th a1 = true -> solve_cubic th a0 a1 a2 a3 = []) /\
  (0 < th -> near0 th a1 = false -> exists x, solve_cubic th a0 a1 a2 a3 = [x] /\ a0 + a1 * x + a2 * (x * x) + a3 * (x * x * x) = a2 * (x * x) + a3 * (x * x * x)).
Proof.
  intros th a0 a1 a2 a3 E3 E2. assert (S : solve_cubic th a0 a1 a2 a3 = solve_linear th a0 a1) by (unfold solve_cubic, solve_quadric; rewrite E3, E2; reflexivity).
  split; [exact S|]. rewrite S. unfold solve_linear. split; [intros ->; reflexivity|]. intros Ht E1. rewrite E1. eexists. split; [reflexivity|].
  field. apply (near0_zero th); assumption.
Qed.
Print Assumptions small_leading.

(** Non-vacuity: x^3 - 3x + 1 has D < 0, and x^2 - 3x + 2 has the roots 1 and 2. *)
Example cubic_case : forall th, 0 < th <= 1 / 2 -> near0 th 1 = false /\ cub_D (cub_p (-3) 0 1) (cub_q 1 (-3) 0 1) < 0 /\ near0 th (cub_D (cub_p (-3) 0 1) (cub_q 1 (-3) 0 1)) = false.
Proof.
  intros th Ht. assert (E : cub_D (cub_p (-3) 0 1) (cub_q 1 (-3) 0 1) = - (3 / 4)) by (unfold cub_D, cub_p, cub_q; field). rewrite E.
  split; [apply near0_false; lra|split; [lra|apply near0_false; lra]].
Qed.
Example quadric_case : solve_quadric (1 / 8) 2 (-3) 1 = [2; 1].
Proof.
  unfold solve_quadric. assert (E1 : near0 (1 / 8) 1 = false) by (apply near0_false; lra). rewrite E1. cbv zeta.
  replace (-3 / (2 * 1) * (-3 / (2 * 1)) - 2 / 1) with (1 / 2 * (1 / 2)) by field. assert (E2 : near0 (1 / 8) (1 / 2 * (1 / 2)) = false) by (apply near0_false; lra). rewrite E2.
  destruct (Rlt_dec (1 / 2 * (1 / 2)) 0); [lra|]. rewrite sqrt_square by lra. f_equal; [lra|f_equal; lra].
Qed.
