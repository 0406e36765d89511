(** C77: the GJK of the libccd extension. *)
From Coq Require Import Reals Lra Lia List Bool Psatz Permutation.
From Verif Require Import VecR Motion Prim P_PlaneQuery ShapeBV Support P_Support Gjk P_Gjk CcdGjk.
Import ListNotations.
Open Scope R_scope.

(** What is assumed of libccd's point-triangle distance: its witness is a point of the triangle, the value
    is the squared distance to it.  (That no point is nearer is not needed.) *)
Definition tri_ok (tri : v3 -> v3 -> v3 -> v3 -> R * v3) : Prop :=
  forall P a b c, in_tri a b c (snd (tri P a b c)) /\ fst (tri P a b c) = norm2 (vsub (snd (tri P a b c)) P).

Lemma tri_convex : forall (K : v3 -> Prop) a b c x, convex K -> K a -> K b -> K c -> in_tri a b c x -> K x.
Proof.
  intros K a b c x C Ka Kb Kc (u & v & w & Hu & Hv & Hw & S & ->). destruct (Req_dec w 1) as [W|W].
  - assert (u = 0) by lra. assert (v = 0) by lra. subst. replace (vadd _ _) with c; [exact Kc|vcoords].
  - assert (Q : K (vadd a (vscale (v / (u + v)) (vsub b a)))).
    { apply C; auto. split; [apply Rmult_le_pos; [lra|apply Rlt_le, Rinv_0_lt_compat; lra]|]. apply Rmult_le_reg_r with (u + v); [lra|]. unfold Rdiv. rewrite Rmult_assoc, Rinv_l by lra. lra. }
    pose proof (C _ c w Q Kc ltac:(lra)) as Z. replace (vadd (vadd _ _) _) with (vadd (vadd a (vscale (v / (u + v)) (vsub b a))) (vscale w (vsub c (vadd a (vscale (v / (u + v)) (vsub b a)))))); [exact Z|].
    assert (w = 1 - (u + v)) by lra. subst w. apply v3_ext; unfold vadd, vscale, vsub; cbn [c0 c1 c2]; field; lra.
Qed.
Lemma tet_convex : forall (K : v3 -> Prop) a b c d p q r s, convex K -> K a -> K b -> K c -> K d -> 0 <= p -> 0 <= q -> 0 <= r -> 0 <= s -> p + q + r + s = 1 ->
  K (vadd (vadd (vadd (vscale p a) (vscale q b)) (vscale r c)) (vscale s d)).
Proof.
  intros K a b c d p q r s C Ka Kb Kc Kd Hp Hq Hr Hs S. destruct (Req_dec s 1) as [W|W].
  - assert (p = 0) by lra. assert (q = 0) by lra. assert (r = 0) by lra. subst. replace (vadd _ _) with d; [exact Kd|vcoords].
  - set (t := p + q + r). assert (T : 0 < t) by (unfold t; lra). assert (It : 0 < / t) by (apply Rinv_0_lt_compat; auto).
    assert (Q : K (vadd (vadd (vscale (p * / t) a) (vscale (q * / t) b)) (vscale (r * / t) c))).
    { apply (tri_convex K a b c); auto. exists (p * / t), (q * / t), (r * / t). repeat split; try (apply Rmult_le_pos; lra). rewrite <- !Rmult_plus_distr_r. fold t. apply Rinv_r. lra. }
    pose proof (C _ d s Q Kd ltac:(lra)) as Z. match type of Z with K ?u => match goal with |- K ?v => replace v with u; [exact Z|] end end.
    assert (s = 1 - t) by (unfold t; lra). subst s. clearbody t. apply v3_ext; unfold vadd, vscale, vsub; cbn [c0 c1 c2]; field; lra.
Qed.

Lemma sign_same : forall e x y, 0 < e -> ccd_sign e x = ccd_sign e y -> (Rabs x < e /\ Rabs y < e) \/ (e <= x /\ e <= y) \/ (x <= - e /\ y <= - e).
Proof.
  intros e x y He. unfold ccd_sign, ccd_zero. destruct (Rlt_dec (Rabs x) e) as [A|A], (Rlt_dec (Rabs y) e) as [B|B]; intros E; auto; right; revert A B E; unfold Rabs; destruct (Rcase_abs x), (Rcase_abs y);
    destruct (Rlt_dec x 0), (Rlt_dec y 0); intros; try lra.
Qed.
Lemma sign_keeps : forall e x, 0 < e -> ccd_zero e x = true <-> Rabs x < e.
Proof. intros e x He. unfold ccd_zero. destruct (Rlt_dec (Rabs x) e); split; intros; auto; discriminate. Qed.
Lemma ahead_true : forall e x, 0 < e -> ahead e x = true -> - e < x.
Proof. intros e x He. unfold ahead, ccd_zero. destruct (Rlt_dec (Rabs x) e) as [A|A]; cbn [orb]. - intros _. apply Rabs_def2 in A. lra. - destruct (Rlt_dec 0 x); [lra|discriminate]. Qed.
Lemma ahead_false : forall e x, 0 < e -> ahead e x = false -> x <= - e.
Proof. intros e x He. unfold ahead, ccd_zero. destruct (Rlt_dec (Rabs x) e) as [A|A]; cbn [orb]; [discriminate|]. destruct (Rlt_dec 0 x); [discriminate|]. intros _. revert A. unfold Rabs. destruct (Rcase_abs x); lra. Qed.

(** The segment case: with A behind the origin seen from B, the foot of the origin on AB is on the segment. *)
Lemma segment_foot : forall a b e, dot a b <= 0 -> norm2 (cross b (vsub b a)) < norm2 (vsub b a) * norm2 b * e * e -> 0 <= e ->
  exists t, 0 <= t <= 1 /\ norm (vadd b (vscale t (vsub a b))) <= e * norm b.
Proof.
  intros a b e H L He. set (n := norm2 (vsub b a)) in *. assert (N0 : 0 <= norm2 b) by (apply norm2_nonneg).
  assert (N : 0 < n). { assert (0 <= n) by (unfold n; apply norm2_nonneg). destruct (Req_dec n 0) as [Z|]; [|lra]. rewrite Z in L. assert (0 <= norm2 (cross b (vsub b a))) by (apply norm2_nonneg). lra. }
  assert (D1 : 0 <= dot b (vsub b a)) by (replace (dot b (vsub b a)) with (norm2 b - dot a b) by coords; lra).
  assert (D2 : dot b (vsub b a) <= n). { assert (0 <= norm2 a) by (apply norm2_nonneg). replace n with (dot b (vsub b a) + (norm2 a - dot a b)) by (unfold n; coords). lra. }
  exists (dot b (vsub b a) / n). split; [split|].
  - apply Rmult_le_pos; [lra|apply Rlt_le, Rinv_0_lt_compat; lra].
  - apply Rmult_le_reg_r with n; [lra|]. unfold Rdiv. rewrite Rmult_assoc, Rinv_l by lra. lra.
  - rewrite <- (Rabs_right e) by lra. rewrite <- norm_scale. unfold norm. apply sqrt_le_1_alt. apply Rmult_le_reg_l with n; auto.
    replace (n * norm2 (vadd b (vscale (dot b (vsub b a) / n) (vsub a b)))) with (norm2 (cross b (vsub b a))).
    + replace (norm2 (vscale e b)) with (norm2 b * e * e) by coords. lra.
    + assert (E : norm2 (cross b (vsub b a)) = n * norm2 b - dot b (vsub b a) * dot b (vsub b a)) by (unfold n; coords). rewrite E. set (k := dot b (vsub b a)) in *.
      replace (norm2 (vadd b (vscale (k / n) (vsub a b)))) with (norm2 b - 2 * (k / n) * k + (k / n) * (k / n) * n) by (unfold k, n; coords). field. lra.
Qed.

Section Run.
Variables ceps meps feps : R.
Hypothesis Hc : 0 < ceps.
Hypothesis Hm : 0 < meps.
Hypothesis Hf : 0 <= feps.
Variable tri : v3 -> v3 -> v3 -> v3 -> R * v3.
Hypothesis TO : tri_ok tri.
Variable veq : v3 -> v3 -> bool.
Variable sup : v3 -> sp.
Variable K : v3 -> Prop.
Hypothesis CK : convex K.
Hypothesis SK : forall d, K (sv (sup d)).

(** Six times the signed volume of the tetrahedron *)
Definition vol (a b c d : v3) : R := dot (cross (vsub c a) (vsub d a)) (vsub b a).

(** What an answer "intersecting" means. *)
Definition close : Prop :=
  (exists x, K x /\ norm x < meps) \/
  (exists x b, K x /\ K b /\ norm x <= feps * norm b) \/
  (exists a b c d, K a /\ K b /\ K c /\ K d /\ Rabs (vol a b c d) < ceps /\
     Rabs (vol a vzero c d) < ceps /\ Rabs (vol a b vzero d) < ceps /\ Rabs (vol a b c vzero) < ceps) \/
  (exists a b c d x r, K a /\ K b /\ K c /\ K d /\ K x /\ x = vscale r a /\ 0 <= r < 1 / 3 /\ r * Rabs (vol a b c d) < ceps).

Lemma tiny_close : forall a b c, K a -> K b -> K c -> tiny2 meps (fst (tri vzero a b c)) = true -> close.
Proof.
  intros a b c Ka Kb Kc T. left. destruct (TO vzero a b c) as (I & E). exists (snd (tri vzero a b c)). split; [apply (tri_convex K a b c); auto|].
  unfold tiny2 in T. destruct (Rlt_dec (Rabs (fst (tri vzero a b c))) (meps * meps)) as [L|]; [|discriminate]. rewrite E in L. set (x := snd (tri vzero a b c)) in *.
  replace (vsub x vzero) with x in L by vcoords. rewrite Rabs_right in L by (apply Rle_ge; apply norm2_nonneg). unfold norm. rewrite <- (sqrt_square meps) by lra. apply sqrt_lt_1_alt. split; [apply norm2_nonneg|auto].
Qed.

(** The state at the head of the loop. *)
Definition state (dir : v3) (s : list sp) : Prop :=
  match s with
  | [a] => K (sv a) /\ dir = vneg (sv a)
  | [b; a] => K (sv b) /\ K (sv a)
  | [c; b; a] => K (sv c) /\ K (sv b) /\ K (sv a) /\ dir = cross (vsub (sv b) (sv a)) (vsub (sv c) (sv a)) /\ - ceps < dot dir (vneg (sv a))
  | _ => False
  end.
Definition goes (r : step * list sp) : Prop := match fst r with Hit => close | Miss => True | Go d => state d (snd r) end.

Lemma do3_45_goes : forall b a, K (sv b) -> K (sv a) -> goes (do3_45 ceps b a).
Proof. intros b a Kb Ka. unfold do3_45. destruct (ahead _ _); unfold goes; cbn [fst snd state]; auto. Qed.
Lemma do3_goes : forall c b a, K (sv c) -> K (sv b) -> K (sv a) -> goes (do3 ceps meps tri veq c b a).
Proof.
  intros c b a Kc Kb Ka. unfold do3. destruct (tiny2 _ _) eqn:E; [unfold goes; cbn [fst]; eapply tiny_close; [| | |exact E]; auto|]. clear E.
  destruct (_ || _)%bool; [exact I|]. destruct (ahead ceps (dot (cross (cross _ _) _) _)); [destruct (ahead ceps (dot (vsub (sv c) _) _)); [unfold goes; cbn [fst snd state]; auto|apply do3_45_goes; auto]|].
  destruct (ahead ceps (dot (cross _ (cross _ _)) _)); [apply do3_45_goes; auto|]. destruct (ahead ceps (dot (cross _ _) _)) eqn:E; unfold goes; cbn [fst snd state].
  - apply ahead_true in E; auto.
  - apply ahead_false in E; auto. repeat split; auto; [vcoords|]. revert E. generalize (cross (vsub (sv b) (sv a)) (vsub (sv c) (sv a))). intros n E. replace (dot (vneg n) (vneg (sv a))) with (- dot n (vneg (sv a))) by coords. lra.
Qed.

Lemma vol_sum : forall a b c d, vol a vzero c d + vol a b vzero d + vol a b c vzero + vol vzero b c d = vol a b c d.
Proof. intros. unfold vol. coords. Qed.
Lemma vol_origin : forall a b c d, vadd (vadd (vadd (vscale (vol vzero b c d) a) (vscale (vol a vzero c d) b)) (vscale (vol a b vzero d) c)) (vscale (vol a b c vzero) d) = vzero.
Proof. intros. unfold vol. vcoords. Qed.

Lemma inside_close : forall a b c d, K a -> K b -> K c -> K d -> vol a b c d <= - ceps -> vol a vzero c d <= - ceps -> vol a b vzero d <= - ceps -> vol a b c vzero <= - ceps -> vol vzero b c d < ceps -> close.
Proof.
  intros a b c d Ka Kb Kc Kd HT HB HC HD HA. do 3 right. pose proof (vol_sum a b c d) as S. pose proof (vol_origin a b c d) as O.
  set (T := vol a b c d) in *. set (x := vol a vzero c d) in *. set (y := vol a b vzero d) in *. set (z := vol a b c vzero) in *. set (w := vol vzero b c d) in *.
  assert (I : / T < 0) by (apply Rinv_lt_0_compat; lra). assert (IT : T * / T = 1) by (apply Rinv_r; lra).
  assert (Ng : forall u, u <= 0 -> 0 <= u * / T). { intros u Hu. replace (u * / T) with ((- u) * (- / T)) by ring. apply Rmult_le_pos; lra. }
  destruct (Rle_dec w 0) as [W|W].
  - exists a, b, c, d, vzero, 0. do 4 (split; [assumption|]). split; [|split; [vcoords|split; [lra|rewrite Rmult_0_l; lra]]].
    pose proof (tet_convex K a b c d (w * / T) (x * / T) (y * / T) (z * / T) CK Ka Kb Kc Kd) as Q. match type of Q with _ -> _ -> _ -> _ -> _ -> K ?u => replace u with vzero in Q end.
    + apply Q; try (apply Ng; lra). rewrite <- !Rmult_plus_distr_r. replace (w + x + y + z) with T by lra. exact IT.
    + transitivity (vscale (/ T) (vadd (vadd (vadd (vscale w a) (vscale x b)) (vscale y c)) (vscale z d))); [rewrite O|]; vcoords.
  - set (s := x + y + z). assert (Hs : s < 0) by (unfold s; lra). assert (Is : / s < 0) by (apply Rinv_lt_0_compat; auto). assert (Es : s * / s = 1) by (apply Rinv_r; lra).
    assert (Ng' : forall u, u <= 0 -> 0 <= u * / s). { intros u Hu. replace (u * / s) with ((- u) * (- / s)) by ring. apply Rmult_le_pos; lra. }
    exists a, b, c, d, (vscale (w * - / s) a), (w * - / s). split; [auto|]. split; [auto|]. split; [auto|]. split; [auto|]. split; [|split; [reflexivity|split; [split|]]].
    + replace (vscale (w * - / s) a) with (vadd (vadd (vscale (x * / s) b) (vscale (y * / s) c)) (vscale (z * / s) d)).
      * apply (tri_convex K b c d); auto. exists (x * / s), (y * / s), (z * / s). repeat split; try (apply Ng'; unfold s in *; lra). rewrite <- !Rmult_plus_distr_r. exact Es.
      * apply (f_equal (vscale (/ s))) in O. assert (E : forall p q r u : v3, vscale (/ s) (vadd (vadd (vadd p q) r) u) = vscale (/ s) vzero -> vadd (vadd (vscale (/ s) q) (vscale (/ s) r)) (vscale (/ s) u) = vneg (vscale (/ s) p)).
        { clear. intros p q r u E. apply v3_ext; [apply (f_equal c0) in E|apply (f_equal c1) in E|apply (f_equal c2) in E]; unfold vadd, vscale, vneg, vzero in *; cbn [c0 c1 c2] in *; lra. }
        apply E in O. transitivity (vadd (vadd (vscale (/ s) (vscale x b)) (vscale (/ s) (vscale y c))) (vscale (/ s) (vscale z d))); [vcoords|]. rewrite O. vcoords.
    + apply Rmult_le_pos; lra.
    + apply Rmult_lt_reg_r with (- s); [lra|]. replace (w * - / s * - s) with (w * (s * / s)) by ring. rewrite Es. unfold s in *. lra.
    + fold T. apply Rmult_lt_reg_r with (- s); [lra|]. replace (w * - / s * Rabs T * - s) with (w * Rabs T * (s * / s)) by ring. rewrite Es, Rmult_1_r. rewrite Rabs_left by lra.
      apply Rle_lt_trans with (w * - s); [apply Rmult_le_compat_l; [lra|unfold s; lra]|]. apply Rmult_lt_compat_r; lra.
Qed.

Lemma do4_goes : forall d c b a dir, K (sv a) -> state dir [d; c; b] -> 0 <= dot (sv a) dir -> goes (do4 ceps meps tri veq d c b a).
Proof.
  intros d c b a dir Ka (Kd & Kcc & Kb & ED & HD) P. unfold do4. destruct (tiny2 meps (fst (tri (sv a) _ _ _))); [exact I|].
  destruct (tiny2 meps (fst (tri vzero (sv a) (sv b) (sv c)))) eqn:E1; [unfold goes; cbn [fst]; eapply tiny_close; [| | |exact E1]; auto|]. clear E1.
  destruct (tiny2 meps (fst (tri vzero (sv a) (sv c) (sv d)))) eqn:E1; [unfold goes; cbn [fst]; eapply tiny_close; [| | |exact E1]; auto|]. clear E1.
  destruct (tiny2 meps (fst (tri vzero (sv a) (sv b) (sv d)))) eqn:E1; [unfold goes; cbn [fst]; eapply tiny_close; [| | |exact E1]; auto|]. clear E1.
  destruct (tiny2 meps (fst (tri vzero (sv b) (sv c) (sv d)))) eqn:E1; [unfold goes; cbn [fst]; eapply tiny_close; [| | |exact E1]; auto|]. clear E1.
  destruct (Req_EM_T (ccd_sign ceps (dot (cross (vsub (sv c) (sv a)) (vsub (sv d) (sv a))) (vneg (sv a)))) _) as [S1|]; cbn [andb negb]; [|apply do3_goes; auto].
  destruct (Req_EM_T (ccd_sign ceps (dot (cross (vsub (sv d) (sv a)) (vsub (sv b) (sv a))) (vneg (sv a)))) _) as [S2|]; cbn [andb negb]; [|apply do3_goes; auto].
  destruct (Req_EM_T (ccd_sign ceps (dot (cross (vsub (sv b) (sv a)) (vsub (sv c) (sv a))) (vneg (sv a)))) _) as [S3|]; cbn [andb negb]; [|apply do3_goes; auto].
  unfold goes. cbn [fst]. revert Ka Kb Kcc Kd ED HD P S1 S2 S3. generalize (sv a) (sv b) (sv c) (sv d). clear a b c d. intros a b c d Ka Kb Kcc Kd ED HD P S1 S2 S3.
  replace (dot (cross (vsub c a) (vsub d a)) (vneg a)) with (vol a vzero c d) in S1 by (unfold vol; coords). change (dot (cross (vsub c a) (vsub d a)) (vsub b a)) with (vol a b c d) in S1.
  replace (dot (cross (vsub d a) (vsub b a)) (vneg a)) with (vol a b vzero d) in S2 by (unfold vol; coords). replace (dot (cross (vsub d a) (vsub b a)) (vsub c a)) with (vol a b c d) in S2 by (unfold vol; coords).
  replace (dot (cross (vsub b a) (vsub c a)) (vneg a)) with (vol a b c vzero) in S3 by (unfold vol; coords). replace (dot (cross (vsub b a) (vsub c a)) (vsub d a)) with (vol a b c d) in S3 by (unfold vol; coords).
  assert (TA : dot a dir = vol vzero b c d - vol a b c d) by (subst dir; unfold vol; coords).
  assert (TB : dot dir (vneg b) = - vol vzero b c d) by (subst dir; unfold vol; coords). rewrite TB in HD. rewrite TA in P.
  apply sign_same in S1; auto. apply sign_same in S2; auto. apply sign_same in S3; auto.
  assert (AB : forall x, Rabs x < ceps -> - ceps < x < ceps) by (intros x Hx; apply Rabs_def2 in Hx; lra).
  destruct S1 as [(S1 & T1)|[(S1 & T1)|(S1 & T1)]]; [|exfalso; lra|].
  - pose proof (AB _ T1) as AT. assert (S2' : Rabs (vol a b vzero d) < ceps) by (destruct S2 as [(? & ?)|[(? & ?)|(? & ?)]]; auto; lra). assert (S3' : Rabs (vol a b c vzero) < ceps) by (destruct S3 as [(? & ?)|[(? & ?)|(? & ?)]]; auto; lra).
    right; right; left. exists a, b, c, d. repeat split; auto.
  - assert (S2' : vol a b vzero d <= - ceps) by (destruct S2 as [(? & U)|[(? & ?)|(? & ?)]]; auto; [apply AB in U; lra|lra]). assert (S3' : vol a b c vzero <= - ceps) by (destruct S3 as [(? & U)|[(? & ?)|(? & ?)]]; auto; [apply AB in U; lra|lra]).
    apply (inside_close a b c d); auto; lra.
Qed.

Lemma do_simplex_goes : forall s dir l, state dir s -> K (sv l) -> 0 <= dot (sv l) dir ->
  exists s1 r, add s l = Some s1 /\ do_simplex ceps meps feps tri veq s1 = Some r /\ goes r.
Proof.
  intros s dir l St Kl P. destruct s as [|p0 [|p1 [|p2 [|p3 s]]]]; try contradiction.
  - destruct St as (K0 & ->). exists [p0; l]. cbn [add length Nat.ltb Nat.leb app do_simplex]. unfold do2.
    assert (Q : dot (sv l) (sv p0) <= 0) by (replace (dot (sv l) (vneg (sv p0))) with (- dot (sv l) (sv p0)) in P by coords; lra).
    assert (N0 : 0 <= norm2 (sv p0)) by (apply norm2_nonneg).
    destruct (Rle_dec _ _) as [|N]; [|exfalso; apply N; apply Rle_trans with 0; [lra|apply Rmult_le_pos; lra]]. destruct (Rlt_dec _ _) as [L|].
    + eexists. split; [reflexivity|]. split; [reflexivity|]. unfold goes. cbn [fst]. destruct (segment_foot (sv l) (sv p0) feps Q L Hf) as (t & Ht & B). right; left. exists (vadd (sv p0) (vscale t (vsub (sv l) (sv p0)))), (sv p0). split; [apply CK; auto|auto].
    + eexists. split; [reflexivity|]. split; [reflexivity|]. unfold goes. cbn [fst snd state]. auto.
  - destruct St as (K0 & K1). exists [p0; p1; l]. eexists. cbn [add length Nat.ltb Nat.leb app do_simplex]. split; [reflexivity|]. split; [reflexivity|]. apply do3_goes; auto.
  - pose proof St as (K0 & K1 & K2 & _). exists [p0; p1; p2; l]. eexists. cbn [add length Nat.ltb Nat.leb app do_simplex]. split; [reflexivity|]. split; [reflexivity|]. eapply do4_goes; eauto.
Qed.
End Run.

(** Every simplex the code builds consists of support points and never overflows. *)
Section Simplex.
Variables ceps meps feps : R.
Variable tri : v3 -> v3 -> v3 -> v3 -> R * v3.
Variable veq : v3 -> v3 -> bool.
Variable Q : sp -> Prop.
Definition fits (r : step * list sp) : Prop :=
  Forall Q (snd r) /\ (1 <= length (snd r) <= 4)%nat /\ match fst r with Go _ => (length (snd r) <= 3)%nat | _ => True end.
Ltac fit := split; [repeat constructor; assumption|split; [cbn [snd length]; lia|cbn [fst snd length]; try exact I; lia]].
Lemma do3_fits : forall c b a, Q c -> Q b -> Q a -> fits (do3 ceps meps tri veq c b a).
Proof. intros c b a Hc Hb Ha. unfold do3, do3_45. repeat match goal with |- context [if ?x then _ else _] => destruct x end; fit. Qed.
Lemma do_simplex_fits : forall s r, Forall Q s -> do_simplex ceps meps feps tri veq s = Some r -> fits r.
Proof.
  intros s r F E. destruct s as [|p0 [|p1 [|p2 [|p3 [|p4 s]]]]]; try discriminate; cbn [do_simplex] in E; rewrite !Forall_cons_iff in F.
  - destruct F as (F0 & F1 & _). unfold do2 in E. repeat match type of E with context [if ?x then _ else _] => destruct x end; try discriminate; injection E as <-; fit.
  - destruct F as (F0 & F1 & F2 & _). injection E as <-. apply do3_fits; auto.
  - destruct F as (F0 & F1 & F2 & F3 & _). injection E as <-. unfold do4. repeat match goal with |- context [if ?x then _ else _] => destruct x end; try (apply do3_fits; assumption); fit.
Qed.
End Simplex.

Section Answer.
Variables ceps meps feps : R.
Hypothesis Hc : 0 < ceps.
Hypothesis Hm : 0 < meps.
Hypothesis Hf : 0 <= feps.
Variable tri : v3 -> v3 -> v3 -> v3 -> R * v3.
Hypothesis TO : tri_ok tri.
Variable veq : v3 -> v3 -> bool.
Variable sup : v3 -> sp.
Variable K : v3 -> Prop.
Hypothesis CK : convex K.
Hypothesis SK : forall d, d <> vzero -> K (sv (sup d)).

Lemma loop_answer : forall n dir s, dir <> vzero -> state ceps K dir s -> Forall (fun p => exists d, d <> vzero /\ p = sup d) s ->
  exists w s', gjk_loop ceps meps feps tri veq sup n dir s = Some (w, s') /\ (1 <= length s' <= 4)%nat /\
    (forall p, In p s' -> exists d, d <> vzero /\ p = sup d) /\ (w = Inside -> close ceps meps feps K) /\
    (forall d, w = Apart d -> d <> vzero /\ dot (sv (sup d)) d < 0).
Proof.
  induction n as [|n IH]; intros dir s N St F; cbn [gjk_loop].
  - exists Limit, s. split; [reflexivity|]. split; [destruct s as [|? [|? [|? [|? ?]]]]; try contradiction; cbn [length]; lia|]. split; [apply Forall_forall, F|]. split; intros; discriminate.
  - destruct (Rlt_dec (dot (sv (sup dir)) dir) 0) as [L|L].
    + exists (Apart dir), s. split; [reflexivity|]. split; [destruct s as [|? [|? [|? [|? ?]]]]; try contradiction; cbn [length]; lia|]. split; [apply Forall_forall, F|]. split; [discriminate|]. intros d E. injection E as <-. auto.
    + destruct (do_simplex_goes ceps meps feps Hc Hm Hf tri TO veq K CK s dir (sup dir) St (SK dir N) ltac:(lra)) as (s1 & r & E1 & E2 & G). rewrite E1, E2.
      assert (F1 : Forall (fun p => exists d, d <> vzero /\ p = sup d) s1). { unfold add in E1. destruct (Nat.ltb _ _); [|discriminate]. injection E1 as <-. apply Forall_app. split; [exact F|]. constructor; [|constructor]. exists dir. auto. }
      destruct (do_simplex_fits ceps meps feps tri veq _ s1 r F1 E2) as (F2 & L2 & L3). destruct r as (st & s2). unfold goes in G. cbn [fst snd] in *. destruct st as [| |d].
      * exists Inside, s2. split; [reflexivity|]. split; [auto|]. split; [apply Forall_forall, F2|]. split; [auto|discriminate].
      * exists Degenerate, s2. split; [reflexivity|]. split; [auto|]. split; [apply Forall_forall, F2|]. split; discriminate.
      * destruct (ccd_zero ceps (norm2 d)) eqn:Z.
        -- exists NoDir, s2. split; [reflexivity|]. split; [auto|]. split; [apply Forall_forall, F2|]. split; discriminate.
        -- apply IH; auto. intros ->. unfold ccd_zero in Z. destruct (Rlt_dec _ _) as [|NZ]; [discriminate|]. apply NZ. replace (norm2 vzero) with 0 by coords. rewrite Rabs_R0. exact Hc.
Qed.

(** C77: __ccdGJK never runs into its assertion and never writes past the simplex; the simplex it hands on
    holds one to four support points.  An answer "intersecting" means that the Minkowski difference comes
    as near to the origin as [close] says.  If it gave up because a support point was behind the
    origin and the support points are extreme, no point of the difference is the origin: the objects are
    apart, along the last direction. *)
Theorem gjk_answer : forall n first, first <> vzero -> sv (sup first) <> vzero ->
  exists w s, ccd_gjk ceps meps feps tri veq sup n first = Some (w, s) /\ (1 <= length s <= 4)%nat /\
    (forall p, In p s -> exists d, d <> vzero /\ p = sup d) /\ (w = Inside -> close ceps meps feps K) /\
    (forall d, w = Apart d -> (forall x, d <> vzero -> K x -> dot x d <= dot (sv (sup d)) d) -> forall x, K x -> dot x d < 0).
Proof.
  intros n first N N1. unfold ccd_gjk. destruct (loop_answer n (vneg (sv (sup first))) [sup first]) as (w & s & E & L & A & C & S).
  - intros Z. apply N1. replace (sv (sup first)) with (vneg (vneg (sv (sup first)))) by vcoords. rewrite Z. vcoords.
  - cbn [state]. auto.
  - constructor; [exists first; auto|constructor].
  - exists w, s. repeat (split; [assumption|]). intros d Ed X x Kx. destruct (S d Ed) as (Nd & Sd). specialize (X x Nd Kx). lra.
Qed.
End Answer.
Print Assumptions gjk_answer.

(** C77: if the first support point is the origin itself, the search stops at once and answers
    "not intersecting", whatever the shapes are. *)
Theorem first_origin_refuted : forall ceps meps feps tri veq sup n first, 0 < ceps -> 0 <= feps -> sv (sup first) = vzero ->
  exists s, ccd_gjk ceps meps feps tri veq sup (S n) first = Some (NoDir, s).
Proof.
  intros ceps meps feps tri veq sup n first Hc Hf E. unfold ccd_gjk. cbn [gjk_loop]. rewrite E. set (l := sup (vneg vzero)).
  destruct (Rlt_dec (dot (sv l) (vneg vzero)) 0) as [L|_]; [exfalso; revert L; replace (dot (sv l) (vneg vzero)) with 0 by coords; lra|].
  cbn [add length Nat.ltb Nat.leb app do_simplex]. unfold do2. rewrite E. replace (dot (sv l) vzero) with 0 by coords. replace (norm2 vzero) with 0 by coords.
  destruct (Rle_dec 0 (0 * feps)) as [_|N]; [|exfalso; lra]. replace (cross vzero (vsub vzero (sv l))) with vzero by vcoords. replace (norm2 vzero) with 0 by coords.
  destruct (Rlt_dec 0 _) as [L|_]; [exfalso; revert L; rewrite Rmult_0_r, !Rmult_0_l; lra|]. unfold normalized. replace (norm2 vzero) with 0 by coords. destruct (Rlt_dec 0 0) as [L|_]; [lra|].
  replace (cross vzero (vsub vzero (sv l))) with vzero by vcoords. replace (norm2 vzero) with 0 by coords. unfold ccd_zero. rewrite Rabs_R0. destruct (Rlt_dec 0 ceps); [|contradiction]. eexists. reflexivity.
Qed.
Print Assumptions first_origin_refuted.

(** ** The shapes *)
(** __ccdSupport with the callbacks of two shapes *)
Definition shapes_sup (big eps : R) (find : list v3 -> v3 -> v3) (s0 s1 : shape) (X0 X1 : tf) (d : v3) : sp :=
  let p := ccd_support big eps find s0 X0 d in let q := ccd_support big eps find s1 X1 (vneg d) in Sp (vsub p q) p q.
Lemma mink_convex : forall A B, convex A -> convex B -> convex (mink A B).
Proof.
  intros A B CA CB x y t (a & b & Ka & Kb & ->) (a' & b' & Ka' & Kb' & ->) Ht. exists (vadd a (vscale t (vsub a' a))), (vadd b (vscale t (vsub b' b))). split; [apply CA; auto|]. split; [apply CB; auto|]. vcoords.
Qed.
Definition callable (big : R) (find : list v3 -> v3 -> v3) (s : shape) : Prop :=
  sized s /\ ~ cylinder s /\ forall d, finds find s d /\ tri_in_range big s d.
Lemma neg_zero : forall d, d <> vzero -> vneg d <> vzero.
Proof. intros d N E. apply N. replace d with (vneg (vneg d)) by vcoords. rewrite E. vcoords. Qed.

(** C77: for two shapes other than cylinders, an answer because a support point was behind the origin
    means that they have no point in common. *)
Theorem gjk_shapes_apart : forall ceps meps feps tri veq big find s0 s1 X0 X1 n first d s,
  0 < ceps -> 0 < meps -> 0 <= feps -> tri_ok tri -> callable big find s0 -> callable big find s1 -> ortho (tf_rot X0) -> ortho (tf_rot X1) -> first <> vzero ->
  ccd_gjk ceps meps feps tri veq (shapes_sup big ceps find s0 s1 X0 X1) n first = Some (Apart d, s) ->
  forall p, ~ (placed X0 (points s0) p /\ placed X1 (points s1) p).
Proof.
  intros ceps meps feps tri veq big find s0 s1 X0 X1 n first d s Hc Hm Hf TO (Z0 & N0 & F0) (Z1 & N1 & F1) O0 O1 Hd E p (A & B).
  set (sup := shapes_sup big ceps find s0 s1 X0 X1) in *. set (K := mink (placed X0 (points s0)) (placed X1 (points s1))).
  assert (CK : convex K) by (apply mink_convex; apply placed_convex, points_convex; auto).
  assert (E0 : forall e, e <> vzero -> extreme (placed X0 (points s0)) e (sv1 (sup e))) by (intros e He; apply ccd_support_extreme; auto; apply F0).
  assert (E1 : forall e, e <> vzero -> extreme (placed X1 (points s1)) (vneg e) (sv2 (sup e))) by (intros e He; apply ccd_support_extreme; auto using neg_zero; apply F1).
  assert (SK : forall e, e <> vzero -> K (sv (sup e))) by (intros e He; exists (sv1 (sup e)), (sv2 (sup e)); split; [apply E0; auto|split; [apply E1; auto|reflexivity]]).
  assert (SN : sv (sup first) <> vzero).
  { intros Z. destruct n as [|n]; [discriminate|]. destruct (first_origin_refuted ceps meps feps tri veq sup n first Hc Hf Z) as (s' & E'). rewrite E' in E. discriminate. }
  destruct (gjk_answer ceps meps feps Hc Hm Hf tri TO veq sup K CK SK n first Hd SN) as (w & s' & E' & _ & _ & _ & S). rewrite E' in E. injection E as -> ->.
  specialize (S d eq_refl). assert (X : forall x, d <> vzero -> K x -> dot x d <= dot (sv (sup d)) d).
  { intros x Nd (a & b & Ka & Kb & ->). pose proof (proj2 (E0 d Nd) a Ka) as Qa. pose proof (proj2 (E1 d Nd) b Kb) as Qb. change (sv (sup d)) with (vsub (sv1 (sup d)) (sv2 (sup d))). revert Qa Qb. coords. intros. lra. }
  specialize (S X vzero). assert (Kz : K vzero) by (exists p, p; split; [auto|split; [auto|vcoords]]). specialize (S Kz). revert S. replace (dot vzero d) with 0 by coords. lra.
Qed.
Print Assumptions gjk_shapes_apart.

(** ** Finite sets of points against a point in the origin *)
Definition best (d u v : v3) : v3 := if Rlt_dec (dot d u) (dot d v) then v else u.
Definition poly_sup (v : v3) (vs : list v3) (d : v3) : sp := let p := fold_left (best d) vs v in Sp p p vzero.
Lemma poly_sup_extreme : forall vs v d, In (sv (poly_sup v vs d)) (v :: vs) /\ forall u, In u (v :: vs) -> dot d u <= dot d (sv (poly_sup v vs d)).
Proof.
  unfold poly_sup. cbn [sv]. induction vs as [|w vs IH]; intros v d; cbn [fold_left].
  - split; [left; reflexivity|]. intros u [ -> |[]]. lra.
  - destruct (IH (best d v w) d) as (A & B). assert (Eb : best d v w = v \/ best d v w = w) by (unfold best; destruct (Rlt_dec _ _); auto).
    assert (L : dot d v <= dot d (best d v w) /\ dot d w <= dot d (best d v w)) by (unfold best; destruct (Rlt_dec _ _); split; lra). pose proof (B _ (or_introl eq_refl)) as B0. split.
    + destruct A as [A|A]; [|right; right; exact A]. rewrite <- A. destruct Eb as [ -> | -> ]; [left; reflexivity|right; left; reflexivity].
    + intros u [ -> |[ -> |Hu]]; [lra|lra|]. apply B. right. exact Hu.
Qed.

(** The corners of a small tetrahedron around the origin *)
Definition k0 (s : R) := mk3 s 0 0. Definition k1 (s : R) := mk3 (- s) s 0. Definition k2 (s : R) := mk3 (- s) (- s) s. Definition k3 (s : R) := mk3 0 0 (- s).
Lemma comp_norm : forall x, Rabs (c0 x) <= norm x /\ Rabs (c1 x) <= norm x /\ Rabs (c2 x) <= norm x.
Proof.
  intros x. assert (A : forall y, y * y <= norm2 x -> Rabs y <= norm x) by (intros y Hy; unfold norm; rewrite <- sqrt_Rsqr_abs; apply sqrt_le_1_alt; exact Hy).
  assert (S : norm2 x = c0 x * c0 x + c1 x * c1 x + c2 x * c2 x) by coords. pose proof (Rle_0_sqr (c0 x)). pose proof (Rle_0_sqr (c1 x)). pose proof (Rle_0_sqr (c2 x)). unfold Rsqr in *. repeat split; apply A; lra.
Qed.
Lemma small_inside : forall s x, 0 < s -> norm x <= s / 7 -> hull [k0 s; k1 s; k2 s; k3 s] x.
Proof.
  intros s x Hs Hx u h H. pose proof (comp_norm x) as (X0 & X1 & X2). set (i := / s). assert (Ei : s * i = 1) by (apply Rinv_r; lra). assert (Ip : 0 < i) by (apply Rinv_0_lt_compat; auto).
  assert (B : forall y, Rabs y <= norm x -> - (1 / 7) <= y * i <= 1 / 7).
  { intros y Hy. assert (L : - (s / 7) <= y <= s / 7) by (revert Hy; unfold Rabs; destruct (Rcase_abs y); lra). split.
    - apply Rle_trans with (- (s / 7) * i); [right; replace (- (s / 7) * i) with (- (1 / 7) * (s * i)) by field; rewrite Ei; ring|apply Rmult_le_compat_r; lra].
    - apply Rle_trans with (s / 7 * i); [apply Rmult_le_compat_r; lra|right; replace (s / 7 * i) with (1 / 7 * (s * i)) by field; rewrite Ei; ring]. }
  apply B in X0. apply B in X1. apply B in X2. set (p := c0 x * i) in *. set (q := c1 x * i) in *. set (r := c2 x * i) in *.
  assert (E0 : c0 x = s * p) by (unfold p; replace (s * (c0 x * i)) with (c0 x * (s * i)) by ring; rewrite Ei; ring). assert (E1 : c1 x = s * q) by (unfold q; replace (s * (c1 x * i)) with (c1 x * (s * i)) by ring; rewrite Ei; ring). assert (E2 : c2 x = s * r) by (unfold r; replace (s * (c2 x * i)) with (c2 x * (s * i)) by ring; rewrite Ei; ring).
  assert (W : forall v w, In v [k0 s; k1 s; k2 s; k3 s] -> 0 <= w -> w * dot u v <= w * h) by (intros v w Hv Hw; apply Rmult_le_compat_l; [lra|apply H; auto]).
  pose proof (W (k0 s) ((2 + 3 * p + q + 2 * r) / 5) ltac:(left; reflexivity) ltac:(lra)) as W0. pose proof (W (k1 s) ((1 - p + 3 * q + r) / 5) ltac:(right; left; reflexivity) ltac:(lra)) as W1.
  pose proof (W (k2 s) ((1 - p - 2 * q + r) / 5) ltac:(right; right; left; reflexivity) ltac:(lra)) as W2. pose proof (W (k3 s) ((1 - p - 2 * q - 4 * r) / 5) ltac:(right; right; right; left; reflexivity) ltac:(lra)) as W3.
  assert (D : dot u x = (2 + 3 * p + q + 2 * r) / 5 * dot u (k0 s) + (1 - p + 3 * q + r) / 5 * dot u (k1 s) + (1 - p - 2 * q + r) / 5 * dot u (k2 s) + (1 - p - 2 * q - 4 * r) / 5 * dot u (k3 s)).
  { unfold dot, k0, k1, k2, k3. cbn [c0 c1 c2]. rewrite E0, E1, E2. field. }
  rewrite D. lra.
Qed.

(** C77: a tetrahedron of size s around a point of the other object, with a ball of radius s / 7 to spare,
    is reported as not intersecting if s is small: the tests compare s^4 and s^6 with CCD_EPS.  With
    doubles this is so for s up to 7e-5. *)
Theorem small_overlap_refuted : forall ceps meps feps tri veq n s, 0 < ceps -> 0 <= feps -> 5 * (feps * feps) <= 1 -> tri_ok tri -> (2 <= n)%nat ->
  0 < s -> 21 * (meps * meps) <= s * s -> 6 * (s * s * (s * s)) < ceps -> 12 * (s * s * (s * s) * (s * s)) < ceps ->
  (forall x, norm x <= s / 7 -> hull [k0 s; k1 s; k2 s; k3 s] x) /\
  exists w l, ccd_gjk ceps meps feps tri veq (poly_sup (k0 s) [k1 s; k2 s; k3 s]) n (mk3 1 0 0) = Some (w, l) /\ (w = NoDir \/ w = Degenerate).
Proof.
  intros ceps meps feps tri veq n s Hc Hf F5 TO Hn Hs Hm H4 H6. split; [intros x; apply small_inside; auto|].
  destruct n as [|[|n]]; [lia|lia|]. clear Hn. assert (SS : 0 < s * s) by (apply Rmult_lt_0_compat; auto).
  assert (E0 : poly_sup (k0 s) [k1 s; k2 s; k3 s] (mk3 1 0 0) = Sp (k0 s) (k0 s) vzero).
  { unfold poly_sup, best. cbn [fold_left]. repeat match goal with |- context [Rlt_dec ?u ?v] => destruct (Rlt_dec u v) as [L|_]; [exfalso; revert L; unfold k0, k1, k2, k3; coords; lra|] end. reflexivity. }
  assert (E1 : poly_sup (k0 s) [k1 s; k2 s; k3 s] (vneg (k0 s)) = Sp (k1 s) (k1 s) vzero).
  { unfold poly_sup, best. cbn [fold_left]. destruct (Rlt_dec (dot (vneg (k0 s)) (k0 s)) _) as [_|N]; [|exfalso; apply N; unfold k0, k1; coords; lra].
    repeat match goal with |- context [Rlt_dec ?u ?v] => destruct (Rlt_dec u v) as [L|_]; [exfalso; revert L; unfold k0, k1, k2, k3; coords; lra|] end. reflexivity. }
  assert (E2 : poly_sup (k0 s) [k1 s; k2 s; k3 s] (mk3 (- s) (- (2 * s)) 0) = Sp (k2 s) (k2 s) vzero).
  { unfold poly_sup, best. cbn [fold_left]. destruct (Rlt_dec (dot (mk3 (- s) (- (2 * s)) 0) (k0 s)) (dot (mk3 (- s) (- (2 * s)) 0) (k1 s))) as [L|_]; [exfalso; revert L; unfold k0, k1; coords; lra|].
    destruct (Rlt_dec (dot (mk3 (- s) (- (2 * s)) 0) (k0 s)) _) as [_|N]; [|exfalso; apply N; unfold k0, k2; coords; lra].
    destruct (Rlt_dec _ _) as [L|_]; [exfalso; revert L; unfold k2, k3; coords; lra|]. reflexivity. }
  set (sup := poly_sup (k0 s) [k1 s; k2 s; k3 s]) in *. clearbody sup. unfold ccd_gjk. rewrite E0. cbn [sv gjk_loop]. rewrite E1. cbn [sv].
  destruct (Rlt_dec (dot (k1 s) (vneg (k0 s))) 0) as [L|_]; [exfalso; revert L; unfold k0, k1; coords; lra|]. cbn [add length Nat.ltb Nat.leb app do_simplex]. unfold do2. cbn [sv].
  destruct (Rle_dec _ _) as [_|N]; [|exfalso; apply N; apply Rle_trans with 0; [unfold k0, k1; coords; lra|apply Rmult_le_pos; [apply norm2_nonneg|lra]]].
  assert (Ec : cross (k0 s) (vsub (k0 s) (k1 s)) = mk3 0 0 (- (s * s))) by (unfold k0, k1; vcoords). rewrite Ec.
  assert (N2 : norm2 (mk3 0 0 (- (s * s))) = (s * s) * (s * s)) by coords. rewrite N2.
  destruct (Rlt_dec _ _) as [L|_].
  { exfalso. revert L. replace (norm2 (vsub (k0 s) (k1 s)) * norm2 (k0 s) * feps * feps) with ((s * s) * (s * s) * (5 * (feps * feps))) by (unfold k0, k1; coords). apply Rle_not_lt. rewrite <- (Rmult_1_r (s * s * (s * s))) at 2. apply Rmult_le_compat_l; [|lra]. apply Rmult_le_pos; lra. }
  assert (Nn : normalized (mk3 0 0 (- (s * s))) = mk3 0 0 (-1)).
  { unfold normalized. rewrite N2. destruct (Rlt_dec _ _) as [_|N]; [|exfalso; apply N; apply Rmult_lt_0_compat; lra]. unfold norm. rewrite N2, sqrt_square by lra. apply v3_ext; unfold vscale; cbn [c0 c1 c2]; field; lra. }
  rewrite Nn. replace (cross (mk3 0 0 (-1)) (vsub (k0 s) (k1 s))) with (mk3 (- s) (- (2 * s)) 0) by (unfold k0, k1; vcoords).
  destruct (ccd_zero ceps _); [eexists; eexists; split; [reflexivity|auto]|]. rewrite E2. cbn [sv].
  destruct (Rlt_dec (dot (k2 s) _) 0) as [L|_]; [exfalso; revert L; unfold k2; coords; lra|]. cbn [add length Nat.ltb Nat.leb app do_simplex]. unfold do3. cbn [sv].
  destruct (tiny2 _ _) eqn:T.
  { exfalso. unfold tiny2 in T. destruct (Rlt_dec _ _) as [L|]; [|discriminate]. destruct (TO vzero (k2 s) (k1 s) (k0 s)) as ((u & v & w & Hu & Hv & Hw & S1 & Ew) & E). rewrite E in L. set (x := snd (tri vzero (k2 s) (k1 s) (k0 s))) in *.
    rewrite Rabs_right in L by (apply Rle_ge, norm2_nonneg). replace (vsub x vzero) with x in L by vcoords.
    assert (D : dot (mk3 1 2 4) x = s). { rewrite Ew. replace u with (1 - v - w) by lra. unfold k0, k1, k2. coords. }
    pose proof (lagrange (mk3 1 2 4) x) as CS. pose proof (norm2_nonneg (cross (mk3 1 2 4) x)) as CN. rewrite D in CS. replace (norm2 (mk3 1 2 4)) with 21 in CS by coords. lra. }
  destruct (_ || _)%bool; [eexists; eexists; split; [reflexivity|auto]|].
  destruct (ahead ceps (dot (cross (cross _ _) _) _)) eqn:A1.
  2:{ exfalso. apply ahead_false in A1; auto. revert A1. unfold k0, k1, k2. unfold ahead. coords. intros A1. lra. }
  destruct (ahead ceps (dot (vsub _ _) _)) eqn:A2.
  2:{ exfalso. apply ahead_false in A2; auto. revert A2. unfold k0, k1, k2. coords. intros A2. lra. }
  replace (norm2 (triple_cross _ _ _)) with (12 * (s * s * (s * s) * (s * s))) by (unfold triple_cross, k0, k2; coords).
  unfold ccd_zero. rewrite Rabs_right by (apply Rle_ge, Rmult_le_pos; [lra|]; repeat apply Rmult_le_pos; lra). destruct (Rlt_dec _ _) as [_|N]; [|contradiction]. eexists; eexists; split; [reflexivity|auto].
Qed.
Print Assumptions small_overlap_refuted.

(** C77: an answer "intersecting" does not mean a common point: a segment of length about 2 m that passes the
    other object at a distance of at least g / 3 is reported as intersecting if g < 2 m eps. *)
Theorem gap_refuted : forall ceps meps feps tri veq n m g, 0 < m -> 0 < g <= m -> g < 2 * m * feps -> (1 <= n)%nat ->
  (forall t, 0 <= t <= 1 -> g / 3 <= norm (vadd (mk3 m 0 0) (vscale t (vsub (mk3 (- m) g 0) (mk3 m 0 0))))) /\
  exists l, ccd_gjk ceps meps feps tri veq (poly_sup (mk3 m 0 0) [mk3 (- m) g 0]) n (mk3 1 0 0) = Some (Inside, l).
Proof.
  intros ceps meps feps tri veq n m g Hm Hg Hf Hn. assert (MM : 0 < m * m) by (apply Rmult_lt_0_compat; auto). assert (GG : 0 < g * g) by (apply Rmult_lt_0_compat; lra).
  assert (GM : g * g <= m * m) by (apply Rmult_le_compat; lra). assert (F0 : 0 < feps). { apply Rmult_lt_reg_l with (2 * m); lra. } split.
  - intros t Ht. set (x := vadd _ _). apply norm_lower; [lra|]. pose proof (lagrange x (mk3 (2 * m) (- g) 0)) as L. replace (cross x (mk3 (2 * m) (- g) 0)) with (mk3 0 0 (- (m * g))) in L by (unfold x; vcoords).
    replace (norm2 (mk3 0 0 (- (m * g)))) with ((m * m) * (g * g)) in L by coords. replace (norm2 (mk3 (2 * m) (- g) 0)) with (4 * (m * m) + g * g) in L by coords. pose proof (Rle_0_sqr (dot x (mk3 (2 * m) (- g) 0))) as S. unfold Rsqr in S.
    apply Rmult_le_reg_r with (4 * (m * m) + g * g); [lra|]. rewrite <- L. assert (P : g * g * (g * g) <= m * m * (g * g)) by (apply Rmult_le_compat_r; lra). assert (P0 : 0 < m * m * (g * g)) by (apply Rmult_lt_0_compat; auto). replace (g / 3 * (g / 3) * (4 * (m * m) + g * g)) with ((4 * (m * m * (g * g)) + g * g * (g * g)) / 9) by field. lra.
  - destruct n as [|n]; [lia|]. unfold ccd_gjk. assert (E0 : poly_sup (mk3 m 0 0) [mk3 (- m) g 0] (mk3 1 0 0) = Sp (mk3 m 0 0) (mk3 m 0 0) vzero).
    { unfold poly_sup, best. cbn [fold_left]. destruct (Rlt_dec _ _) as [L|_]; [exfalso; revert L; coords; lra|reflexivity]. }
    rewrite E0. cbn [sv gjk_loop]. assert (E1 : poly_sup (mk3 m 0 0) [mk3 (- m) g 0] (vneg (mk3 m 0 0)) = Sp (mk3 (- m) g 0) (mk3 (- m) g 0) vzero).
    { unfold poly_sup, best. cbn [fold_left]. destruct (Rlt_dec _ _) as [_|N]; [reflexivity|]. exfalso; apply N; coords; lra. }
    rewrite E1. cbn [sv]. destruct (Rlt_dec _ 0) as [L|_]; [exfalso; revert L; coords; lra|]. cbn [add length Nat.ltb Nat.leb app do_simplex]. unfold do2. cbn [sv].
    destruct (Rle_dec _ _) as [_|N]; [|exfalso; apply N; apply Rle_trans with 0; [coords; lra|apply Rmult_le_pos; [apply norm2_nonneg|lra]]].
    destruct (Rlt_dec _ _) as [_|N]; [eexists; reflexivity|]. exfalso. apply N. clear N E0 E1. replace (norm2 (cross (mk3 m 0 0) (vsub (mk3 m 0 0) (mk3 (- m) g 0)))) with (m * m * (g * g)) by coords.
    replace (norm2 (vsub (mk3 m 0 0) (mk3 (- m) g 0)) * norm2 (mk3 m 0 0) * feps * feps) with (m * m * ((2 * m * feps) * (2 * m * feps) + (g * feps) * (g * feps))) by coords. apply Rmult_lt_compat_l; auto.
    pose proof (Rle_0_sqr (g * feps)) as S. unfold Rsqr in S. assert (g * g < 2 * m * feps * (2 * m * feps)) by (apply Rmult_le_0_lt_compat; lra). lra.
Qed.
Print Assumptions gap_refuted.

(** ** A step of the search *)
Section Step.
Variables ceps meps feps : R.
Hypothesis Hc : 0 < ceps.
Variable tri : v3 -> v3 -> v3 -> v3 -> R * v3.
Variable veq : v3 -> v3 -> bool.
(** The new simplex keeps the point added last, in the last place, beside some of the others; the direction is
    orthogonal to it and does not point away from the origin. *)
Definition steps (s : list sp) (r : step * list sp) : Prop :=
  forall d, fst r = Go d -> exists l a l', s = l ++ [a] /\ snd r = l' ++ [a] /\ incl l' l /\
    (forall p, In p l' -> dot d (vsub (sv p) (sv a)) = 0) /\ - ceps < dot d (vneg (sv a)).
Lemma do2_steps : forall b a r, do2 feps b a = Some r -> steps [b; a] r.
Proof.
  intros b a r E d F. unfold do2 in E. destruct (Rle_dec _ _); [|discriminate]. destruct (Rlt_dec _ _) in E; injection E as <-; cbn [fst snd] in *; [discriminate|]. injection F as <-.
  exists [b], a, [b]. split; [reflexivity|]. split; [reflexivity|]. split; [apply incl_refl|]. set (A := sv a). set (B := sv b). unfold normalized. split.
  - intros p [ <- |[]]. destruct (Rlt_dec _ _); unfold B; coords.
  - assert (P := norm2_nonneg (cross B (vsub B A))). destruct (Rlt_dec _ _) as [L|L].
    + replace (dot (cross (vscale (/ norm (cross B (vsub B A))) (cross B (vsub B A))) (vsub B A)) (vneg A)) with (/ norm (cross B (vsub B A)) * norm2 (cross B (vsub B A))) by coords.
      assert (0 <= / norm (cross B (vsub B A)) * norm2 (cross B (vsub B A))); [|lra]. apply Rmult_le_pos; [|lra]. apply Rlt_le, Rinv_0_lt_compat, sqrt_lt_R0, L.
    + replace (dot (cross (cross B (vsub B A)) (vsub B A)) (vneg A)) with (norm2 (cross B (vsub B A))) by coords. lra.
Qed.
Lemma triple_ahead : forall u v, dot (triple_cross u v u) u = 0 /\ 0 <= dot (triple_cross u v u) v.
Proof. intros u v. unfold triple_cross. split; [coords|]. replace (dot (cross (cross u v) u) v) with (norm2 (cross u v)) by coords. apply norm2_nonneg. Qed.
Lemma do3_45_steps : forall l b a, In b l -> steps (l ++ [a]) (do3_45 ceps b a).
Proof.
  intros l b a I d F. unfold do3_45 in *. destruct (ahead _ _); cbn [fst snd] in *; injection F as <-.
  - exists l, a, [b]. split; [reflexivity|]. split; [reflexivity|]. split; [intros q [ <- |[]]; exact I|]. destruct (triple_ahead (vsub (sv b) (sv a)) (vneg (sv a))) as (T1 & T2). split; [|lra]. intros p [ <- |[]]. exact T1.
  - exists l, a, []. split; [reflexivity|]. split; [reflexivity|]. split; [intros q []|]. split; [intros p []|]. replace (dot (vneg (sv a)) (vneg (sv a))) with (norm2 (sv a)) by coords. pose proof (norm2_nonneg (sv a)). lra.
Qed.
Lemma do3_steps : forall l c b a, In b l -> In c l -> steps (l ++ [a]) (do3 ceps meps tri veq c b a).
Proof.
  intros l c b a Ib Ic. unfold do3. destruct (tiny2 _ _); [intros d F; discriminate|]. destruct (_ || _)%bool; [intros d F; discriminate|].
  destruct (ahead ceps (dot (cross (cross _ _) _) _)); [destruct (ahead ceps (dot (vsub (sv c) _) _)); [|apply do3_45_steps; auto]|].
  - intros d F. cbn [fst snd] in *. injection F as <-. exists l, a, [c]. split; [reflexivity|]. split; [reflexivity|]. split; [intros q [ <- |[]]; exact Ic|]. destruct (triple_ahead (vsub (sv c) (sv a)) (vneg (sv a))) as (T1 & T2). split; [|lra]. intros p [ <- |[]]. exact T1.
  - destruct (ahead ceps (dot (cross _ (cross _ _)) _)); [apply do3_45_steps; auto|]. destruct (ahead ceps (dot (cross _ _) _)) eqn:E; intros d F; cbn [fst snd] in *; injection F as <-.
    + exists l, a, [c; b]. split; [reflexivity|]. split; [reflexivity|]. split; [intros q [ <- |[ <- |[]]]; auto|]. split; [intros p [ <- |[ <- |[]]]; coords|]. apply ahead_true in E; auto.
    + exists l, a, [b; c]. split; [reflexivity|]. split; [reflexivity|]. split; [intros q [ <- |[ <- |[]]]; auto|]. split; [intros p [ <- |[ <- |[]]]; coords|]. apply ahead_false in E; auto. revert E. generalize (cross (vsub (sv b) (sv a)) (vsub (sv c) (sv a))). intros n E. replace (dot (vneg n) (vneg (sv a))) with (- dot n (vneg (sv a))) by coords. lra.
Qed.
(** C77: whatever the simplex is, a step that goes on keeps the point just added in the last place beside some
    of the earlier ones, and searches orthogonally to what it kept, on the side of the origin (up to eps). *)
Theorem simplex_step : forall s d s', do_simplex ceps meps feps tri veq s = Some (Go d, s') ->
  exists l a l', s = l ++ [a] /\ s' = l' ++ [a] /\ incl l' l /\ (forall p, In p l' -> dot d (vsub (sv p) (sv a)) = 0) /\ - ceps < dot d (vneg (sv a)).
Proof.
  intros s d s' E. enough (W : steps s (Go d, s')) by (destruct (W d eq_refl) as (l & a & l' & H); exists l, a, l'; exact H).
  destruct s as [|p0 [|p1 [|p2 [|p3 [|? ?]]]]]; cbn [do_simplex] in E; try discriminate.
  - apply do2_steps, E.
  - assert (T : do3 ceps meps tri veq p0 p1 p2 = (Go d, s')) by congruence. rewrite <- T. apply (do3_steps [p0; p1] p0 p1 p2); cbn; auto.
  - assert (T : do4 ceps meps tri veq p0 p1 p2 p3 = (Go d, s')) by congruence. rewrite <- T. clear E T. unfold do4. cbv zeta.
    destruct (tiny2 _ _); [intros ? F; discriminate|]. destruct (tiny2 _ _); [intros ? F; discriminate|]. destruct (tiny2 _ _); [intros ? F; discriminate|]. destruct (tiny2 _ _); [intros ? F; discriminate|]. destruct (tiny2 _ _); [intros ? F; discriminate|].
    destruct (Req_EM_T _ _); cbn [andb negb]; [|apply (do3_steps [p0; p1; p2]); cbn; auto]. destruct (Req_EM_T _ _); cbn [andb negb]; [|apply (do3_steps [p0; p1; p2]); cbn; auto]. destruct (Req_EM_T _ _); cbn [andb negb]; [intros ? F; discriminate|apply (do3_steps [p0; p1; p2]); cbn; auto].
Qed.
Lemma do3_incl : forall c b a d s', do3 ceps meps tri veq c b a = (Go d, s') -> incl s' [c; b; a].
Proof.
  intros c b a d s' E. destruct (do3_steps [c; b] c b a ltac:(cbn; auto) ltac:(cbn; auto) d ltac:(rewrite E; reflexivity)) as (l & a' & l' & H1 & H2 & H3 & _). rewrite E in H2. cbn [snd] in H2. subst s'.
  change [c; b; a] with ([c; b] ++ [a]). rewrite H1. apply incl_app; [apply incl_appl, H3|apply incl_appr, incl_refl].
Qed.
(** C77: of a tetrahedron, a point is dropped only if the origin is not on its side of the plane of the other
    three. *)
Theorem simplex_drop : forall d c b a dir s', do_simplex ceps meps feps tri veq [d; c; b; a] = Some (Go dir, s') ->
  exists x y z, Permutation [x; y; z] [b; c; d] /\ incl s' [y; z; a] /\
    let n := cross (vsub (sv y) (sv a)) (vsub (sv z) (sv a)) in ccd_sign ceps (dot n (vneg (sv a))) <> ccd_sign ceps (dot n (vsub (sv x) (sv a))).
Proof.
  intros d c b a dir s' E. cbn [do_simplex] in E. assert (T : do4 ceps meps tri veq d c b a = (Go dir, s')) by congruence. clear E. unfold do4 in T. cbv zeta in T.
  destruct (tiny2 _ _) in T; [discriminate|]. destruct (tiny2 _ _) in T; [discriminate|]. destruct (tiny2 _ _) in T; [discriminate|]. destruct (tiny2 _ _) in T; [discriminate|]. destruct (tiny2 _ _) in T; [discriminate|].
  destruct (Req_EM_T _ _) as [_|N] in T; cbn [andb negb] in T.
  2:{ exists b, c, d. split; [apply Permutation_refl|]. split; [|exact N]. apply do3_incl in T. intros p Hp. apply T in Hp. cbn in *. tauto. }
  destruct (Req_EM_T _ _) as [_|N] in T; cbn [andb negb] in T.
  2:{ exists c, d, b. split; [apply Permutation_sym, (Permutation_trans (perm_swap c b [d])); constructor; apply perm_swap|]. split; [|exact N]. apply do3_incl in T. intros p Hp. apply T in Hp. cbn in *. tauto. }
  destruct (Req_EM_T _ _) as [_|N] in T; cbn [andb negb] in T; [discriminate|].
  exists d, b, c. split; [apply Permutation_sym, (Permutation_trans (l' := [b; d; c])); [constructor; apply perm_swap|apply perm_swap]|]. split; [|exact N]. apply do3_incl in T. intros p Hp. apply T in Hp. cbn in *. tauto.
Qed.
End Step.
Print Assumptions simplex_step.
Print Assumptions simplex_drop.
(** A step that goes on: the segment from (1, 0, 0) to (-1, 1, 0) *)
Example step_some : forall ceps meps feps tri veq, 0 <= feps <= 1 / 10 -> let b := Sp (mk3 1 0 0) (mk3 1 0 0) vzero in let a := Sp (mk3 (-1) 1 0) (mk3 (-1) 1 0) vzero in
  exists d, do_simplex ceps meps feps tri veq [b; a] = Some (Go d, [b; a]).
Proof.
  intros ceps meps feps tri veq H b a. cbn [do_simplex]. unfold do2. assert (F : feps * feps <= 1 / 100) by (replace (1 / 100) with (1 / 10 * (1 / 10)) by field; apply Rmult_le_compat; lra).
  destruct (Rle_dec _ _) as [_|N]; [|exfalso; apply N; unfold a, b; cbn [sv]; coords; lra]. destruct (Rlt_dec _ _) as [L|_]; [|eexists; reflexivity]. exfalso. revert L. unfold a, b. cbn [sv]. coords. intros L. lra.
Qed.

(** A run that ends with Apart, and the hypothesis about libccd is not empty. *)
Example apart_point : forall ceps meps feps tri veq n, ccd_gjk ceps meps feps tri veq (poly_sup (mk3 1 2 3) []) (S n) (mk3 1 0 0) = Some (Apart (vneg (mk3 1 2 3)), [Sp (mk3 1 2 3) (mk3 1 2 3) vzero]).
Proof. intros. unfold ccd_gjk, poly_sup. cbn [fold_left sv gjk_loop]. destruct (Rlt_dec _ _) as [|N]; [reflexivity|]. exfalso. apply N. coords. lra. Qed.
Example tri_ok_some : tri_ok (fun P a b c => (norm2 (vsub a P), a)).
Proof. intros P a b c. cbn [fst snd]; split; [exists 1, 0, 0; do 4 (split; [lra|]); vcoords|reflexivity]. Qed.
(** The bound of [small_overlap_refuted] for CCD_EPS about 2.2e-16: corners at 5e-5 *)
Example small_double : let e := / 4503599627370496 in let s := / 20000 in
  21 * (e * e) <= s * s /\ 6 * (s * s * (s * s)) < e /\ 12 * (s * s * (s * s) * (s * s)) < e.
Proof. cbv zeta. repeat split; lra. Qed.
