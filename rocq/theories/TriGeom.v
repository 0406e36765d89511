(** Closest points of two triangles: they exist, and are found at an edge pair or over a face.
    Mathematics used for triangle_distance-inl.h (TriDist.v). *)
From Coq Require Import Reals Lra Lia Psatz List Bool.
From Verif Require Import VecR Motion TriDist.
Import ListNotations.
Open Scope R_scope.
Local Ltac tring T := generalize (T 0%nat) (T 1%nat) (T 2%nat); vring.

(** * Existence of closest points *)
(** unique choice into the reals, from completeness *)
Lemma real_choice : forall (I : Type) (P : I -> R -> Prop),
  (forall i, exists r, P i r /\ forall r', P i r' -> r' = r) -> exists f, forall i, P i (f i).
Proof.
  intros I P H.
  assert (B : forall i, bound (P i)). { intros i. destruct (H i) as (r & _ & U). exists r. intros x Hx. rewrite (U x Hx). lra. }
  assert (E : forall i, exists x, P i x). { intros i. destruct (H i) as (r & Hr & _). eauto. }
  exists (fun i => proj1_sig (completeness (P i) (B i) (E i))). intros i.
  destruct (completeness (P i) (B i) (E i)) as (m & U & L). cbn. destruct (H i) as (r & Hr & Un).
  replace m with r; auto. apply Rle_antisym; [apply U; auto|]. apply L. intros x Hx. rewrite (Un x Hx). lra.
Qed.
Definition lips (F : v3 -> R) (L : R) : Prop := forall x y, Rabs (F x - F y) <= L * dist x y.
(** every Lipschitz function takes its minimum on K *)
Definition attains (K : v3 -> Prop) : Prop := forall F L, lips F L -> exists m, K m /\ forall x, K x -> F m <= F x.
Definition bounded (K : v3 -> Prop) : Prop := exists b, forall x y, K x -> K y -> dist x y <= b.

Lemma min_on_unit : forall f L, (forall x y, Rabs (f x - f y) <= L * Rabs (x - y)) ->
  exists m, 0 <= m <= 1 /\ forall x, 0 <= x <= 1 -> f m <= f x.
Proof.
  intros f L H. destruct (continuity_ab_min f 0 1) as (m & Hm & Hi); [lra| |exists m; split; auto].
  intros c _ eps He. exists (eps / (Rabs L + 1)). pose proof (Rabs_pos L).
  assert (0 < / (Rabs L + 1)) by (apply Rinv_0_lt_compat; lra).
  split; [apply Rmult_lt_0_compat; lra|]. intros x (_ & Hx). unfold dist in Hx. cbn in Hx. cbn. unfold R_dist in *.
  eapply Rle_lt_trans; [apply H|].
  apply Rle_lt_trans with ((Rabs L + 1) * Rabs (x - c)).
  - apply Rmult_le_compat_r; [apply Rabs_pos|]. pose proof (Rle_abs L). lra.
  - apply Rmult_lt_reg_l with (/ (Rabs L + 1)); auto. rewrite <- Rmult_assoc, Rinv_l, Rmult_1_l by lra. unfold Rdiv in Hx. lra.
Qed.
Lemma attains_point : forall a, attains (fun x => x = a).
Proof. intros a F L _. exists a. split; auto. intros x ->. lra. Qed.
Definition join (a : v3) (K : v3 -> Prop) (x : v3) : Prop := exists s k, 0 <= s <= 1 /\ K k /\ x = vadd a (vscale s (vsub k a)).
Lemma dist_join_k : forall a s k k', dist (vadd a (vscale s (vsub k a))) (vadd a (vscale s (vsub k' a))) = Rabs s * dist k k'.
Proof. intros. unfold dist. rewrite <- norm_scale. f_equal. vring. Qed.
Lemma dist_join_s : forall a s s' k, dist (vadd a (vscale s (vsub k a))) (vadd a (vscale s' (vsub k a))) = Rabs (s - s') * dist k a.
Proof. intros. unfold dist. rewrite <- norm_scale. f_equal. vring. Qed.
Lemma lips_pos : forall F L, lips F L -> 0 <= L.
Proof.
  intros F L H. specialize (H (mk3 1 0 0) vzero). pose proof (Rabs_pos (F (mk3 1 0 0) - F vzero)).
  replace (dist (mk3 1 0 0) vzero) with 1 in H; [lra|]. unfold dist, norm, norm2, dot, vsub, vzero. cbn [c0 c1 c2].
  replace ((1 - 0) * (1 - 0) + (0 - 0) * (0 - 0) + (0 - 0) * (0 - 0)) with 1 by ring. symmetry. apply sqrt_1.
Qed.
(** the least value of h i over K, as a function of i *)
Lemma min_fun : forall (I : Type) (K : v3 -> Prop) (h : I -> v3 -> R),
  (forall i, exists m, K m /\ forall x, K x -> h i m <= h i x) ->
  exists g, forall i, (exists m, K m /\ g i = h i m) /\ forall x, K x -> g i <= h i x.
Proof.
  intros I K h H. apply (real_choice I (fun i r => (exists m, K m /\ r = h i m) /\ forall x, K x -> r <= h i x)).
  intros i. destruct (H i) as (m & Km & Hm). exists (h i m). split; [split; eauto|].
  intros r' ((m' & Km' & ->) & Hm'). apply Rle_antisym; auto.
Qed.
Lemma attains_join : forall a K, attains K -> bounded (join a K) -> (exists k, K k) -> attains (join a K).
Proof.
  intros a K HK (b & Hb) (k0 & Hk0) F L HF. pose proof (lips_pos F L HF) as HL.
  assert (Hbk : forall k, K k -> dist k a <= b).
  { intros k Hk. apply Hb; [exists 1, k|exists 0, k]; (split; [lra|split; auto]); vring. }
  assert (Hb0 : 0 <= b) by (eapply Rle_trans; [apply dist_nonneg|apply (Hbk k0 Hk0)]).
  destruct (min_fun R K (fun s k => F (vadd a (vscale s (vsub k a))))) as (g & Hg).
  { intros s. apply (HK _ (L * Rabs s)). intros x y. rewrite Rmult_assoc, <- (dist_join_k a). apply HF. }
  assert (Lg : forall s s', g s - g s' <= L * b * Rabs (s - s')).
  { intros s s'. destruct (Hg s) as [_ U]. destruct (Hg s') as [(m & Km & E) _]. rewrite E. specialize (U m Km).
    specialize (HF (vadd a (vscale s (vsub m a))) (vadd a (vscale s' (vsub m a)))). rewrite dist_join_s in HF.
    match type of HF with Rabs ?z <= _ => pose proof (Rle_abs z) end.
    assert (L * (Rabs (s - s') * dist m a) <= L * b * Rabs (s - s')).
    { rewrite Rmult_assoc. apply Rmult_le_compat_l; auto. rewrite (Rmult_comm b). apply Rmult_le_compat_l; [apply Rabs_pos|auto]. }
    lra. }
  destruct (min_on_unit g (L * b)) as (s & Hs & Hmin).
  { intros x y. apply Rabs_le. pose proof (Lg x y). pose proof (Lg y x) as H'. rewrite Rabs_minus_sym in H'. lra. }
  destruct (Hg s) as [(m & Km & E) _]. exists (vadd a (vscale s (vsub m a))). split; [exists s, m; auto|].
  intros x (s' & k & Hs' & Hk & ->). rewrite <- E. eapply Rle_trans; [apply (Hmin s' Hs')|]. apply Hg; auto.
Qed.

Definition tri_set (T : triangle) : v3 -> Prop := in_tri (T 0%nat) (T 1%nat) (T 2%nat).
Lemma tri_join : forall T x, tri_set T x <-> join (T 0%nat) (join (T 1%nat) (fun y => y = T 2%nat)) x.
Proof.
  intros T x. split.
  - intros (u & v & w & Hu & Hv & Hw & S & ->).
    destruct (Req_EM_T (v + w) 0) as [E|E].
    + assert (v = 0) by lra. assert (w = 0) by lra. assert (u = 1) by lra. subst. exists 0, (T 1%nat). split; [lra|]. split.
      * exists 0, (T 2%nat). split; [lra|]. split; auto. tring T.
      * tring T.
    + exists (v + w), (vadd (T 1%nat) (vscale (w / (v + w)) (vsub (T 2%nat) (T 1%nat)))). split; [lra|]. split.
      * exists (w / (v + w)), (T 2%nat). split; [|split; auto]. assert (0 < / (v + w)) by (apply Rinv_0_lt_compat; lra).
        split; [apply Rmult_le_pos; lra|]. apply Rmult_le_reg_r with (v + w); [lra|]. unfold Rdiv. rewrite Rmult_assoc, Rinv_l; lra.
      * replace u with (1 - v - w) by lra. apply v3_ext; unfold vadd, vscale, vsub; cbn [c0 c1 c2]; field; auto.
  - intros (s & k & Hs & (r & k' & Hr & -> & ->) & ->).
    exists (1 - s), (s * (1 - r)), (s * r). repeat split; try nra. tring T.
Qed.
Lemma tri_bounded : forall T, bounded (tri_set T).
Proof.
  intros T.
  set (m := norm (T 0%nat) + norm (T 1%nat) + norm (T 2%nat)).
  assert (H : forall x, tri_set T x -> norm x <= m).
  { intros x (u & v & w & Hu & Hv & Hw & S & ->).
    pose proof (norm_nonneg (T 0%nat)). pose proof (norm_nonneg (T 1%nat)). pose proof (norm_nonneg (T 2%nat)).
    eapply Rle_trans; [apply norm_triangle|]. eapply Rle_trans; [apply Rplus_le_compat_r; apply norm_triangle|].
    rewrite !norm_scale, !Rabs_pos_eq by auto. unfold m. nra. }
  exists (m + m). intros x y Hx Hy. unfold dist. replace (vsub x y) with (vadd x (vneg y)) by vring.
  eapply Rle_trans; [apply norm_triangle|]. rewrite norm_neg. specialize (H x Hx) as H1. specialize (H y Hy). lra.
Qed.
Lemma tri_attains : forall T, attains (tri_set T).
Proof.
  intros T F L HF.
  assert (B1 : bounded (join (T 1%nat) (fun y => y = T 2%nat))).
  { destruct (tri_bounded T) as (b & Hb). exists b. intros x y Hx Hy. apply Hb; apply tri_join; [exists 1, x|exists 1, y]; (split; [lra|split; [assumption|]]); tring T. }
  assert (B0 : bounded (join (T 0%nat) (join (T 1%nat) (fun y => y = T 2%nat)))).
  { destruct (tri_bounded T) as (b & Hb). exists b. intros x y Hx Hy. apply Hb; apply tri_join; auto. }
  destruct (attains_join (T 0%nat) (join (T 1%nat) (fun y => y = T 2%nat))) with (F := F) (L := L) as (m & Hm & Hi); auto.
  - apply attains_join; auto using attains_point. eauto.
  - exists (T 2%nat). exists 1, (T 2%nat). split; [lra|]. split; auto. tring T.
  - exists m. split; [apply tri_join; auto|]. intros x Hx. apply Hi, tri_join; auto.
Qed.
(** a closest pair of two sets *)
Definition closest (K1 K2 : v3 -> Prop) (p q : v3) : Prop :=
  K1 p /\ K2 q /\ forall a b, K1 a -> K2 b -> norm2 (vsub q p) <= norm2 (vsub b a).
Lemma dist_lips : forall y, lips (fun x => dist x y) 1.
Proof.
  intros y a b. rewrite Rmult_1_l. apply Rabs_le. pose proof (dist_triangle a b y). pose proof (dist_triangle b a y).
  rewrite (dist_sym b a) in H0. lra.
Qed.
Lemma closest_exists : forall T1 T2, exists p q, closest (tri_set T1) (tri_set T2) p q.
Proof.
  intros T1 T2.
  destruct (min_fun v3 (tri_set T2) (fun x y => dist y x)) as (g & Hg).
  { intros x. apply (tri_attains T2 _ 1). apply dist_lips. }
  destruct (tri_attains T1 g 1) as (p & Hp & Hmin).
  { assert (Lg : forall x y, g x - g y <= dist x y).
    { intros x y. destruct (Hg x) as [_ U]. destruct (Hg y) as [(m & Km & E) _]. rewrite E. specialize (U m Km).
      pose proof (dist_triangle m y x). rewrite (dist_sym y x) in H. lra. }
    intros x y. rewrite Rmult_1_l. apply Rabs_le. pose proof (Lg x y). pose proof (Lg y x) as H'. rewrite dist_sym in H'. lra. }
  destruct (Hg p) as [(q & Kq & E) _]. exists p, q. split; auto. split; auto. intros a b Ha Hb.
  assert (D : dist q p <= dist b a). { rewrite <- E. eapply Rle_trans; [apply (Hmin a Ha)|]. apply Hg; auto. }
  unfold dist in D. apply norm_le_sq in D; [|apply norm_nonneg]. rewrite norm_sq in D. exact D.
Qed.
Lemma closest_sym : forall K1 K2 p q, closest K1 K2 p q -> closest K2 K1 q p.
Proof. intros K1 K2 p q (A & B & H). split; auto. split; auto. intros. rewrite (norm2_sub_sym p q), (norm2_sub_sym b a). auto. Qed.

(** * Supporting planes *)
Lemma tri_convex : forall T a b t, tri_set T a -> tri_set T b -> 0 <= t <= 1 -> tri_set T (vadd a (vscale t (vsub b a))).
Proof.
  intros T a b t (u & v & w & Hu & Hv & Hw & S & ->) (u' & v' & w' & Hu' & Hv' & Hw' & S' & ->) Ht.
  exists ((1 - t) * u + t * u'), ((1 - t) * v + t * v'), ((1 - t) * w + t * w').
  repeat split; try (apply Rplus_le_le_0_compat; apply Rmult_le_pos; lra).
  - replace ((1 - t) * u + t * u' + ((1 - t) * v + t * v') + ((1 - t) * w + t * w')) with ((1 - t) * (u + v + w) + t * (u' + v' + w')) by ring. rewrite S, S'. ring.
  - tring T.
Qed.
Lemma tri_vertex : forall T i, (i < 3)%nat -> tri_set T (T i).
Proof.
  intros T i Hi. destruct i as [|[|[|i]]]; [exists 1, 0, 0|exists 0, 1, 0|exists 0, 0, 1|exfalso; lia]; repeat split; try lra; tring T.
Qed.
Lemma closest_support1 : forall T1 T2 p q x, closest (tri_set T1) (tri_set T2) p q -> tri_set T1 x -> dot (vsub x p) (vsub q p) <= 0.
Proof.
  intros T1 T2 p q x (Hp & Hq & H) Hx.
  destruct (Rle_dec (dot (vsub x p) (vsub q p)) 0) as [|N]; auto. exfalso. apply Rnot_le_lt in N.
  set (e := dot (vsub x p) (vsub q p)) in *. set (l := norm2 (vsub x p)).
  assert (Hl : 0 <= l) by apply norm2_nonneg.
  assert (K : forall t, 0 <= t <= 1 -> 0 <= - 2 * t * e + t * t * l).
  { intros t Ht. specialize (H _ q (tri_convex T1 p x t Hp Hx Ht) Hq).
    replace (norm2 (vsub q (vadd p (vscale t (vsub x p))))) with (norm2 (vsub q p) - 2 * t * e + t * t * l) in H by (unfold e, l; vring). lra. }
  destruct (Rle_dec l e) as [L|L].
  - specialize (K 1 ltac:(lra)). lra.
  - apply Rnot_le_lt in L. assert (0 < / l) by (apply Rinv_0_lt_compat; lra).
    assert (Ht : 0 <= e / l <= 1).
    { split; [apply Rmult_le_pos; lra|]. apply Rmult_le_reg_r with l; [lra|]. unfold Rdiv. rewrite Rmult_assoc, Rinv_l; lra. }
    specialize (K _ Ht). replace (-2 * (e / l) * e + e / l * (e / l) * l) with (- (e * e * / l)) in K by (field; lra).
    assert (0 < e * e * / l) by (repeat apply Rmult_lt_0_compat; auto). lra.
Qed.
Lemma closest_support2 : forall T1 T2 p q y, closest (tri_set T1) (tri_set T2) p q -> tri_set T2 y -> 0 <= dot (vsub y q) (vsub q p).
Proof.
  intros T1 T2 p q y H Hy. pose proof (closest_support1 T2 T1 q p y (closest_sym _ _ _ _ H) Hy) as K.
  replace (dot (vsub y q) (vsub p q)) with (- dot (vsub y q) (vsub q p)) in K by vring. lra.
Qed.
Lemma closest_shift : forall K1 K2 p q w, closest K1 K2 p q -> K1 (vadd p w) -> K2 (vadd q w) -> closest K1 K2 (vadd p w) (vadd q w).
Proof.
  intros K1 K2 p q w (_ & _ & H) H1 H2. split; auto. split; auto. intros a b Ha Hb.
  replace (vsub (vadd q w) (vadd p w)) with (vsub q p) by vring. auto.
Qed.

(** * Edges *)
Definition on_edge (T : triangle) (i : nat) (x : v3) : Prop := exists s, 0 <= s <= 1 /\ x = vadd (T i) (vscale s (side T i)).
Lemma on_edge_tri : forall T i x, (i < 3)%nat -> on_edge T i x -> tri_set T x.
Proof.
  intros T i x Hi (s & Hs & ->). destruct i as [|[|[|i]]]; [| | |exfalso; lia]; cbn [side nx]; unfold side, nx.
  - exists (1 - s), s, 0. repeat split; try lra. tring T.
  - exists 0, (1 - s), s. repeat split; try lra. tring T.
  - exists s, 0, (1 - s). repeat split; try lra. tring T.
Qed.
(** edge_fun T i of a point with barycentric coordinates (u,v,w) *)
Lemma edge_fun_bary : forall T u v w x, u + v + w = 1 ->
  x = vadd (vadd (vscale u (T 0%nat)) (vscale v (T 1%nat))) (vscale w (T 2%nat)) -> let n := normal T in
  edge_fun T 0 x = w * dot n n /\ edge_fun T 1 x = u * dot n n /\ edge_fun T 2 x = v * dot n n.
Proof.
  intros T u v w x S -> n. assert (u = 1 - v - w) by lra. subst u. unfold n, edge_fun, normal, side, nx.
  generalize (T 0%nat) (T 1%nat) (T 2%nat). intros a b c. repeat split; vring.
Qed.
Lemma bary_of : forall T x, let n := normal T in
  vscale (dot n n) (vsub x (T 0%nat)) =
  vadd (vadd (vscale (edge_fun T 2 x) (side T 0)) (vscale (edge_fun T 0 x) (vsub (T 2%nat) (T 0%nat)))) (vscale (dot (vsub x (T 0%nat)) n) n).
Proof.
  intros T x n. unfold n, edge_fun, normal, side, nx. generalize (T 0%nat) (T 1%nat) (T 2%nat). intros a b c. vring.
Qed.
Lemma edge_fun_sum : forall T x, let n := normal T in edge_fun T 0 x + edge_fun T 1 x + edge_fun T 2 x = dot n n.
Proof. intros T x n. unfold n, edge_fun, normal, side, nx. generalize (T 0%nat) (T 1%nat) (T 2%nat). intros a b c. vring. Qed.
(** the triangle from its edge functions *)
Lemma tri_of_edges : forall T x, dot (normal T) (normal T) <> 0 -> dot (vsub x (T 0%nat)) (normal T) = 0 ->
  (forall i, (i < 3)%nat -> 0 <= edge_fun T i x) ->
  tri_set T x /\ forall i, (i < 3)%nat -> edge_fun T i x = 0 -> on_edge T i x.
Proof.
  intros T x Hn Hp Hi. set (n := normal T) in *. set (l := dot n n) in *.
  assert (Hl : 0 < l) by (pose proof (dot_pos n); unfold l in *; lra).
  pose proof (bary_of T x) as E. pose proof (edge_fun_sum T x) as S. cbv zeta in E, S. fold n l in E, S. rewrite Hp in E.
  pose proof (Hi 0%nat ltac:(lia)) as H0. pose proof (Hi 1%nat ltac:(lia)) as H1. pose proof (Hi 2%nat ltac:(lia)) as H2.
  set (e0 := edge_fun T 0 x) in *. set (e1 := edge_fun T 1 x) in *. set (e2 := edge_fun T 2 x) in *.
  assert (X : x = vadd (vadd (vscale (e1 / l) (T 0%nat)) (vscale (e2 / l) (T 1%nat))) (vscale (e0 / l) (T 2%nat))).
  { replace e1 with (l - e0 - e2) by lra.
    apply v3_ext; [pose proof (f_equal c0 E) as F|pose proof (f_equal c1 E) as F|pose proof (f_equal c2 E) as F];
    unfold side, nx, vadd, vsub, vscale in F |- *; cbn [c0 c1 c2] in F |- *;
    (apply Rmult_eq_reg_l with l; [|lra]);
    match goal with |- _ = l * (?a / l * ?x + ?b / l * ?y + ?c / l * ?z) => replace (l * (a / l * x + b / l * y + c / l * z)) with (a * x + b * y + c * z) by (field; lra) end; lra. }
  assert (Q : forall e, 0 <= e -> 0 <= e / l). { intros. apply Rmult_le_pos; auto. left. apply Rinv_0_lt_compat; auto. }
  assert (SS : e0 / l + e1 / l + e2 / l = 1). { replace (e0 / l + e1 / l + e2 / l) with ((e0 + e1 + e2) / l) by (field; lra). rewrite S. field. lra. }
  pose proof (Q e0 H0). pose proof (Q e1 H1). pose proof (Q e2 H2).
  split. { exists (e1 / l), (e2 / l), (e0 / l). repeat split; auto; lra. }
  intros i Hi3 Hz. destruct i as [|[|[|i]]]; [| | |lia].
  - fold e0 in Hz. exists (e2 / l). split; [lra|]. rewrite X at 1. replace (e1 / l) with (1 - e2 / l - e0 / l) by lra. rewrite Hz.
    replace (0 / l) with 0 by (unfold Rdiv; ring). unfold side, nx. tring T.
  - fold e1 in Hz. exists (e0 / l). split; [lra|]. rewrite X at 1. replace (e2 / l) with (1 - e0 / l - e1 / l) by lra. rewrite Hz.
    replace (0 / l) with 0 by (unfold Rdiv; ring). unfold side, nx. tring T.
  - fold e2 in Hz. exists (e1 / l). split; [lra|]. rewrite X at 1. replace (e0 / l) with (1 - e1 / l - e2 / l) by lra. rewrite Hz.
    replace (0 / l) with 0 by (unfold Rdiv; ring). unfold side, nx. tring T.
Qed.
Lemma tri_plane : forall T x, tri_set T x -> dot (vsub x (T 0%nat)) (normal T) = 0.
Proof.
  intros T x (u & v & w & _ & _ & _ & S & ->). assert (u = 1 - v - w) by lra. subst u. unfold normal, side, nx.
  generalize (T 0%nat) (T 1%nat) (T 2%nat). intros a b c. vring.
Qed.
Lemma tri_edges_nonneg : forall T x i, (i < 3)%nat -> tri_set T x -> 0 <= edge_fun T i x.
Proof.
  intros T x i Hi (u & v & w & Hu & Hv & Hw & S & E). destruct (edge_fun_bary T u v w x S E) as (A & B & C).
  pose proof (dot_pos (normal T)). destruct i as [|[|[|i]]]; [rewrite A|rewrite B|rewrite C|lia]; apply Rmult_le_pos; auto.
Qed.
(** a flat triangle is the union of its edges *)
Lemma flat_on_edge : forall T x, dot (normal T) (normal T) = 0 -> tri_set T x -> exists i, (i < 3)%nat /\ on_edge T i x.
Proof.
  intros T x Hn (u & v & w & Hu & Hv & Hw & S & ->). apply dot_zero in Hn. unfold normal in Hn.
  destruct (Req_EM_T (dot (side T 0) (side T 0)) 0) as [Z|Z].
  - apply dot_zero in Z. exists 1%nat. split; [lia|]. exists w. split; [lra|].
    assert (E : T 1%nat = T 0%nat).
    { unfold side, nx in Z. apply v3_ext; [pose proof (f_equal c0 Z) as F|pose proof (f_equal c1 Z) as F|pose proof (f_equal c2 Z) as F];
      unfold vsub, vzero in F; cbn [c0 c1 c2] in F; lra. }
    unfold side, nx. rewrite E. replace u with (1 - v - w) by lra. generalize (T 0%nat) (T 2%nat). vring.
  - set (k := dot (side T 0) (side T 1) / dot (side T 0) (side T 0)).
    assert (E : side T 1 = vscale k (side T 0)).
    { pose proof (cross3 (side T 0) (side T 0) (side T 1)) as C. rewrite Hn in C. replace (cross (side T 0) vzero) with vzero in C by vring.
      set (A := side T 0) in *. set (B := side T 1) in *. unfold k. clear -C Z.
      apply v3_ext; [pose proof (f_equal c0 C) as F|pose proof (f_equal c1 C) as F|pose proof (f_equal c2 C) as F];
      unfold vsub, vscale, vzero in F |- *; cbn [c0 c1 c2] in F |- *;
      (apply Rmult_eq_reg_l with (dot A A); auto;
       match goal with |- _ = _ * (_ / _ * ?y) => replace (dot A A * (dot A B / dot A A * y)) with (dot A B * y) by (field; auto) end; lra). }
    assert (E2 : T 2%nat = vadd (T 0%nat) (vscale (1 + k) (side T 0))).
    { replace (T 2%nat) with (vadd (vadd (T 0%nat) (side T 0)) (side T 1)) by (unfold side, nx; generalize (T 0%nat) (T 1%nat) (T 2%nat); vring).
      rewrite E. generalize (T 0%nat) (side T 0). vring. }
    assert (E1 : T 1%nat = vadd (T 0%nat) (side T 0)) by (unfold side, nx; generalize (T 0%nat) (T 1%nat); vring).
    set (mu := v + w * (1 + k)).
    assert (X : vadd (vadd (vscale u (T 0%nat)) (vscale v (T 1%nat))) (vscale w (T 2%nat)) = vadd (T 0%nat) (vscale mu (side T 0))).
    { rewrite E1, E2. replace u with (1 - v - w) by lra. unfold mu. generalize (T 0%nat) (side T 0). vring. }
    rewrite X. destruct (Rle_dec 0 mu) as [L|L]; [destruct (Rle_dec mu 1) as [L1|L1]|].
    + exists 0%nat. split; [lia|]. exists mu. split; auto.
    + apply Rnot_le_lt in L1. assert (Em : mu = v + w + w * k) by (unfold mu; ring). clearbody mu k.
      assert (Hk0 : 0 < k). { destruct (Rle_dec k 0) as [W|W]; [exfalso; nra|lra]. }
      assert (Hk : mu - 1 <= k) by nra.
      exists 1%nat. split; [lia|]. exists ((mu - 1) / k).
      assert (0 < / k) by (apply Rinv_0_lt_compat; auto). split.
      * split; [apply Rmult_le_pos; lra|]. apply Rmult_le_reg_r with k; auto. unfold Rdiv. rewrite Rmult_assoc, Rinv_l; lra.
      * rewrite E, E1. apply v3_ext; unfold vadd, vscale; cbn [c0 c1 c2]; field; lra.
    + apply Rnot_le_lt in L. assert (Em : mu = v + w * (1 + k)) by reflexivity. clearbody mu k.
      assert (Hk0 : 1 + k < 0). { destruct (Rle_dec 0 (1 + k)) as [W|W]; [exfalso; nra|lra]. }
      assert (Hk : 1 + k <= mu) by nra.
      exists 2%nat. split; [lia|]. exists (1 - mu / (1 + k)).
      assert (0 < / - (1 + k)) by (apply Rinv_0_lt_compat; lra).
      assert (Hq : 0 <= mu / (1 + k) <= 1).
      { replace (mu / (1 + k)) with ((- mu) * / - (1 + k)) by (field; lra). split; [apply Rmult_le_pos; lra|].
        apply Rmult_le_reg_r with (- (1 + k)); [lra|]. rewrite Rmult_assoc, Rinv_l; lra. }
      split; [lra|]. unfold side at 2. unfold nx. rewrite E2. apply v3_ext; unfold vadd, vsub, vscale; cbn [c0 c1 c2]; field; lra.
Qed.
(** a point of a triangle is on an edge or strictly inside a proper triangle *)
Definition inside (T : triangle) (x : v3) : Prop := forall i, (i < 3)%nat -> 0 < edge_fun T i x.
Lemma edge_or_inside : forall T x, tri_set T x ->
  (exists i, (i < 3)%nat /\ on_edge T i x) \/ (dot (normal T) (normal T) <> 0 /\ inside T x).
Proof.
  intros T x Hx. destruct (Req_EM_T (dot (normal T) (normal T)) 0) as [Z|Z]; [left; apply flat_on_edge; auto|].
  destruct (tri_of_edges T x Z (tri_plane T x Hx)) as [_ He]. { intros; apply tri_edges_nonneg; auto. }
  assert (D : forall i, (i < 3)%nat -> edge_fun T i x = 0 \/ 0 < edge_fun T i x).
  { intros i Hi. pose proof (tri_edges_nonneg T x i Hi Hx). lra. }
  destruct (D 0%nat ltac:(lia)) as [E|E0]; [left; exists 0%nat; split; [lia|apply He; auto]|].
  destruct (D 1%nat ltac:(lia)) as [E|E1]; [left; exists 1%nat; split; [lia|apply He; auto]|].
  destruct (D 2%nat ltac:(lia)) as [E|E2]; [left; exists 2%nat; split; [lia|apply He; auto]|].
  right. split; auto. intros i Hi. destruct i as [|[|[|i]]]; auto. lia.
Qed.

(** * Closest pairs over a face *)
Lemma exit_list : forall L : list (R * R), (forall l m, In (l, m) L -> 0 < l) ->
  (forall l m, In (l, m) L -> 0 < m) \/
  exists t, 0 < t <= 1 /\ (forall l m, In (l, m) L -> 0 <= l + t * (m - l)) /\ exists l m, In (l, m) L /\ l + t * (m - l) = 0.
Proof.
  induction L as [|(l, m) L IH]; intros H; [left; intros l m []|].
  pose proof (H l m (or_introl eq_refl)) as Hl.
  destruct IH as [A|(t & Ht & A & l1 & m1 & I1 & E1)]; [intros; apply (H l0 m0); right; auto| |].
  - destruct (Rlt_dec 0 m) as [P|P]; [left; intros l' m' [E|I]; [injection E as <- <-; auto|eauto]|].
    right. assert (0 < / (l - m)) by (apply Rinv_0_lt_compat; lra).
    assert (Et : l + l / (l - m) * (m - l) = 0) by (field; lra).
    assert (Ht : 0 < l / (l - m) <= 1).
    { split; [apply Rmult_lt_0_compat; auto|]. apply Rmult_le_reg_r with (l - m); [lra|]. unfold Rdiv. rewrite Rmult_assoc, Rinv_l; lra. }
    exists (l / (l - m)). split; auto. split.
    + intros l' m' [E|I]; [injection E as <- <-; lra|].
      pose proof (H l' m' (or_intror I)). pose proof (A l' m' I). set (t := l / (l - m)) in *.
      replace (l' + t * (m' - l')) with ((1 - t) * l' + t * m') by ring.
      apply Rplus_le_le_0_compat; apply Rmult_le_pos; lra.
    + exists l, m. split; [left; auto|auto].
  - right. destruct (Rle_dec 0 (l + t * (m - l))) as [P|P].
    + exists t. split; auto. split; [intros l' m' [E|I]; [injection E as <- <-; auto|auto]|].
      exists l1, m1. split; [right; auto|auto].
    + assert (Hm : m < l) by (apply Rnot_le_lt in P; nra). assert (0 < / (l - m)) by (apply Rinv_0_lt_compat; lra).
      assert (Et : l + l / (l - m) * (m - l) = 0) by (field; lra).
      set (s := l / (l - m)) in *. assert (Hs0 : 0 < s) by (apply Rmult_lt_0_compat; auto).
      assert (Hst : s <= t) by (apply Rnot_le_lt in P; nra).
      exists s. split; [lra|]. split.
      * intros l' m' [E|I]; [injection E as <- <-; lra|].
        pose proof (H l' m' (or_intror I)). pose proof (A l' m' I).
        apply Rmult_le_reg_l with t; [lra|]. rewrite Rmult_0_r.
        replace (t * (l' + s * (m' - l'))) with ((t - s) * l' + s * (l' + t * (m' - l'))) by ring.
        apply Rplus_le_le_0_compat; apply Rmult_le_pos; lra.
      * exists l, m. split; [left; auto|auto].
Qed.
Lemma exit3 : forall l m : nat -> R, (forall i, (i < 3)%nat -> 0 < l i) ->
  (forall i, (i < 3)%nat -> 0 < m i) \/
  exists t i, 0 <= t <= 1 /\ (i < 3)%nat /\ (forall k, (k < 3)%nat -> 0 <= l k + t * (m k - l k)) /\ l i + t * (m i - l i) = 0.
Proof.
  intros l m H.
  destruct (exit_list [(l 0%nat, m 0%nat); (l 1%nat, m 1%nat); (l 2%nat, m 2%nat)]) as [A|(t & Ht & A & l1 & m1 & I1 & E1)].
  - intros a b [E|[E|[E|[]]]]; injection E as <- <-; apply H; lia.
  - left. intros i Hi. destruct i as [|[|[|i]]]; [| | |lia]; eapply A; cbn; eauto.
  - right. assert (AA : forall k, (k < 3)%nat -> 0 <= l k + t * (m k - l k)).
    { intros i Hi. destruct i as [|[|[|i]]]; [| | |lia]; apply A; cbn; auto. }
    destruct I1 as [E|[E|[E|[]]]]; injection E as <- <-; [exists t, 0%nat|exists t, 1%nat|exists t, 2%nat]; (repeat split; auto; try lra; lia).
Qed.
Lemma edge_fun_add : forall T i a w, edge_fun T i (vadd a w) = edge_fun T i a + dot w (cross (normal T) (side T i)).
Proof. intros. unfold edge_fun. replace (vsub (vadd a w) (T i)) with (vadd (vsub a (T i)) w) by (generalize (T i); vring). apply dot_add_l. Qed.

(** edge-edge pair at displacement n *)
Definition edge_pair (T O : triangle) (n : v3) : Prop :=
  exists i j a b, (i < 3)%nat /\ (j < 3)%nat /\ on_edge T i a /\ on_edge O j b /\ vsub b a = n.
Lemma edge_pair_sym : forall T O n, edge_pair T O n -> edge_pair O T (vneg n).
Proof. intros T O n (i & j & a & b & Hi & Hj & A & B & <-). exists j, i, b, a. repeat split; auto. vring. Qed.

Lemma comb3 : forall u v w a b c p n, u * dot (vsub a p) n + v * dot (vsub b p) n + w * dot (vsub c p) n =
  dot (vsub (vadd (vadd (vscale u a) (vscale v b)) (vscale w c)) (vscale (u + v + w) p)) n.
Proof. intros. rewrite !dot_sub_l, !dot_add_l, !dot_scale_l. ring. Qed.
Lemma fv1 : forall p, vsub p (vscale 1 p) = vzero. Proof. vring. Qed.
Lemma fv2 : forall p, vscale 1 p = p. Proof. vring. Qed.
Lemma fv3 : forall a b p, vsub (vsub a p) (vsub b p) = vsub a b. Proof. vring. Qed.
Lemma fv4 : forall a, vscale 0 a = vzero. Proof. vring. Qed.
Lemma fv5 : forall k k' n s, dot (vscale k n) (cross (vscale k' n) s) = 0. Proof. vring. Qed.
Lemma fv6 : forall p q y, vadd (vadd p (vsub y q)) (vscale 1 (vsub q p)) = y. Proof. vring. Qed.
Lemma fv7 : forall p w a, vadd (vscale (-1) (vsub a p)) w = vsub (vadd p w) a. Proof. vring. Qed.
Section Face.
Variables (T O : triangle) (p q : v3).
Hypothesis C : closest (tri_set T) (tri_set O) p q.
Hypothesis Hn : vsub q p <> vzero.
Hypothesis HN : dot (normal T) (normal T) <> 0.
Hypothesis Hin : inside T p.
Let n := vsub q p.

Lemma face_perp : forall x, tri_set T x -> dot (vsub x p) n = 0.
Proof.
  intros x Hx. destruct C as (Hp & _ & _). destruct Hp as (u & v & w & Hu & Hv & Hw & S & E).
  destruct (edge_fun_bary T u v w p S E) as (E0 & E1 & E2).
  pose proof (Hin 0%nat ltac:(lia)) as I0. pose proof (Hin 1%nat ltac:(lia)) as I1. pose proof (Hin 2%nat ltac:(lia)) as I2.
  rewrite E0 in I0. rewrite E1 in I1. rewrite E2 in I2. pose proof (dot_pos (normal T)) as Pn.
  assert (0 < w) by nra. assert (0 < u) by nra. assert (0 < v) by nra.
  pose proof (closest_support1 T O p q (T 0%nat) C (tri_vertex T 0 ltac:(lia))) as S0.
  pose proof (closest_support1 T O p q (T 1%nat) C (tri_vertex T 1 ltac:(lia))) as S1.
  pose proof (closest_support1 T O p q (T 2%nat) C (tri_vertex T 2 ltac:(lia))) as S2.
  fold n in S0, S1, S2.
  assert (Z : u * dot (vsub (T 0%nat) p) n + v * dot (vsub (T 1%nat) p) n + w * dot (vsub (T 2%nat) p) n = 0).
  { rewrite comb3, <- E, S. rewrite fv1. apply dot_vzero_l. }
  assert (Z0 : dot (vsub (T 0%nat) p) n = 0) by nra. assert (Z1 : dot (vsub (T 1%nat) p) n = 0) by nra. assert (Z2 : dot (vsub (T 2%nat) p) n = 0) by nra.
  destruct Hx as (u' & v' & w' & _ & _ & _ & S' & ->).
  rewrite <- (fv2 p), <- S'.
  rewrite <- comb3, Z0, Z1, Z2. ring.
Qed.
Lemma face_normal : exists k, k <> 0 /\ normal T = vscale k n.
Proof.
  assert (V : forall i j, (i < 3)%nat -> (j < 3)%nat -> dot (vsub (T j) (T i)) n = 0).
  { intros i j Hi Hj. replace (vsub (T j) (T i)) with (vsub (vsub (T j) p) (vsub (T i) p)) by apply fv3.
    rewrite dot_sub_l, !face_perp by (apply tri_vertex; auto). ring. }
  assert (E : n = vscale (dot n (normal T) / dot (normal T) (normal T)) (normal T)).
  { apply (perp_multiple n (normal T) (side T 0) (side T 1) eq_refl HN); unfold side, nx; apply V; lia. }
  assert (Hd : dot n (normal T) <> 0).
  { intros Z. rewrite Z in E. apply Hn. fold n. rewrite E. unfold Rdiv. rewrite Rmult_0_l. apply fv4. }
  exists (dot (normal T) (normal T) / dot n (normal T)). split.
  - unfold Rdiv. apply Rmult_integral_contrapositive. split; auto. apply Rinv_neq_0_compat; auto.
  - rewrite E at 2. set (N := normal T) in *. apply v3_ext; unfold vscale; cbn [c0 c1 c2]; field; auto.
Qed.
Lemma face_shift : forall i x k, edge_fun T i (vadd x (vscale k n)) = edge_fun T i x.
Proof.
  intros. rewrite edge_fun_add. destruct face_normal as (k' & _ & ->). replace (dot (vscale k n) (cross (vscale k' n) (side T i))) with 0; [ring|].
  symmetry. apply fv5.
Qed.
Lemma slide : forall y, tri_set O y -> dot (vsub y q) n = 0 ->
  inside T y \/ exists t i, 0 <= t <= 1 /\ (i < 3)%nat /\ on_edge T i (vadd p (vscale t (vsub y q))).
Proof.
  intros y Hy Hd.
  destruct (exit3 (fun i => edge_fun T i p) (fun i => edge_fun T i y) Hin) as [A|(t & i & Ht & Hi & A & Z)]; [left; exact A|right].
  assert (E : forall k, edge_fun T k (vadd p (vscale t (vsub y q))) = edge_fun T k p + t * (edge_fun T k y - edge_fun T k p)).
  { intros k. rewrite edge_fun_add, dot_scale_l.
    replace (edge_fun T k y) with (edge_fun T k (vadd (vadd p (vsub y q)) (vscale 1 n))) by (f_equal; unfold n; apply fv6).
    rewrite face_shift, edge_fun_add. ring. }
  exists t, i. split; auto. split; auto.
  refine (proj2 (tri_of_edges T _ HN _ _) i Hi _).
  - destruct face_normal as (k & _ & ->). destruct C as (Hp & _ & _).
    replace (vsub (vadd p (vscale t (vsub y q))) (T 0%nat)) with (vadd (vscale (-1) (vsub (T 0%nat) p)) (vscale t (vsub y q))) by apply fv7.
    rewrite dot_scale_r, dot_add_l, !dot_scale_l, Hd, face_perp by (apply tri_vertex; lia). ring.
  - intros k Hk. rewrite E. apply A; auto.
  - rewrite E. exact Z.
Qed.
Lemma inside_foot : forall y, dot (vsub y q) n = 0 -> inside T y -> tri_set T (vadd p (vsub y q)) /\ inside T (vadd p (vsub y q)).
Proof.
  intros y Hd Hy.
  assert (I : inside T (vadd p (vsub y q))).
  { intros i Hi. specialize (Hy i Hi). rewrite <- (face_shift i _ 1). replace (vadd (vadd p (vsub y q)) (vscale 1 n)) with y by (unfold n; symmetry; apply fv6). exact Hy. }
  split; auto. refine (proj1 (tri_of_edges T _ HN _ _)).
  - destruct face_normal as (k & _ & ->).
    replace (vsub (vadd p (vsub y q)) (T 0%nat)) with (vadd (vscale (-1) (vsub (T 0%nat) p)) (vsub y q)) by apply fv7.
    rewrite dot_scale_r, dot_add_l, !dot_scale_l, Hd, face_perp by (apply tri_vertex; lia). ring.
  - intros i Hi. left. apply I; auto.
Qed.
End Face.

Lemma vert_edge : forall O a k, (a < 3)%nat -> (k < 3)%nat -> exists j, (j < 3)%nat /\ forall t, 0 <= t <= 1 -> on_edge O j (vadd (O a) (vscale t (vsub (O k) (O a)))).
Proof.
  intros O a k Ha Hk.
  assert (F : forall a, on_edge O a (O a)). { intros i. exists 0. split; [lra|]. generalize (O i) (side O i). vring. }
  destruct (Nat.eq_dec a k) as [->|NE].
  { exists k. split; auto. intros t Ht. replace (vadd (O k) (vscale t (vsub (O k) (O k)))) with (O k) by (generalize (O k); vring). auto. }
  assert (D : k = nx a \/ a = nx k). { destruct a as [|[|[|a]]]; [| | |lia]; destruct k as [|[|[|k]]]; cbn; lia. }
  destruct D as [->| ->].
  - exists a. split; auto. intros t Ht. exists t. split; auto.
  - exists k. split; auto. intros t Ht. exists (1 - t). split; [lra|]. unfold side. generalize (O k) (O (nx k)). vring.
Qed.

Section Vertex.
Variables (T O : triangle).
Hypothesis HN : dot (normal T) (normal T) <> 0.
Lemma vertex_slide : forall p q a k, closest (tri_set T) (tri_set O) p q -> vsub q p <> vzero -> inside T p ->
  (a < 3)%nat -> q = O a -> (k < 3)%nat -> dot (vsub (O k) q) (vsub q p) = 0 ->
  edge_pair T O (vsub q p) \/ inside T (O k).
Proof.
  intros p q a k C Hn Hin Ha Eq Hk Hd.
  destruct (slide T O p q C Hn HN Hin (O k) (tri_vertex O k Hk) Hd) as [I|(t & i & Ht & Hi & E)]; auto.
  left. destruct (vert_edge O a k Ha Hk) as (j & Hj & E2). specialize (E2 t Ht). rewrite <- Eq in E2.
  exists i, j, (vadd p (vscale t (vsub (O k) q))), (vadd q (vscale t (vsub (O k) q))). repeat split; auto. generalize (O k). clear. vring.
Qed.
Lemma edge_slide : forall p q j k, closest (tri_set T) (tri_set O) p q -> vsub q p <> vzero -> inside T p ->
  (j < 3)%nat -> on_edge O j q -> (k < 3)%nat -> dot (vsub (O k) q) (vsub q p) = 0 ->
  edge_pair T O (vsub q p) \/ inside T (O k).
Proof.
  intros p q j k C Hn Hin Hj (s & Hs & Eq) Hk Hd. set (n := vsub q p) in *.
  (* a vertex of the edge in the plane of the pair *)
  assert (Hv : exists a, (a < 3)%nat /\ dot (vsub (O a) q) n = 0 /\ forall t, 0 <= t <= 1 -> on_edge O j (vadd q (vscale t (vsub (O a) q)))).
  { assert (Hnx : (nx j < 3)%nat) by (destruct j as [|[|[|j]]]; cbn; lia).
    destruct (Req_EM_T s 1) as [E1|E1].
    - exists (nx j). subst s. assert (Eq' : q = O (nx j)) by (rewrite Eq; unfold side; generalize (O j) (O (nx j)); clear; vring).
      repeat split; auto.
      + rewrite <- Eq', vsub_self. apply dot_vzero_l.
      + intros t Ht. exists 1. split; [lra|]. rewrite <- Eq', vsub_self. rewrite Eq at 1. clear. generalize (O j) (side O j). vring.
    - exists j.
      pose proof (closest_support2 T O p q (O j) C (tri_vertex O j Hj)) as S0.
      pose proof (closest_support2 T O p q (O (nx j)) C (tri_vertex O (nx j) Hnx)) as S1. fold n in S0, S1.
      assert (Z : (1 - s) * dot (vsub (O j) q) n + s * dot (vsub (O (nx j)) q) n = 0).
      { replace ((1 - s) * dot (vsub (O j) q) n + s * dot (vsub (O (nx j)) q) n) with (dot (vsub (vadd (O j) (vscale s (side O j))) q) n).
        - rewrite <- Eq, vsub_self. apply dot_vzero_l.
        - unfold side. generalize (O j) (O (nx j)) q n. clear. vring. }
      repeat split; auto; [nra|].
      intros t Ht. exists (s * (1 - t)). split; [nra|]. rewrite Eq. generalize (O j) (side O j). clear. vring. }
  destruct Hv as (a & Ha & Hda & He).
  destruct (slide T O p q C Hn HN Hin (O a) (tri_vertex O a Ha) Hda) as [I|(t & i & Ht & Hi & E)].
  2:{ left. exists i, j, (vadd p (vscale t (vsub (O a) q))), (vadd q (vscale t (vsub (O a) q))). repeat split; auto. unfold n. generalize (O a). clear. vring. }
  destruct (inside_foot T O p q C Hn HN Hin (O a) Hda I) as (H1 & H2).
  set (w := vsub (O a) q) in *. assert (Ew : vadd q w = O a) by (unfold w; generalize (O a); clear; vring).
  assert (C1 : closest (tri_set T) (tri_set O) (vadd p w) (vadd q w)).
  { apply closest_shift; auto. rewrite Ew. apply tri_vertex; auto. }
  assert (En : vsub (vadd q w) (vadd p w) = n) by (unfold n; generalize w; clear; vring).
  destruct (vertex_slide (vadd p w) (vadd q w) a k C1) as [R|R]; auto.
  - rewrite En. auto.
  - rewrite En, Ew. replace (vsub (O k) (O a)) with (vsub (vsub (O k) q) w) by (unfold w; generalize (O k) (O a); clear; vring).
    rewrite dot_sub_l, Hd, Hda. ring.
  - left. rewrite En in R. exact R.
Qed.
End Vertex.

(** * The vertex picked by the face test *)
Lemma pos3_iff : forall f, pos3 f = true <-> forall i, (i < 3)%nat -> 0 < f i.
Proof.
  intros f. unfold pos3. split.
  - destruct (Rlt_dec 0 (f 0%nat)); [|discriminate]. destruct (Rlt_dec 0 (f 1%nat)); [|discriminate]. destruct (Rlt_dec 0 (f 2%nat)); [|discriminate].
    intros _ i Hi. destruct i as [|[|[|i]]]; auto. lia.
  - intros H. destruct (Rlt_dec 0 (f 0%nat)) as [_|N]; [|exfalso; apply N, H; lia].
    destruct (Rlt_dec 0 (f 1%nat)) as [_|N]; [|exfalso; apply N, H; lia].
    destruct (Rlt_dec 0 (f 2%nat)) as [_|N]; [|exfalso; apply N, H; lia]. auto.
Qed.
Lemma pick_spec : forall f k, pick f = Some k -> (k < 3)%nat /\
  ((forall i, (i < 3)%nat -> 0 < f i /\ f k <= f i) \/ (forall i, (i < 3)%nat -> f i < 0 /\ f i <= f k)).
Proof.
  intros f k. unfold pick. destruct (pos3 f) eqn:E.
  - rewrite pos3_iff in E. intros H. split; [|left; intros i Hi; split; [auto|]].
    + destruct (Rlt_dec (f 0%nat) (f 1%nat)); destruct (Rlt_dec _ _); injection H as <-; lia.
    + destruct (Rlt_dec (f 0%nat) (f 1%nat)); destruct (Rlt_dec _ _); injection H as <-; destruct i as [|[|[|i]]]; try lia; lra.
  - destruct (pos3 (fun k => - f k)) eqn:E'; [|discriminate]. rewrite pos3_iff in E'. intros H. split; [|right; intros i Hi; split; [specialize (E' i Hi); lra|]].
    + destruct (Rlt_dec (f 1%nat) (f 0%nat)); destruct (Rlt_dec _ _); injection H as <-; lia.
    + destruct (Rlt_dec (f 1%nat) (f 0%nat)); destruct (Rlt_dec _ _); injection H as <-; destruct i as [|[|[|i]]]; try lia; lra.
Qed.
Lemma pick_some : forall f, (forall i, (i < 3)%nat -> 0 < f i) \/ (forall i, (i < 3)%nat -> f i < 0) -> exists k, pick f = Some k.
Proof.
  intros f [H|H]; unfold pick.
  - rewrite (proj2 (pos3_iff f) H). eauto.
  - destruct (pos3 f); eauto. rewrite (proj2 (pos3_iff (fun k => - f k))); eauto. intros i Hi. specialize (H i Hi). lra.
Qed.
Lemma face_hit : forall T O p q j, closest (tri_set T) (tri_set O) p q -> vsub q p <> vzero -> 1 / 10 ^ 15 < dot (normal T) (normal T) -> inside T p ->
  (j < 3)%nat -> on_edge O j q -> edge_pair T O (vsub q p) \/ exists r, snd (face T O) = Some r.
Proof.
  intros T O p q j C Hn Hl Hin Hj He.
  assert (HN : dot (normal T) (normal T) <> 0). { intros Z. rewrite Z in Hl. revert Hl. apply Rle_not_lt. left. apply Rmult_lt_0_compat; [lra|]. apply Rinv_0_lt_compat. apply pow_lt. lra. }
  set (n := vsub q p) in *.
  destruct (face_normal T O p q C Hn HN Hin) as (k & Hk & EN). fold n in EN.
  set (f := fun k => dot (vsub (T 0%nat) (O k)) (normal T)).
  set (g := fun k => dot (vsub (O k) q) n).
  assert (Ef : forall i, f i = - k * (norm2 n + g i)).
  { intros i. unfold f, g. rewrite EN, dot_scale_r.
    replace (vsub (T 0%nat) (O i)) with (vsub (vsub (vsub (T 0%nat) p) n) (vsub (O i) q)) by (unfold n; generalize (T 0%nat) (O i); clear; vring).
    pose proof (face_perp T O p q C HN Hin (T 0%nat) (tri_vertex T 0 ltac:(lia))) as Z. fold n in Z.
    rewrite (dot_sub_l (vsub (vsub (T 0%nat) p) n)), (dot_sub_l (vsub (T 0%nat) p)), Z. unfold norm2. ring. }
  assert (Hnn : 0 < norm2 n). { pose proof (norm2_nonneg n) as [|Z]; auto. exfalso. apply Hn, norm2_zero. auto. }
  assert (Hg : forall i, (i < 3)%nat -> 0 <= g i). { intros i Hi. apply (closest_support2 T O p q); auto. apply tri_vertex; auto. }
  assert (Sg : (forall i, (i < 3)%nat -> 0 < f i) \/ (forall i, (i < 3)%nat -> f i < 0)).
  { destruct (Rlt_dec 0 k) as [P|P]; [right|left]; intros i Hi; rewrite Ef; specialize (Hg i Hi).
    - assert (0 < k * (norm2 n + g i)) by (apply Rmult_lt_0_compat; lra). lra.
    - assert (0 < - k * (norm2 n + g i)) by (apply Rmult_lt_0_compat; lra). lra. }
  destruct (pick_some f Sg) as (v & Ev). destruct (pick_spec f v Ev) as (Hv & Sv).
  assert (Hmin : forall i, (i < 3)%nat -> g v <= g i).
  { intros i Hi. pose proof (Hg i Hi). pose proof (Hg v Hv). rewrite Ef in Sv. destruct Sv as [Sv|Sv]; specialize (Sv i Hi); rewrite (Ef i) in Sv; destruct Sv as [S1 S2].
    - assert (0 < - k) by nra. nra.
    - assert (0 < k) by nra. nra. }
  assert (Zv : g v = 0).
  { destruct C as (_ & Hq & _). destruct Hq as (a & b & c & Pa & Pb & Pc & S & E).
    assert (Z : a * g 0%nat + b * g 1%nat + c * g 2%nat = 0).
    { unfold g. rewrite comb3, <- E, S. replace (vsub q (vscale 1 q)) with vzero by (clear; vring). apply dot_vzero_l. }
    pose proof (Hmin 0%nat ltac:(lia)). pose proof (Hmin 1%nat ltac:(lia)). pose proof (Hmin 2%nat ltac:(lia)). pose proof (Hg v Hv). nra. }
  destruct (edge_slide T O HN p q j v C Hn Hin Hj He Hv Zv) as [R|R]; auto.
  right. unfold face. destruct (Rlt_dec _ _) as [L|L]; [|contradiction].
  change (fun k0 => dot (vsub (T 0%nat) (O k0)) (normal T)) with f. rewrite Ev.
  rewrite (proj2 (pos3_iff (fun i => edge_fun T i (O v))) R). cbn. eauto.
Qed.

(** normals the face test does not skip *)
Definition proper (T : triangle) : Prop := dot (normal T) (normal T) = 0 \/ 1 / 10 ^ 15 < dot (normal T) (normal T).
Lemma found : forall T1 T2 p q, proper T1 -> proper T2 -> closest (tri_set T1) (tri_set T2) p q -> vsub q p <> vzero ->
  edge_pair T1 T2 (vsub q p) \/ (exists r, snd (face T1 T2) = Some r) \/ (exists r, snd (face T2 T1) = Some r).
Proof.
  intros T1 T2 p q P1 P2 C Hn.
  assert (Cs := closest_sym _ _ _ _ C).
  assert (Hn' : vsub p q <> vzero). { intros Z. apply Hn. replace (vsub q p) with (vneg (vsub p q)) by vring. rewrite Z. vring. }
  assert (Swap : edge_pair T2 T1 (vsub p q) -> edge_pair T1 T2 (vsub q p)).
  { intros E. apply edge_pair_sym in E. replace (vsub q p) with (vneg (vsub p q)) by vring. auto. }
  assert (PP : forall T, proper T -> dot (normal T) (normal T) <> 0 -> 1 / 10 ^ 15 < dot (normal T) (normal T)). { intros T [Z|Z]; auto. contradiction. }
  pose proof C as (Hp & Hq & _).
  destruct (edge_or_inside T1 p Hp) as [(i & Hi & Ep)|[N1 I1]]; destruct (edge_or_inside T2 q Hq) as [(j & Hj & Eq)|[N2 I2]].
  - left. exists i, j, p, q. auto.
  - destruct (face_hit T2 T1 q p i Cs Hn' (PP _ P2 N2) I2 Hi Ep) as [E|E]; auto.
  - destruct (face_hit T1 T2 p q j C Hn (PP _ P1 N1) I1 Hj Eq) as [E|E]; auto.
  - (* both strictly inside *)
    assert (Hd : dot (vsub (T2 0%nat) q) (vsub q p) = 0).
    { pose proof (face_perp T2 T1 q p Cs N2 I2 (T2 0%nat) (tri_vertex T2 0 ltac:(lia))) as Z.
      replace (vsub q p) with (vneg (vsub p q)) by (clear; vring). rewrite dot_neg_r. lra. }
    set (w := vsub (T2 0%nat) q) in *. assert (Ew : vadd q w = T2 0%nat) by (unfold w; generalize (T2 0%nat); clear; vring).
    destruct (slide T1 T2 p q C Hn N1 I1 (T2 0%nat) (tri_vertex T2 0 ltac:(lia)) Hd) as [I|(t & i & Ht & Hi & E)].
    + destruct (inside_foot T1 T2 p q C Hn N1 I1 (T2 0%nat) Hd I) as (H1 & H2). fold w in H1, H2.
      assert (C1 : closest (tri_set T1) (tri_set T2) (vadd p w) (vadd q w)).
      { apply closest_shift; auto. rewrite Ew. apply tri_vertex; lia. }
      assert (En : vsub (vadd q w) (vadd p w) = vsub q p) by (generalize w; clear; vring).
      rewrite <- En in Hn |- *.
      destruct (face_hit T1 T2 (vadd p w) (vadd q w) 0%nat C1 Hn (PP _ P1 N1) H2) as [R|R]; auto; try lia.
      rewrite Ew. exists 0. split; [lra|]. generalize (T2 0%nat) (side T2 0). clear. vring.
    + fold w in E. set (w' := vscale t w) in *.
      assert (C1 : closest (tri_set T1) (tri_set T2) (vadd p w') (vadd q w')).
      { apply closest_shift; auto; [eapply on_edge_tri; eauto|]. unfold w', w. apply tri_convex; auto. apply tri_vertex; lia. }
      assert (En : vsub (vadd q w') (vadd p w') = vsub q p) by (generalize w'; clear; vring).
      assert (En' : vsub (vadd p w') (vadd q w') = vsub p q) by (generalize w'; clear; vring).
      pose proof C1 as (_ & Hq1 & _).
      destruct (edge_or_inside T2 (vadd q w') Hq1) as [(j & Hj & Eq)|[_ I2']].
      * left. exists i, j, (vadd p w'), (vadd q w'). auto.
      * destruct (face_hit T2 T1 (vadd q w') (vadd p w') i (closest_sym _ _ _ _ C1)) as [R|R]; auto.
        -- rewrite En'. auto.
        -- left. apply Swap. rewrite En' in R. auto.
Qed.
