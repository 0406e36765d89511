(** Conservative advancement of two shapes and the sampling solver:
    include/fcl/narrowphase/detail/conservative_advancement_func_matrix-inl.h,
    detail/traversal/distance/shape_conservative_advancement_traversal_node-inl.h,
    continuous_collision-inl.h.  Real arithmetic. *)
From Coq Require Import Reals Lra Psatz List ZArith Lia.
From Verif Require Import VecR Motion.
Import ListNotations.
Open Scope R_scope.

(** Two moving bodies as the solver sees them: their placement at a time (integrate(t)
    followed by getCurrentTransform), the motion bound of their bounding volume along a
    direction in that state (computeMotionBound), shapeDistance (distance, nearest
    points) and collide() on placements. *)
Record scene := Scene {
  path1 : R -> tf; path2 : R -> tf;
  mb1 : R -> v3 -> R; mb2 : R -> v3 -> R;
  near : tf -> tf -> R * v3 * v3;
  hit : tf -> tf -> bool }.

(** n = closest_p2 - closest_p1, normalised if not zero
    (shape_conservative_advancement_traversal_node-inl.h 79-82) *)
Definition normal (x1 x2 : v3) : v3 :=
  let n := vsub x2 x1 in
  if Rlt_dec 0 (norm2 n) then vscale (/ sqrt (norm2 n)) n else n.

(** leafTesting (64-96), with delta_t = 1 before it.  [dir2] is the direction given to
    the second visitor: -n here (line 84).  A negative distance over a zero bound is
    minus infinity; any value below the tolerance stands for it. *)
Definition leaf (dir2 : v3 -> v3) (d : R) (x1 x2 : v3) (b1 b2 : v3 -> R) : R :=
  let n := normal x1 x2 in
  let bound := b1 n + b2 (dir2 n) in
  let cur := if Rle_dec bound d then 1 else if Req_EM_T bound 0 then -1 else d / bound in
  if Rlt_dec cur 1 then cur else 1.

(** t_err (shape_conservative_advancement_traversal_node-inl.h 57) *)
Definition t_err : R := / 100000.

(** The loop (conservative_advancement_func_matrix-inl.h 256-283).  [cur] is the time the
    motions stand at, [toc] the time the node has reached. *)
Definition round (dir2 : v3 -> v3) (s : scene) (cur : R) : R :=
  let '(d, x1, x2) := near s (path1 s cur) (path2 s cur) in leaf dir2 d x1 x2 (mb1 s cur) (mb2 s cur).
Fixpoint ca_loop (dir2 : v3 -> v3) (fuel : nat) (s : scene) (cur toc : R) : option R :=
  match fuel with
  | O => None
  | S f =>
    let delta := round dir2 s cur in
    if Rle_dec delta t_err then Some toc
    else if Rlt_dec 1 (toc + delta) then Some 1
    else ca_loop dir2 f s (toc + delta) (toc + delta)
  end.
(** conservativeAdvancement (221-292): the motions are taken as they stand, at [cur]; the
    node starts at 0. *)
Definition ca_run (dir2 : v3 -> v3) (fuel : nat) (s : scene) (cur : R) : option (bool * R) :=
  if hit s (path1 s cur) (path2 s cur) then Some (true, 0)
  else match ca_loop dir2 fuel s cur 0 with
       | None => None
       | Some toc => Some (if Rlt_dec toc 1 then true else false, toc)
       end.

(** continuousCollideNaive (continuous_collision-inl.h 135-172).  [err] is toc_err, [most]
    num_max_iterations.  With one iteration the time is 0 / 0: None. *)
Definition n_iter (most : nat) (err : R) : nat := Nat.min most (Z.to_nat (- Int_part (- (1 / err)))).
Definition sample (n i : nat) : R := INR i / INR (n - 1).
Definition naive_run (s : scene) (n : nat) : option (bool * R) :=
  if Nat.eqb n 1 then None
  else match find (fun i => hit s (path1 s (sample n i)) (path2 s (sample n i))) (seq 0 n) with
       | Some i => Some (true, sample n i)
       | None => Some (false, 1)
       end.

(** ** What the parts should do *)

Definition body := v3 -> Prop.
Definition meet (A B : body) (a b : tf) : Prop := exists x y, A x /\ B y /\ tf_apply a x = tf_apply b y.
Definition convex (A : body) : Prop := forall x y l, A x -> A y -> 0 <= l <= 1 -> A (vadd x (vscale l (vsub y x))).
(** shapeDistance: the nearest points and their distance, or a negative distance and
    untouched points if the bodies meet. *)
Definition near_ok (A B : body) (f : tf -> tf -> R * v3 * v3) : Prop := forall a b,
  let '(d, x1, x2) := f a b in
  (meet A B a b -> d < 0 /\ x1 = x2) /\
  (~ meet A B a b -> d = dist x1 x2 /\ (exists x, A x /\ x1 = tf_apply a x) /\ (exists y, B y /\ x2 = tf_apply b y) /\
     forall x y, A x -> B y -> d <= dist (tf_apply a x) (tf_apply b y)).
Definition hit_ok (A B : body) (f : tf -> tf -> bool) : Prop := forall a b, f a b = true <-> meet A B a b.

(** ** Lemmas *)

Lemma t_err_pos : 0 < t_err < 1.
Proof. unfold t_err. split; [apply Rinv_0_lt_compat; lra|]. rewrite <- Rinv_1. apply Rinv_lt_contravar; lra. Qed.

Lemma normal_unit : forall x1 x2, x1 <> x2 -> dot (normal x1 x2) (vsub x2 x1) = dist x1 x2 /\
  exists k, 0 < k /\ normal x1 x2 = vscale k (vsub x2 x1).
Proof.
  intros x1 x2 H. unfold normal. assert (P : 0 < norm2 (vsub x2 x1)).
  { destruct (Rle_lt_or_eq_dec 0 (norm2 (vsub x2 x1))) as [L|E]; [apply norm2_nonneg|exact L|].
    exfalso. apply H. destruct x1 as [a b c], x2 as [d e f]. unfold norm2, dot, vsub in E. cbn in E.
    pose proof (Rle_0_sqr (d - a)) as A0. pose proof (Rle_0_sqr (e - b)) as A1. pose proof (Rle_0_sqr (f - c)) as A2. unfold Rsqr in *.
    assert (d - a = 0) by (apply Rsqr_0_uniq; unfold Rsqr; lra).
    assert (e - b = 0) by (apply Rsqr_0_uniq; unfold Rsqr; lra). assert (f - c = 0) by (apply Rsqr_0_uniq; unfold Rsqr; lra). f_equal; lra. }
  destruct (Rlt_dec 0 (norm2 (vsub x2 x1))) as [_|N]; [|lra].
  assert (Q : 0 < sqrt (norm2 (vsub x2 x1))) by (apply sqrt_lt_R0; assumption).
  split; [|exists (/ sqrt (norm2 (vsub x2 x1))); split; [apply Rinv_0_lt_compat; assumption|reflexivity]].
  replace (dot (vscale (/ sqrt (norm2 (vsub x2 x1))) (vsub x2 x1)) (vsub x2 x1)) with (/ sqrt (norm2 (vsub x2 x1)) * norm2 (vsub x2 x1)).
  2:{ unfold norm2 at 3. generalize (/ sqrt (norm2 (vsub x2 x1))) (vsub x2 x1). intros k v. unfold norm2. vring. }
  replace (dist x1 x2) with (sqrt (norm2 (vsub x2 x1))).
  2:{ unfold dist, norm. f_equal. vring. }
  rewrite <- (sqrt_sqrt (norm2 (vsub x2 x1))) at 2 by lra. field. lra.
Qed.

(** The nearest point of a convex set is extreme towards the other point. *)
Lemma nearest_extreme : forall (A : body) (p q : v3), convex A -> A p -> (forall x, A x -> norm2 (vsub q p) <= norm2 (vsub q x)) ->
  forall x, A x -> dot (vsub q p) (vsub x p) <= 0.
Proof.
  intros A p q C Hp M x Hx. apply Rnot_lt_le. intros L. set (u := vsub x p) in *. set (n := vsub q p) in *.
  assert (K : forall l, 0 <= l <= 1 -> 2 * l * dot n u <= l * l * norm2 u).
  { intros l Hl. specialize (M _ (C p x l Hp Hx Hl)). fold u in M.
    replace (norm2 (vsub q (vadd p (vscale l u)))) with (norm2 n - 2 * l * dot n u + l * l * norm2 u) in M by (unfold n; generalize u; vring).
    lra. }
  assert (N : 0 <= norm2 u) by apply norm2_nonneg.
  destruct (Rle_dec (norm2 u) (dot n u)) as [S|S].
  - specialize (K 1 ltac:(lra)). lra.
  - assert (Q : 0 < norm2 u) by lra. specialize (K (dot n u / norm2 u)).
    assert (B : 0 <= dot n u / norm2 u <= 1).
    { split; [apply Rmult_le_pos; [lra|left; apply Rinv_0_lt_compat; assumption]|]. apply (Rmult_le_reg_r (norm2 u)); [assumption|].
      unfold Rdiv. rewrite Rmult_assoc, Rinv_l by lra. lra. }
    specialize (K B). replace (dot n u / norm2 u * (dot n u / norm2 u) * norm2 u) with (dot n u * dot n u / norm2 u) in K by (field; lra).
    replace (2 * (dot n u / norm2 u) * dot n u) with (2 * (dot n u * dot n u / norm2 u)) in K by (field; lra).
    assert (0 < dot n u * dot n u / norm2 u) by (apply Rmult_lt_0_compat; [nra|apply Rinv_0_lt_compat; assumption]). lra.
Qed.

Definition placed (A : body) (a : tf) : body := fun z => exists x, A x /\ z = tf_apply a x.
Lemma placed_convex : forall A a, convex A -> convex (placed A a).
Proof.
  intros A a C z w l (x & Hx & ->) (y & Hy & ->) Hl. exists (vadd x (vscale l (vsub y x))). split; [apply C; assumption|].
  unfold tf_apply. rewrite mapply_add, mapply_scale, mapply_sub. generalize (mapply (tf_rot a) x) (mapply (tf_rot a) y) (tf_tr a). vring.
Qed.

(** The nearest points separate the bodies. *)
Lemma near_separates : forall A B f a b d x1 x2, convex A -> convex B -> near_ok A B f -> f a b = (d, x1, x2) -> ~ meet A B a b ->
  0 < d /\ x1 <> x2 /\ forall x y, A x -> B y -> d <= dot (normal x1 x2) (vsub (tf_apply b y) (tf_apply a x)).
Proof.
  intros A B f a b d x1 x2 CA CB F E NM. specialize (F a b). rewrite E in F. destruct F as [_ F].
  destruct (F NM) as (Ed & (x0 & Hx0 & Ex) & (y0 & Hy0 & Ey) & M).
  assert (NE : x1 <> x2) by (intros ->; apply NM; exists x0, y0; rewrite <- Ex, <- Ey; auto).
  destruct (normal_unit x1 x2 NE) as [U (k & Hk & Ek)].
  assert (SQ : forall p q r s, dist p q <= dist r s -> norm2 (vsub p q) <= norm2 (vsub r s)).
  { intros p q r s H. unfold dist, norm in H. apply Rsqr_incr_1 in H; [|apply sqrt_pos|apply sqrt_pos]. unfold Rsqr in H.
    rewrite !sqrt_sqrt in H by apply norm2_nonneg. exact H. }
  assert (SW : forall p q, norm2 (vsub p q) = norm2 (vsub q p)) by vring.
  split.
  { rewrite Ed, <- U, Ek. replace (dot (vscale k (vsub x2 x1)) (vsub x2 x1)) with (k * norm2 (vsub x2 x1)) by (generalize (vsub x2 x1); unfold norm2; vring).
    apply Rmult_lt_0_compat; [assumption|]. destruct (Rle_lt_or_eq_dec 0 (norm2 (vsub x2 x1))) as [L|Z]; [apply norm2_nonneg|exact L|].
    exfalso. assert (D0 : dist x1 x2 = 0) by (unfold dist, norm; rewrite SW, <- Z; apply sqrt_0).
    apply NE. destruct x1 as [p q r], x2 as [s t u]. unfold norm2, dot, vsub in Z. cbn in Z.
    pose proof (Rle_0_sqr (s - p)) as A0. pose proof (Rle_0_sqr (t - q)) as A1. pose proof (Rle_0_sqr (u - r)) as A2. unfold Rsqr in *.
    assert (s - p = 0) by (apply Rsqr_0_uniq; unfold Rsqr; lra). assert (t - q = 0) by (apply Rsqr_0_uniq; unfold Rsqr; lra).
    assert (u - r = 0) by (apply Rsqr_0_uniq; unfold Rsqr; lra). f_equal; lra. }
  split; [exact NE|]. intros x y Hx Hy.
  assert (P1 : dot (vsub x2 x1) (vsub (tf_apply a x) x1) <= 0).
  { apply (nearest_extreme (placed A a)); [apply placed_convex; assumption|exists x0; auto| |exists x; auto].
    intros z (w & Hw & ->). rewrite (SW x2 x1), (SW x2 (tf_apply a w)). apply SQ. rewrite <- Ed. rewrite Ey. apply M; assumption. }
  assert (P2 : dot (vsub x1 x2) (vsub (tf_apply b y) x2) <= 0).
  { apply (nearest_extreme (placed B b)); [apply placed_convex; assumption|exists y0; auto| |exists y; auto].
    intros z (w & Hw & ->). apply SQ. rewrite <- Ed. rewrite Ex. apply M; assumption. }
  rewrite Ed, <- U, Ek.
  assert (G : dot (vscale k (vsub x2 x1)) (vsub (tf_apply b y) (tf_apply a x)) =
     dot (vscale k (vsub x2 x1)) (vsub x2 x1) + k * - dot (vsub x1 x2) (vsub (tf_apply b y) x2) + k * - dot (vsub x2 x1) (vsub (tf_apply a x) x1)).
  { generalize (tf_apply b y) (tf_apply a x). vring. }
  rewrite G. assert (0 <= k * - dot (vsub x1 x2) (vsub (tf_apply b y) x2)) by (apply Rmult_le_pos; lra).
  assert (0 <= k * - dot (vsub x2 x1) (vsub (tf_apply a x) x1)) by (apply Rmult_le_pos; lra). lra.
Qed.
