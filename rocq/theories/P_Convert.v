(** Converted bounding volumes contain the moved volume (C62), and the boxes built from bounding
    volumes (C63). *)
From Coq Require Import Reals Lra Lia.
From Verif Require Import VecR AabbDist Obb P_Obb Motion Convert Prim P_Prim.
Local Open Scope R_scope.

Lemma ortho_mmul : forall A B, ortho A -> ortho B -> ortho (mmul A B).
Proof.
  intros A B OA (H0 & H1 & H2 & H01 & H02 & H12). unfold ortho, mmul, norm2 in *. cbn [VecR.m0 VecR.m1 VecR.m2].
  unfold unit, norm2 in *. rewrite !mapply_dot by exact OA. tauto.
Qed.
Lemma tf_add : forall X p v, tf_apply X (vadd p v) = vadd (tf_apply X p) (mapply (tf_rot X) v).
Proof. intros [A T] p v. unfold tf_apply. cbn [tf_rot tf_tr]. rewrite mapply_add. generalize (mapply A p) (mapply A v). intros. vring. Qed.

(** A point at offset u (in any orthonormal frame) from c, with |u_i| <= d_i / 2, moves into the
    cube around the moved centre with half the diagonal as half-size. *)
Lemma cube_in : forall c dims X A u, ortho (tf_rot X) -> ortho A ->
  (Rabs (c0 u) <= c0 dims * (1 / 2)) -> (Rabs (c1 u) <= c1 dims * (1 / 2)) -> (Rabs (c2 u) <= c2 dims * (1 / 2)) ->
  in_boxR (tf_apply X (vadd c (mapply A u))) (any_aabb c dims X).
Proof.
  intros c dims X A u OX OA B0 B1 B2. rewrite tf_add. set (w := mapply (tf_rot X) (mapply A u)).
  assert (W : norm w <= norm dims * (1 / 2)).
  { unfold w. rewrite mapply_norm, mapply_norm by assumption. replace (norm dims * (1 / 2)) with (norm (vscale (1 / 2) dims)) by (rewrite norm_scale, Rabs_right; lra).
    apply norm_mono. unfold norm2, dot. cbn. assert (S : forall x y, Rabs x <= y -> x * x <= y * y) by (intros x y H; pose proof (Rabs_pos x); replace (x * x) with (Rabs x * Rabs x) by (rewrite <- Rabs_mult; apply Rabs_right; pose proof (Rle_0_sqr x) as Q; unfold Rsqr in Q; lra); apply Rmult_le_compat; lra).
    pose proof (S _ _ B0). pose proof (S _ _ B1). pose proof (S _ _ B2). lra. }
  unfold any_aabb, cube, in_boxR. cbn [lo hi].
  intros. assert (Cw : forall i, (i < 3)%nat -> - (norm dims * (1 / 2)) <= comp i w <= norm dims * (1 / 2)) by (intros i Hi; apply Rabs_le_inv; pose proof (comp_le_norm i w); lra).
  pose proof (Cw 0%nat ltac:(lia)). pose proof (Cw 1%nat ltac:(lia)). pose proof (Cw 2%nat ltac:(lia)). cbn in *. destruct (tf_apply X c), w. cbn in *. lra.
Qed.

Lemma half_bounds : forall a b x, a <= x <= b -> Rabs (x - 1 / 2 * (a + b)) <= (b - a) * (1 / 2).
Proof. intros. apply Rabs_le. lra. Qed.

Lemma in_box_off : forall b p, in_boxR p b -> exists u, p = vadd (bcenter b) u /\
  Rabs (c0 u) <= c0 (bdiag b) * (1 / 2) /\ Rabs (c1 u) <= c1 (bdiag b) * (1 / 2) /\ Rabs (c2 u) <= c2 (bdiag b) * (1 / 2).
Proof.
  intros [[l0 l1 l2] [h0 h1 h2]] [p0 p1 p2] (H0 & H1 & H2). cbn in *. exists (vsub (mk3 p0 p1 p2) (bcenter (BoxR (mk3 l0 l1 l2) (mk3 h0 h1 h2)))).
  split; [unfold bcenter, vadd, vsub, vscale; cbn; f_equal; ring|]. cbn. split; [|split]; apply half_bounds; assumption.
Qed.
Lemma mid_app : forall v, mapply mid v = v. Proof. intros []. unfold mapply, mid, vadd, vscale. cbn. f_equal; ring. Qed.

(** ** Each conversion *)
Theorem aabb_aabb_encloses : forall b X p, ortho (tf_rot X) -> in_boxR p b -> in_boxR (tf_apply X p) (aabb_aabb b X).
Proof.
  intros b X p O H. destruct (in_box_off b p H) as (u & -> & B0 & B1 & B2). rewrite <- (mid_app u). apply (cube_in (bcenter b) (bdiag b)); [exact O|exact ortho_mid|exact B0|exact B1|exact B2].
Qed.
Print Assumptions aabb_aabb_encloses.

Theorem aabb_obb_exact : forall b X q, (inobb (aabb_obb b X) q <-> exists p, in_boxR p b /\ q = tf_apply X p).
Proof.
  intros b X q. unfold inobb, aabb_obb. cbn [ext oc ax vscale c0 c1 c2]. split.
  - intros (u0 & u1 & u2 & B0 & B1 & B2 & ->). exists (vadd (bcenter b) (mk3 u0 u1 u2)). split; [|rewrite tf_add; reflexivity].
    destruct b as [[] []]. unfold in_boxR, bcenter, bdiag in *. cbn in *. lra.
  - intros (p & H & ->). destruct (in_box_off b p H) as (u & -> & B0 & B1 & B2). apply Rabs_le_inv in B0, B1, B2. exists (c0 u), (c1 u), (c2 u).
    split; [lra|split; [lra|split; [lra|]]]. rewrite tf_add. destruct u. reflexivity.
Qed.
Print Assumptions aabb_obb_exact.

Theorem obb_obb_exact : forall b X q, (inobb (obb_obb b X) q <-> exists p, inobb b p /\ q = tf_apply X p).
Proof.
  intros b X q. unfold inobb, obb_obb. cbn [ext oc ax]. split.
  - intros (u0 & u1 & u2 & B0 & B1 & B2 & ->). exists (vadd (oc b) (mapply (ax b) (mk3 u0 u1 u2))). split; [exists u0, u1, u2; tauto|]. rewrite tf_add, mmul_app. reflexivity.
  - intros (p & (u0 & u1 & u2 & B0 & B1 & B2 & ->) & ->). exists u0, u1, u2. split; [exact B0|split; [exact B1|split; [exact B2|]]]. rewrite tf_add, mmul_app. reflexivity.
Qed.
Print Assumptions obb_obb_exact.

Lemma rect_moved : forall b X x y, rect (rss_rss b X) x y = tf_apply X (rect b x y).
Proof. intros b X x y. unfold rect, rss_rss. cbn [To rax rl0 rl1]. rewrite tf_add, mapply_add, !mapply_scale. reflexivity. Qed.

Theorem rss_rss_exact : forall b X q, ortho (tf_rot X) -> (in_rss (rss_rss b X) q <-> exists p, in_rss b p /\ q = tf_apply X p).
Proof.
  intros b X q O. unfold in_rss. split.
  - intros (x & y & Hx & Hy & D). exists (tf_inv_apply X q). split; [|symmetry; apply tf_inv_right, O]. exists x, y. split; [exact Hx|split; [exact Hy|]].
    rewrite rect_moved in D. change (rr (rss_rss b X)) with (rr b) in D. rewrite <- (tf_inv_right X q O) in D. rewrite tf_dist in D by exact O. exact D.
  - intros (p & (x & y & Hx & Hy & D) & ->). exists x, y. split; [exact Hx|split; [exact Hy|]]. rewrite rect_moved, tf_dist by exact O. exact D.
Qed.
Print Assumptions rss_rss_exact.

(** offset of a point of an RSS from its centre, in its own frame *)
Lemma rss_off : forall b p, ortho (rax b) -> 0 <= rl0 b -> 0 <= rl1 b -> in_rss b p -> exists u, p = vadd (rss_center b) (mapply (rax b) u) /\
  Rabs (c0 u) <= rl0 b * (1 / 2) + rr b /\ Rabs (c1 u) <= rl1 b * (1 / 2) + rr b /\ Rabs (c2 u) <= rr b.
Proof.
  intros b p O L0 L1 (x & y & Hx & Hy & D). set (w := mtapply (rax b) (vsub p (rect b x y))). exists (vadd (mk3 ((x - 1 / 2) * rl0 b) ((y - 1 / 2) * rl1 b) 0) w).
  assert (Nw : norm w <= rr b) by (unfold w; rewrite mt_norm by exact O; exact D). split.
  - rewrite mapply_add. unfold w. rewrite mapply_mt by exact O. unfold rect, rss_center. generalize (To b). destruct (rax b) as [[] [] []], p. intros []. unfold mapply, vadd, vsub, vscale. cbn. f_equal; field.
  - clearbody w. pose proof (comp_le_norm 0 w) as W0. pose proof (comp_le_norm 1 w) as W1. pose proof (comp_le_norm 2 w) as W2. cbn in W0, W1, W2. cbn [vadd c0 c1 c2].
    assert (X0 : Rabs ((x - 1 / 2) * rl0 b) <= rl0 b * (1 / 2)). { rewrite Rabs_mult, (Rabs_right (rl0 b)) by lra. rewrite (Rmult_comm (rl0 b)). apply Rmult_le_compat_r; [exact L0|apply Rabs_le; lra]. }
    assert (X1 : Rabs ((y - 1 / 2) * rl1 b) <= rl1 b * (1 / 2)). { rewrite Rabs_mult, (Rabs_right (rl1 b)) by lra. rewrite (Rmult_comm (rl1 b)). apply Rmult_le_compat_r; [exact L1|apply Rabs_le; lra]. }
    pose proof (Rabs_triang ((x - 1 / 2) * rl0 b) (c0 w)). pose proof (Rabs_triang ((y - 1 / 2) * rl1 b) (c1 w)). rewrite Rplus_0_l. lra.
Qed.

Theorem rss_obb_encloses : forall b X p, ortho (rax b) -> 0 <= rl0 b -> 0 <= rl1 b -> in_rss b p -> inobb (rss_obb b X) (tf_apply X p).
Proof.
  intros b X p O L0 L1 H. destruct (rss_off b p O L0 L1 H) as (u & -> & B0 & B1 & B2). apply Rabs_le_inv in B0, B1, B2. exists (c0 u), (c1 u), (c2 u). cbn [rss_obb ext oc ax c0 c1 c2].
  split; [exact B0|split; [exact B1|split; [exact B2|]]]. rewrite tf_add, mmul_app. destruct u. reflexivity.
Qed.
Print Assumptions rss_obb_encloses.

(** The generic conversion to AABB, for OBB, RSS and (with the identity frame) anything that lies
    in the box given by its center() and its dimensions. *)
Theorem obb_aabb_encloses : forall b X p, ortho (tf_rot X) -> ortho (ax b) -> inobb b p -> in_boxR (tf_apply X p) (any_aabb (oc b) (vscale 2 (ext b)) X).
Proof.
  intros b X p O OA (u0 & u1 & u2 & B0 & B1 & B2 & ->). apply cube_in; try assumption; cbn; apply Rabs_le; lra.
Qed.
Print Assumptions obb_aabb_encloses.
Theorem rss_aabb_encloses : forall b X p, ortho (tf_rot X) -> ortho (rax b) -> 0 <= rl0 b -> 0 <= rl1 b -> in_rss b p -> in_boxR (tf_apply X p) (any_aabb (rss_center b) (rss_dims b) X).
Proof.
  intros b X p O OA L0 L1 H. destruct (rss_off b p OA L0 L1 H) as (u & -> & B0 & B1 & B2). apply cube_in; try assumption; cbn; lra.
Qed.
Print Assumptions rss_aabb_encloses.
Theorem any_aabb_encloses : forall c dims X p, ortho (tf_rot X) ->
  (forall i, (i < 3)%nat -> Rabs (comp i (vsub p c)) <= comp i dims * (1 / 2)) -> in_boxR (tf_apply X p) (any_aabb c dims X).
Proof.
  intros c dims X p O H. replace p with (vadd c (mapply mid (vsub p c))) by (rewrite mid_app; vring).
  apply cube_in; [exact O|exact ortho_mid|apply (H 0%nat ltac:(lia))|apply (H 1%nat ltac:(lia))|apply (H 2%nat ltac:(lia))].
Qed.
Print Assumptions any_aabb_encloses.
Theorem any_obb_encloses : forall c dims X p,
  (forall i, (i < 3)%nat -> Rabs (comp i (vsub p c)) <= comp i dims * (1 / 2)) -> inobb (any_obb c dims X) (tf_apply X p).
Proof.
  intros c dims X p H. apply aabb_obb_exact. exists p. split; [|reflexivity]. pose proof (any_aabb_encloses c dims (mktf mid vzero) p ortho_mid H) as E. rewrite app_mid in E. exact E.
Qed.
Print Assumptions any_obb_encloses.

(** rectangle given by its centre *)
Lemma rss_at_in : forall A c a b r u v, 0 < a -> 0 < b -> Rabs u <= a * (1 / 2) -> Rabs v <= b * (1 / 2) ->
  exists x y, 0 <= x <= 1 /\ 0 <= y <= 1 /\ rect (rss_at A c a b r) x y = vadd c (mapply A (mk3 u v 0)).
Proof.
  intros A c a b r u v Ha Hb Hu Hv. apply Rabs_le_inv in Hu, Hv. exists ((u + a * (1 / 2)) / a), ((v + b * (1 / 2)) / b).
  split; [apply frac01; lra|split; [apply frac01; lra|]]. unfold rect, rss_at. cbn [To rax rl0 rl1].
  replace ((u + a * (1 / 2)) / a * a) with (u + a * (1 / 2)) by (field; lra). replace ((v + b * (1 / 2)) / b * b) with (v + b * (1 / 2)) by (field; lra).
  destruct A as [[] [] []], c. unfold mapply, vadd, vsub, vscale. cbn. f_equal; ring.
Qed.
Lemma rss_at_in0 : forall A c a b r u v, 0 <= a -> 0 <= b -> Rabs u <= a * (1 / 2) -> Rabs v <= b * (1 / 2) ->
  exists x y, 0 <= x <= 1 /\ 0 <= y <= 1 /\ rect (rss_at A c a b r) x y = vadd c (mapply A (mk3 u v 0)).
Proof.
  intros A c a b r u v Ha Hb Hu Hv. pose proof Hu as Hu'. pose proof Hv as Hv'. apply Rabs_le_inv in Hu', Hv'.
  assert (E : forall k z, 0 <= k -> - (k * (1 / 2)) <= z <= k * (1 / 2) -> exists x, 0 <= x <= 1 /\ x * k = z + k * (1 / 2)).
  { intros k z Hk Hz. destruct (Req_EM_T k 0) as [->|N]; [exists 0; split; lra|]. exists ((z + k * (1 / 2)) / k). split; [apply frac01; lra|field; lra]. }
  destruct (E a u Ha Hu') as (x & Hx & Ex). destruct (E b v Hb Hv') as (y & Hy & Ey). exists x, y. split; [exact Hx|split; [exact Hy|]].
  unfold rect, rss_at. cbn [To rax rl0 rl1]. rewrite Ex, Ey. destruct A as [[] [] []], c. unfold mapply, vadd, vsub, vscale. cbn. f_equal; ring.
Qed.

Lemma rss_at_encloses : forall A c a b r u, ortho A -> 0 <= a -> 0 <= b -> Rabs (c0 u) <= a * (1 / 2) -> Rabs (c1 u) <= b * (1 / 2) -> Rabs (c2 u) <= r ->
  in_rss (rss_at A c a b r) (vadd c (mapply A u)).
Proof.
  intros A c a b r u O Ha Hb H0 H1 H2. destruct (rss_at_in0 A c a b r (c0 u) (c1 u) Ha Hb H0 H1) as (x & y & Hx & Hy & E). exists x, y. split; [exact Hx|split; [exact Hy|]]. rewrite E.
  change (rr (rss_at A c a b r)) with r. replace (dist (vadd c (mapply A u)) (vadd c (mapply A (mk3 (c0 u) (c1 u) 0)))) with (dist (mapply A u) (mapply A (mk3 (c0 u) (c1 u) 0))) by (unfold dist; f_equal; generalize (mapply A u) (mapply A (mk3 (c0 u) (c1 u) 0)); intros; vring).
  rewrite mapply_dist by exact O. pose proof (Rabs_pos (c2 u)). apply norm_le_sq; [lra|]. unfold norm2, dot, vsub. cbn.
  replace ((c0 u - c0 u) * (c0 u - c0 u) + (c1 u - c1 u) * (c1 u - c1 u) + (c2 u - 0) * (c2 u - 0)) with (Rabs (c2 u) * Rabs (c2 u)) by (rewrite <- Rabs_mult, Rabs_right; [ring|apply Rle_ge, Rle_0_sqr]). apply Rmult_le_compat; lra.
Qed.

Theorem obb_rss_encloses : forall b X p, ortho (tf_rot X) -> ortho (ax b) -> inobb b p -> in_rss (obb_rss b X) (tf_apply X p).
Proof.
  intros b X p O OA (u0 & u1 & u2 & B0 & B1 & B2 & ->). rewrite tf_add, <- mmul_app. apply rss_at_encloses; [apply ortho_mmul; assumption|lra|lra|cbn; apply Rabs_le; lra|cbn; apply Rabs_le; lra|cbn; apply Rabs_le; lra].
Qed.
Print Assumptions obb_rss_encloses.

(** the edge order is a permutation in descending order *)
Lemma edge_order_perm : forall d, let '(i, j, k) := edge_order d in
  (i = 0 /\ j = 1 /\ k = 2 \/ i = 0 /\ j = 2 /\ k = 1 \/ i = 1 /\ j = 0 /\ k = 2 \/ i = 1 /\ j = 2 /\ k = 0 \/ i = 2 /\ j = 0 /\ k = 1 \/ i = 2 /\ j = 1 /\ k = 0)%nat /\
  comp k d <= comp j d <= comp i d.
Proof.
  intros d. unfold edge_order, swap01, swap12. cbn [fst snd].
  destruct (Rlt_dec (c0 d) (c1 d)); cbn [fst snd];
    [destruct (Rlt_dec (c0 d) (c2 d)); cbn [fst snd]; [destruct (Rlt_dec (c1 d) (c2 d)); cbn [fst snd]|destruct (Rlt_dec (c1 d) (c0 d)); cbn [fst snd]]
    |destruct (Rlt_dec (c1 d) (c2 d)); cbn [fst snd]; [destruct (Rlt_dec (c0 d) (c2 d)); cbn [fst snd]|destruct (Rlt_dec (c0 d) (c1 d)); cbn [fst snd]]];
    cbn [comp]; (split; [tauto|lra]).
Qed.

Theorem aabb_rss_encloses : forall b X p, ortho (tf_rot X) -> in_boxR p b ->
  in_rss (aabb_rss b X) (tf_apply X p) /\ ortho (rax (aabb_rss b X)) /\ det (rax (aabb_rss b X)) = det (tf_rot X) /\ rl1 (aabb_rss b X) <= rl0 (aabb_rss b X) /\ 2 * rr (aabb_rss b X) <= rl1 (aabb_rss b X).
Proof.
  intros b X p O H. destruct (in_box_off b p H) as (u & -> & B0 & B1 & B2). rewrite tf_add. unfold aabb_rss.
  pose proof (edge_order_perm (bdiag b)) as P. destruct (edge_order (bdiag b)) as [[i j] k]. destruct P as [P S].
  set (e := vscale (1 / 2) (bdiag b)). pose proof (Rabs_pos (c0 u)). pose proof (Rabs_pos (c1 u)). pose proof (Rabs_pos (c2 u)).
  assert (E : forall n, comp n e = comp n (bdiag b) * (1 / 2)) by (intros [|[|[|n]]]; cbn; ring).
  cbv zeta.
  set (A := mkm (if (i =? (j + 1) mod 3)%nat then vneg (col i (tf_rot X)) else col i (tf_rot X)) (col j (tf_rot X)) (col k (tf_rot X))).
  assert (OA : ortho A). { destruct (tf_rot X) as [a0 a1 a2] eqn:ER. destruct O as (O0 & O1 & O2 & O01 & O02 & O12). unfold unit in *. cbn [VecR.m0 VecR.m1 VecR.m2] in *.
    assert (N : forall v, norm2 (vneg v) = norm2 v) by (intros; vring). assert (Dn : forall v w, dot (vneg v) w = - dot v w) by (intros; vring). assert (Dr : forall v w, dot v (vneg w) = - dot v w) by (intros; vring).
    pose proof (dot_comm a0 a1). pose proof (dot_comm a0 a2). pose proof (dot_comm a1 a2).
    unfold A, ortho, unit. clear - P O0 O1 O2 O01 O02 O12 N Dn H3 H4 H5 Dr. decompose [or and] P; subst i j k; cbn [Nat.add Nat.modulo Nat.divmod Nat.eqb fst snd Nat.sub col VecR.m0 VecR.m1 VecR.m2]; rewrite ?N, ?Dn; rewrite ?Dr; repeat split; lra. }
  assert (DA : det A = det (tf_rot X)). { unfold A. destruct (tf_rot X) as [[] [] []]. clear - P. decompose [or and] P; subst i j k; cbn [Nat.add Nat.modulo Nat.divmod Nat.eqb fst snd Nat.sub col VecR.m0 VecR.m1 VecR.m2]; unfold det, dot, cross, vneg; cbn; ring. }
  split; [|split; [exact OA|split; [exact DA|split; cbn; rewrite !E; lra]]].
  set (l := (i =? (j + 1) mod 3)%nat) in *.
  set (w := mk3 (if l then - comp i u else comp i u) (comp j u) (comp k u)).
  assert (W : mapply (tf_rot X) u = mapply A w).
  { unfold A, w. destruct (tf_rot X) as [[] [] []], u. clear - P. unfold l. decompose [or and] P; subst i j k; cbn [Nat.add Nat.modulo Nat.divmod Nat.eqb fst snd Nat.sub col comp VecR.m0 VecR.m1 VecR.m2 VecR.c0 VecR.c1 VecR.c2]; unfold mapply, vneg, vadd, vscale; cbn; f_equal; ring. }
  rewrite W.
  assert (Bd : forall n, (n < 3)%nat -> Rabs (comp n u) <= comp n e). { intros [|[|[|n]]] Hn; try lia; rewrite E; cbn [comp]; assumption. }
  assert (Hi : (i < 3)%nat /\ (j < 3)%nat /\ (k < 3)%nat) by (clear - P; lia).
  assert (Wi : Rabs (c0 w) = Rabs (comp i u)) by (unfold w; cbn; destruct l; [apply Rabs_Ropp|reflexivity]).
  pose proof (Bd i ltac:(tauto)). pose proof (Bd j ltac:(tauto)). pose proof (Bd k ltac:(tauto)). pose proof (Rabs_pos (comp i u)). pose proof (Rabs_pos (comp j u)).
  apply rss_at_encloses; [exact OA|lra|lra|rewrite Wi; lra|cbn; lra|cbn; lra].
Qed.
Print Assumptions aabb_rss_encloses.

(** ** Boxes of bounding volumes (C63) *)
Definition box_pts (s : v3 * tf) : v3 -> Prop := placed (snd s) (boxset (fst s)).

Lemma box_pts_obb : forall A c e q, placed (mktf A c) (boxset (vscale 2 e)) q <-> inobb (mkobb A c e) q.
Proof.
  intros A c e q. unfold placed, inobb, boxset. cbn [ext oc ax]. split.
  - intros (p & B & ->). pose proof (B 0%nat ltac:(lia)). pose proof (B 1%nat ltac:(lia)). pose proof (B 2%nat ltac:(lia)). cbn in *. exists (c0 p), (c1 p), (c2 p). split; [lra|split; [lra|split; [lra|]]].
    unfold tf_apply. cbn. replace (mk3 (c0 p) (c1 p) (c2 p)) with p by (destruct p; reflexivity). generalize (mapply A p). intros. vring.
  - intros (u0 & u1 & u2 & B0 & B1 & B2 & ->). exists (mk3 u0 u1 u2). split; [intros [|[|[|i]]] Hi; try lia; cbn; lra|]. unfold tf_apply. cbn. generalize (mapply A (mk3 u0 u1 u2)). intros. vring.
Qed.

Theorem construct_box_aabb : forall b X q, (box_pts (box_of_aabb b X) q <-> exists p, in_boxR p b /\ q = tf_apply X p).
Proof.
  intros b X q. rewrite <- aabb_obb_exact. unfold box_pts, box_of_aabb. cbn [fst snd]. replace (bdiag b) with (vscale 2 (vscale (1 / 2) (bdiag b))) by (destruct (bdiag b); unfold vscale; cbn; f_equal; field).
  rewrite box_pts_obb. unfold aabb_obb. replace (vscale (1 / 2) (vscale 2 (vscale (1 / 2) (bdiag b)))) with (vscale (1 / 2) (bdiag b)) by (destruct (bdiag b); unfold vscale; cbn; f_equal; field). reflexivity.
Qed.
Print Assumptions construct_box_aabb.
Theorem construct_box_obbrss : forall b X q, (box_pts (box_of_obbrss b X) q <-> exists p, inobb b p /\ q = tf_apply X p).
Proof. intros b X q. rewrite <- obb_obb_exact. unfold box_pts, box_of_obbrss, tf_mul. cbn [fst snd tf_rot tf_tr]. rewrite box_pts_obb. reflexivity. Qed.
Print Assumptions construct_box_obbrss.

(** For an OBB (and a kIOS) the transform is dropped: the box is right for the identity, and wrong
    whenever the transform moves the box off itself. *)
Theorem construct_box_obb : forall b X q, (box_pts (box_of_obb b X) q <-> inobb b q).
Proof. intros [A c e] X q. unfold box_pts, box_of_obb. cbn [fst snd ax oc ext]. apply box_pts_obb. Qed.
Print Assumptions construct_box_obb.
Theorem construct_box_obb_refuted : exists b X, ortho (ax b) /\ ortho (tf_rot X) /\ forall p, inobb b p -> ~ box_pts (box_of_obb b X) (tf_apply X p).
Proof.
  exists (mkobb mid vzero (mk3 1 1 1)), (mktf mid (mk3 10 0 0)). split; [exact ortho_mid|split; [exact ortho_mid|]]. intros p Hp H. apply construct_box_obb in H.
  apply inobb_iff in H; [|exact ortho_mid]. apply inobb_iff in Hp; [|exact ortho_mid]. destruct H as [H _], Hp as [Hp _]. unfold tf_apply in H. rewrite mid_app in H. destruct p. unfold dot, vsub, vadd, vzero, mid in *. cbn in *. lra.
Qed.
Print Assumptions construct_box_obb_refuted.

(** For an RSS the box is centred at a corner of the rectangle, so it always misses something of a
    rectangle with a side longer than 2 r. *)
Theorem construct_box_rss_refuted : forall b X, ortho (rax b) -> ortho (tf_rot X) -> 0 <= rr b -> 0 <= rl1 b -> 2 * rr b < rl0 b ->
  exists p, in_rss b p /\ ~ box_pts (box_of_rss b X) (tf_apply X p).
Proof.
  intros b X OA O Hr H1 Hl. set (p := rect b 1 0). exists p. split; [exists 1, 0; split; [lra|split; [lra|rewrite dist_refl; exact Hr]]|].
  unfold box_pts, box_of_rss. cbn [fst snd]. replace (rss_dims b) with (vscale 2 (vscale (1 / 2) (rss_dims b))) by (unfold rss_dims, vscale; cbn; f_equal; field). unfold tf_mul. cbn [tf_rot tf_tr]. rewrite box_pts_obb.
  intros H. apply inobb_iff in H; [|apply ortho_mmul; assumption]. destruct H as [[_ H] _]. cbn [ax oc ext vscale rss_dims c0 mmul VecR.m0] in H. revert H. apply Rlt_not_le.
  assert (Ep : vsub (tf_apply X p) (tf_apply X (To b)) = mapply (tf_rot X) (vscale (rl0 b) (VecR.m0 (rax b)))).
  { unfold p, rect. rewrite tf_add. replace (vadd (vscale (1 * rl0 b) (VecR.m0 (rax b))) (vscale (0 * rl1 b) (VecR.m1 (rax b)))) with (vscale (rl0 b) (VecR.m0 (rax b))) by (destruct (rax b) as [[] [] []]; unfold vadd, vscale; cbn; f_equal; ring).
    generalize (tf_apply X (To b)) (mapply (tf_rot X) (vscale (rl0 b) (VecR.m0 (rax b)))). intros. vring. }
  rewrite Ep, mapply_dot by exact O. rewrite dot_scale_l. destruct OA as (U & _). unfold unit, norm2 in U. rewrite U. lra.
Qed.
Print Assumptions construct_box_rss_refuted.

Example convert_case : in_boxR (mk3 1 2 3) (BoxR vzero (mk3 2 4 6)) /\ edge_order (bdiag (BoxR vzero (mk3 2 4 6))) = (2, 1, 0)%nat.
Proof.
  split; [unfold in_boxR, vzero; cbn; lra|]. unfold edge_order, swap01, swap12, bdiag, vzero, vsub. cbn [lo hi c0 c1 c2 fst snd].
  repeat (match goal with |- context [Rlt_dec ?u ?v] => destruct (Rlt_dec u v); [try (exfalso; lra)|try (exfalso; lra)] end; cbn [fst snd]). reflexivity.
Qed.
