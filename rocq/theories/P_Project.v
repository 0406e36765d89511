(** Projection results are nearest points (C45). *)
From Coq Require Import Nsatz Reals Lra Psatz Lia Arith List.
From Verif Require Import VecR Project.
Import ListNotations.
Open Scope R_scope.

(** Projection on a segment with distinct end points: the parameters are a convex combination, the
    combined point is the nearest one, and the encode bits are those of the non-zero parameters. *)
Theorem line_nearest : forall a b p, a <> b -> let r := project_line a b p in
  par r 0 + par r 1 = 1 /\ nearest (seg_pt a b) p (vadd (vscale (par r 0) a) (vscale (par r 1) b)) (sd r) /\
  (forall k, (k < 2)%nat -> (enc r k = true <-> par r k <> 0)).
Proof.
  intros a b p H r. destruct (line_spec a b p (line_pos a b H)) as (W & W0 & _ & S & M & E & _). fold r in W, W0, S, M, E.
  split; [lra|split; [|exact E]]. rewrite W0. change (vadd (vscale (1 - par r 1) a) (vscale (par r 1) b)) with (segp a b (par r 1)).
  split; [exists (par r 1); split; [exact W|reflexivity]|split; [exact S|]]. intros q (s & Hs & ->). apply M, Hs.
Qed.
Print Assumptions line_nearest.

(** Coinciding end points: no projection, the distance is left at -1. *)
Theorem line_degenerate : forall a p, sd (project_line a a p) = -1 /\ (forall k, par (project_line a a p) k = 0).
Proof.
  intros a p. unfold project_line. cbv zeta. replace (norm2 (vsub a a)) with 0 by (destruct a; unfold norm2, dot, vsub; cbn; ring).
  destruct (Rlt_dec 0 0); [lra|]. split; reflexivity.
Qed.
Print Assumptions line_degenerate.

(** Projection on a triangle of non-zero area. *)
Theorem triangle_nearest : forall a b c p, cross (vsub a b) (vsub b c) <> vzero -> let r := project_triangle a b c p in
  nearest (tri_pt a b c) p (bary3 a b c (par r 0) (par r 1) (par r 2)) (sd r) /\
  (forall k, 0 <= par r k) /\ par r 0 + par r 1 + par r 2 = 1 /\
  (forall k, par r k <> 0 -> enc r k = true) /\ (forall k, (3 <= k)%nat -> enc r k = false).
Proof.
  intros a b c p H r.
  assert (Hl : 0 < norm2 (cross (vsub a b) (vsub b c))).
  { rewrite <- (vsub_zero_r (cross (vsub a b) (vsub b c))). apply line_pos. congruence. }
  destruct (tri_spec a b c p Hl) as (P0 & P1 & P2 & S & M & E & E3 & _). fold r in P0, P1, P2, S, M, E, E3.
  split; [|split; [exact P0|split; [exact P1|split; [exact E|exact E3]]]].
  split; [exists (par r 0), (par r 1), (par r 2); split; [apply P0|split; [apply P0|split; [apply P0|split; [exact P1|reflexivity]]]]|split; [exact S|exact M]].
Qed.
Print Assumptions triangle_nearest.

Theorem triangle_degenerate : forall a b c p, cross (vsub a b) (vsub b c) = vzero -> sd (project_triangle a b c p) = -1.
Proof.
  intros a b c p H. unfold project_triangle. cbv zeta. rewrite H. replace (norm2 vzero) with 0 by (unfold norm2, dot, vzero; cbn; ring). destruct (Rlt_dec 0 0); [lra|reflexivity].
Qed.
Print Assumptions triangle_degenerate.

(** Projection on a tetrahedron of non-zero volume, for points on d's side of the plane abc. *)
Theorem tetra_nearest : forall a b c d p, triple (vsub a d) (vsub b d) (vsub c d) <> 0 -> ~ outside_d a b c d p -> let r := project_tetra a b c d p in
  nearest (tet_pt a b c d) p (bary4 a b c d (par r 0) (par r 1) (par r 2) (par r 3)) (sd r) /\
  (forall k, 0 <= par r k) /\ par r 0 + par r 1 + par r 2 + par r 3 = 1 /\
  (forall k, par r k <> 0 -> enc r k = true) /\ (forall k, (4 <= k)%nat -> enc r k = false).
Proof.
  intros a b c d p Hv No r. destruct (tet_spec a b c d p Hv No) as (P0 & P1 & P2 & S & M & E & E4). fold r in P0, P1, P2, S, M, E, E4.
  split; [|split; [exact P0|split; [exact P1|split; [exact E|exact E4]]]].
  split; [exists (par r 0), (par r 1), (par r 2), (par r 3); split; [apply P0|split; [apply P0|split; [apply P0|split; [apply P0|split; [exact P1|reflexivity]]]]]|split; [exact S|exact M]].
Qed.
Print Assumptions tetra_nearest.

(** [outside_d] is what it is called: the point lies strictly on the other side of abc than d. *)
Theorem outside_d_meaning : forall a b c d p, triple (vsub a d) (vsub b d) (vsub c d) <> 0 ->
  let n := cross (vsub b a) (vsub c a) in outside_d a b c d p <-> dot (vsub d a) n * dot (vsub p a) n < 0.
Proof.
  intros a b c d p Hv n. unfold outside_d. replace (triple (vsub a d) (vsub b d) (vsub c d) * dot (vsub a p) (cross (vsub b c) (vsub a b))) with (- (dot (vsub d a) n * dot (vsub p a) n)); [split; lra|].
  unfold n. destruct a, b, c, d, p. unfold triple, dot, cross, vsub. cbn. ring.
Qed.
Print Assumptions outside_d_meaning.

(** Beyond the plane abc only the face abc is looked at: right when the point is on the inner side
    of the three other faces. *)
Theorem tetra_beyond_abc : forall a b c d p, triple (vsub a d) (vsub b d) (vsub c d) <> 0 -> outside_d a b c d p ->
  (exists x y z w, 0 <= x /\ 0 <= y /\ 0 <= z /\ x + y + z + w = 1 /\ p = bary4 a b c d x y z w) -> let r := project_tetra a b c d p in
  nearest (tet_pt a b c d) p (bary4 a b c d (par r 0) (par r 1) (par r 2) (par r 3)) (sd r) /\ par r 3 = 0.
Proof.
  intros a b c d p Hv Ho (x & y & z & w & X & Y & Z & S & Ep) r. unfold outside_d in Ho.
  assert (Er : r = project_triangle a b c p).
  { unfold r, project_tetra. cbv zeta. match goal with |- context [Rle_dec ?u 0] => destruct (Rle_dec u 0); [lra|] end. reflexivity. }
  assert (Hl : 0 < norm2 (cross (vsub a b) (vsub b c))).
  { rewrite <- (vsub_zero_r (cross (vsub a b) (vsub b c))). apply line_pos. intros E. apply Hv.
    replace (triple (vsub a d) (vsub b d) (vsub c d)) with (dot (vsub b d) (cross (vsub a b) (vsub b c))) by (destruct a, b, c, d; unfold triple, dot, cross, vsub; cbn; ring).
    rewrite <- E. destruct (vsub b d). unfold dot, vzero. cbn. ring. }
  assert (W : w < 0).
  { subst p. replace x with (1 - y - z - w) in Ho by lra. apply Rnot_le_lt. intros L.
    assert (E : triple (vsub a d) (vsub b d) (vsub c d) * dot (vsub a (bary4 a b c d (1 - y - z - w) y z w)) (cross (vsub b c) (vsub a b)) = - (w * (triple (vsub a d) (vsub b d) (vsub c d) * triple (vsub a d) (vsub b d) (vsub c d)))).
    { clear. unfold bary4, bary3. destruct a, b, c, d. unfold triple, dot, cross, vsub, vadd, vscale. cbn. ring. }
    rewrite E in Ho. pose proof (Rle_0_sqr (triple (vsub a d) (vsub b d) (vsub c d))) as Q. unfold Rsqr in Q. assert (0 <= w * (triple (vsub a d) (vsub b d) (vsub c d) * triple (vsub a d) (vsub b d) (vsub c d))) by (apply Rmult_le_pos; lra). lra. }
  destruct (tri_spec a b c p Hl) as (P0 & P1 & P2 & Sd & M & _). rewrite <- Er in P0, P1, P2, Sd, M.
  assert (R3 : par r 3 = 0) by (apply P2; lia). split; [|exact R3].
  split; [exists (par r 0), (par r 1), (par r 2), (par r 3); split; [apply P0|split; [apply P0|split; [apply P0|split; [apply P0|split; [rewrite R3; lra|reflexivity]]]]]|].
  split; [rewrite Sd; f_equal; f_equal; rewrite R3; unfold pt3, bary4; generalize (bary3 a b c (par r 0) (par r 1) (par r 2)); intros [] ; destruct d; unfold vadd, vscale; cbn; f_equal; ring|].
  intros q (x' & y' & z' & w' & X0 & Y0 & Z0 & W1 & S' & ->).
  pose proof (tet_exit a b c d x y z w x' y' z' w' S X0 Y0 Z0 W1 S') as TE. cbv zeta in TE. rewrite <- Ep in TE.
  destruct TE as (k & q & Hk & Pk & Near & x1 & y1 & z1 & w1 & X1 & Y1 & Z1 & W2 & S1 & Eq & Ek); [exists 3%nat; split; [lia|exact W]|].
  eapply Rle_trans; [|exact Near]. apply M. destruct k as [|[|[|[|k]]]]; try lia; try lra.
  exists x1, y1, z1. repeat (split; [lra|]). rewrite Eq, Ek. unfold bary4. generalize (bary3 a b c x1 y1 z1). intros []. destruct d. unfold vadd, vscale. cbn. f_equal; ring.
Qed.
Print Assumptions tetra_beyond_abc.

(** Otherwise the answer may be far from the nearest point. *)
Theorem tetra_refuted : exists a b c d p q, triple (vsub a d) (vsub b d) (vsub c d) <> 0 /\ tet_pt a b c d q /\
  norm2 (vsub q p) = 4 /\ 80 <= sd (project_tetra a b c d p).
Proof.
  set (a := mk3 0 (-1) 0). set (b := mk3 0 1 0). set (c := mk3 1 0 0). set (d := mk3 10 0 1). set (p := mk3 10 0 (-1)).
  assert (Tv : triple (vsub a d) (vsub b d) (vsub c d) = 2) by (unfold a, b, c, d, triple, dot, cross, vsub; cbn; ring).
  exists a, b, c, d, p, d. split; [rewrite Tv; lra|split; [|split]].
  - exists 0, 0, 0, 1. repeat (split; [lra|]). unfold bary4, bary3, a, b, c, d, vadd, vscale. cbn. f_equal; ring.
  - unfold d, p, norm2, dot, vsub. cbn. ring.
  - unfold project_tetra. cbv zeta. rewrite Tv.
    replace (dot (vsub a p) (cross (vsub b c) (vsub a b))) with 2 by (unfold a, b, c, p, dot, cross, vsub; cbn; ring).
    destruct (Rle_dec (2 * 2) 0); [lra|]. cbn [andb].
    assert (Hl : 0 < norm2 (cross (vsub a b) (vsub b c))) by (unfold a, b, c, norm2, dot, cross, vsub; cbn; lra).
    destruct (tri_spec a b c p Hl) as (P0 & P1 & _ & -> & _). unfold pt3. set (r := project_triangle a b c p) in *. clearbody r.
    pose proof (P0 0%nat). pose proof (P0 1%nat). pose proof (P0 2%nat). revert H H0 H1 P1. generalize (par r 0) (par r 1) (par r 2). clear. intros u v w Hu Hv Hw S.
    unfold bary3, a, b, c, p, norm2, dot, vadd, vsub, vscale. cbn. nra.
Qed.
Print Assumptions tetra_refuted.

Theorem tetra_flat : forall a b c d p, triple (vsub a d) (vsub b d) (vsub c d) = 0 -> sd (project_tetra a b c d p) = -1.
Proof.
  intros a b c d p H. unfold project_tetra. cbv zeta. rewrite H, Rmult_0_l, Rabs_R0. destruct (Rle_dec 0 0); [|lra]. unfold pos. destruct (Rlt_dec 0 0); [lra|]. reflexivity.
Qed.
Print Assumptions tetra_flat.

(** The origin variants used by GJK satisfy the same with p at the origin. *)
Theorem origin_variants : (forall a b, project_line_origin a b = project_line a b vzero) /\
  (forall a b c, project_triangle_origin a b c = project_triangle a b c vzero) /\
  (forall a b c d, project_tetra_origin a b c d = project_tetra a b c d vzero).
Proof. split; [exact line_origin|split; [exact triangle_origin|exact tetra_origin]]. Qed.
Print Assumptions origin_variants.

(** A point above the middle of a triangle, and one beside an edge. *)
Example project_case : let a := mk3 0 0 0 in let b := mk3 4 0 0 in let c := mk3 0 4 0 in
  sd (project_triangle a b c (mk3 1 1 2)) = 4 /\ sd (project_triangle a b c (mk3 1 (-3) 0)) = 9.
Proof.
  cbv zeta. assert (Hc : cross (vsub (mk3 0 0 0) (mk3 4 0 0)) (vsub (mk3 4 0 0) (mk3 0 4 0)) <> vzero) by (unfold cross, vsub, vzero; cbn; intros E; injection E; lra).
  split.
  - destruct (triangle_nearest (mk3 0 0 0) (mk3 4 0 0) (mk3 0 4 0) (mk3 1 1 2) Hc) as ((_ & E & M) & _). apply Rle_antisym.
    + eapply Rle_trans; [apply (M (mk3 1 1 0)); exists (/ 2), (/ 4), (/ 4); repeat (split; [lra|]); unfold bary3, vadd, vscale; cbn; f_equal; field|]. unfold norm2, dot, vsub; cbn; lra.
    + rewrite E. generalize (par (project_triangle (mk3 0 0 0) (mk3 4 0 0) (mk3 0 4 0) (mk3 1 1 2)) 0) (par (project_triangle (mk3 0 0 0) (mk3 4 0 0) (mk3 0 4 0) (mk3 1 1 2)) 1) (par (project_triangle (mk3 0 0 0) (mk3 4 0 0) (mk3 0 4 0) (mk3 1 1 2)) 2). intros u v w. unfold bary3, norm2, dot, vadd, vsub, vscale. cbn. pose proof (Rle_0_sqr (v * 4 - 1)). pose proof (Rle_0_sqr (w * 4 - 1)). unfold Rsqr in *. lra.
  - destruct (triangle_nearest (mk3 0 0 0) (mk3 4 0 0) (mk3 0 4 0) (mk3 1 (-3) 0) Hc) as ((_ & E & M) & P0 & P1 & _). apply Rle_antisym.
    + eapply Rle_trans; [apply (M (mk3 1 0 0)); exists (3 / 4), (/ 4), 0; repeat (split; [lra|]); unfold bary3, vadd, vscale; cbn; f_equal; field|]. unfold norm2, dot, vsub; cbn; lra.
    + rewrite E. revert P0. set (r := project_triangle _ _ _ _). intros P0. pose proof (P0 2%nat). unfold bary3, norm2, dot, vadd, vsub, vscale. cbn. revert H. generalize (par r 0) (par r 1) (par r 2). intros u v w Hw. pose proof (Rle_0_sqr (v * 4 - 1)). pose proof (Rle_0_sqr w). unfold Rsqr in *. lra.
Qed.
