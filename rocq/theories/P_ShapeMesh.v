(** C70: the triangle meshes made from shapes. *)
From Coq Require Import Reals ZArith Lra Lia List Bool Permutation.
From Verif Require Import VecR Motion Prim P_Prim ShapeBV P_HalfQuery P_PlaneQuery BvhBuild BvhModel P_BvhModel ShapeMesh MeshWeb.
Import ListNotations.
Open Scope R_scope.

(** A good mesh of the body [K] placed at [X]: the triangles form a closed oriented surface without
    boundary, in one piece and with the Euler number of a sphere; every corner number is in range; every triangle
    faces away from the body's centre and lies in the body. *)
Definition mesh_good (X : tf) (K : v3 -> Prop) (ps : list v3) (ts : list tri) : Prop :=
  closed ts /\
  (forall k l, (k < length ps)%nat -> (l < length ps)%nat -> linked ts k l) /\
  (2 * (length ps + length ts) = length (edges ts) + 4)%nat /\
  (forall a b c, In (a, b, c) ts -> exists p q s,
     nth_error ps a = Some p /\ nth_error ps b = Some q /\ nth_error ps c = Some s /\
     0 < dot (cross (vsub q p) (vsub s p)) (vsub p (tf_tr X)) /\
     forall x, in_tri p q s x -> placed X K x).

(** ** Surfaces of revolution *)
Section Turn.
Variables (a b : R) (rho z : nat -> R) (zt zb : R) (rows seg : nat).
Definition ang (j : nat) : R := PI * 2 / INR seg * INR j.
Definition turn (v : vert) : v3 :=
  match v with
  | Ring i j => mk3 (a * rho i * cos (ang j)) (b * rho i * sin (ang j)) (z i)
  | Top => mk3 0 0 zt
  | Bot => mk3 0 0 zb
  end.

Lemma ang_step : forall j, (1 <= seg)%nat -> (j < seg)%nat ->
  cos (ang j) * sin (ang (nx seg j)) - sin (ang j) * cos (ang (nx seg j)) = sin (PI * 2 / INR seg).
Proof.
  intros j S1 Hj. assert (P : 0 < INR seg) by (apply lt_0_INR; lia).
  replace (cos (ang j) * sin (ang (nx seg j)) - sin (ang j) * cos (ang (nx seg j))) with (sin (ang (nx seg j) - ang j)) by (rewrite sin_minus; ring).
  destruct (nx_cases seg j Hj) as [[Ej En]|[Hl En]]; rewrite En; unfold ang.
  - rewrite Ej, minus_INR by lia. cbn [INR]. replace (PI * 2 / INR seg * 0 - PI * 2 / INR seg * (INR seg - 1)) with (PI * 2 / INR seg - 2 * PI) by (field; lra).
    rewrite sin_minus, sin_2PI, cos_2PI. ring.
  - rewrite plus_INR. cbn [INR]. f_equal. ring.
Qed.
Lemma seg_sin : (3 <= seg)%nat -> 0 < sin (PI * 2 / INR seg).
Proof.
  intros S3. assert (P : 3 <= INR seg) by (replace 3 with (INR 3) by (cbn; ring); apply le_INR; exact S3). pose proof PI_RGT_0 as Hpi.
  apply sin_gt_0; [apply Rdiv_lt_0_compat; lra|]. apply Rmult_lt_reg_r with (INR seg); [lra|]. unfold Rdiv. rewrite Rmult_assoc, Rinv_l by lra. nra.
Qed.

(** The three kinds of triangles, seen from the centre. *)
Definition triple (p q s : v3) : R := dot p (cross q s).
Lemma triple_rot : forall p q s, triple p q s = triple q s p.
Proof. intros [? ? ?] [? ? ?] [? ? ?]. unfold triple, dot, cross. cbn. ring. Qed.

Hypothesis Ha : 0 < a.
Hypothesis Hb : 0 < b.
Hypothesis Hrho : forall i, (i < rows)%nat -> 0 < rho i.
Hypothesis Hzt : 0 < zt.
Hypothesis Hzb : zb < 0.
Hypothesis Hprof : forall i, (i + 1 < rows)%nat -> 0 < rho (i + 1) * z i - rho i * z (i + 1).
Lemma turn_out : (1 <= rows)%nat -> (3 <= seg)%nat -> forall c, okc rows seg c ->
  match tmap turn (face rows seg c) with (p, q, s) => 0 < triple p q s end.
Proof.
  intros R1 S3 c Hc. pose proof (seg_sin S3) as Hs.
  assert (Hab : 0 < a * b) by (apply Rmult_lt_0_compat; assumption).
  destruct c as [i j|i j|j|j]; cbn [okc] in Hc; pose proof (ang_step j ltac:(lia) ltac:(lia)) as St; cbn [face tmap turn]; unfold triple, dot, cross; cbn [c0 c1 c2];
    set (Cj := cos (ang j)) in *; set (Sj := sin (ang j)) in *; set (Cn := cos (ang (nx seg j))) in *; set (Sn := sin (ang (nx seg j))) in *.
  - pose proof (Hprof i ltac:(lia)) as Pr. pose proof (Hrho i ltac:(lia)) as R0.
    match goal with |- 0 < ?e => replace e with (a * b * rho i * (Cj * Sn - Sj * Cn) * (rho (i + 1)%nat * z i - rho i * z (i + 1)%nat)) by ring end.
    rewrite St. repeat apply Rmult_lt_0_compat; assumption.
  - pose proof (Hprof i ltac:(lia)) as Pr. pose proof (Hrho (i + 1)%nat ltac:(lia)) as R0.
    match goal with |- 0 < ?e => replace e with (a * b * rho (i + 1)%nat * (Cj * Sn - Sj * Cn) * (rho (i + 1)%nat * z i - rho i * z (i + 1)%nat)) by ring end.
    rewrite St. repeat apply Rmult_lt_0_compat; assumption.
  - pose proof (Hrho 0%nat ltac:(lia)) as R0.
    match goal with |- 0 < ?e => replace e with (a * b * rho 0%nat * rho 0%nat * (Cj * Sn - Sj * Cn) * zt) by ring end.
    rewrite St. repeat apply Rmult_lt_0_compat; assumption.
  - pose proof (Hrho (rows - 1)%nat ltac:(lia)) as R0.
    match goal with |- 0 < ?e => replace e with (a * b * rho (rows - 1)%nat * rho (rows - 1)%nat * (Cj * Sn - Sj * Cn) * - zb) by ring end.
    rewrite St. repeat apply Rmult_lt_0_compat; try assumption. lra.
Qed.
End Turn.

Lemma triple_apply : forall X p q s, ortho (tf_rot X) ->
  dot (cross (vsub (tf_apply X q) (tf_apply X p)) (vsub (tf_apply X s) (tf_apply X p))) (vsub (tf_apply X p) (tf_tr X)) = det (tf_rot X) * triple p q s.
Proof.
  intros [[u v w] t] [p0 p1 p2] [q0 q1 q2] [s0 s1 s2] _. destruct u as [u0 u1 u2], v as [v0 v1 v2], w as [w0 w1 w2], t as [t0 t1 t2].
  unfold triple, det, tf_apply, mapply, cross, dot, vsub, vadd, vscale. cbn. ring.
Qed.
Lemma placed_tri : forall X (K : v3 -> Prop) p q s, convex K -> K p -> K q -> K s -> forall x, in_tri (tf_apply X p) (tf_apply X q) (tf_apply X s) x -> placed X K x.
Proof.
  intros X K p q s C Kp Kq Ks x (u & v & w & Hu & Hv & Hw & E & ->).
  exists (vadd (vadd (vscale u p) (vscale v q)) (vscale w s)). split.
  - destruct (Req_dec u 1) as [->|n].
    + assert (v = 0) by lra. assert (w = 0) by lra. subst v w. replace (vadd (vadd (vscale 1 p) (vscale 0 q)) (vscale 0 s)) with p by (destruct p, q, s; unfold vadd, vscale; cbn; f_equal; ring). exact Kp.
    + assert (0 < 1 - u) by lra. assert (Hf : 0 <= w / (1 - u) <= 1) by (split; [apply Rmult_le_pos; [lra|left; apply Rinv_0_lt_compat; lra]|apply Rmult_le_reg_r with (1 - u); [lra|]; unfold Rdiv; rewrite Rmult_assoc, Rinv_l by lra; lra]).
      pose proof (C p _ (1 - u) Kp (C q s (w / (1 - u)) Kq Ks Hf) ltac:(lra)) as H1.
      replace (vadd (vadd (vscale u p) (vscale v q)) (vscale w s)) with (vadd p (vscale (1 - u) (vsub (vadd q (vscale (w / (1 - u)) (vsub s q))) p))); [exact H1|].
      replace v with (1 - u - w) by lra. destruct p, q, s; unfold vadd, vscale, vsub; cbn; f_equal; field; lra.
  - replace w with (1 - u - v) by lra. destruct X as [[[? ? ?] [? ? ?] [? ? ?]] [? ? ?]], p, q, s. unfold tf_apply, mapply, vadd, vscale; cbn. f_equal; ring.
Qed.

Lemma follows_good : forall rows seg (pos : vert -> v3) X (K : v3 -> Prop) ps ts, (1 <= rows)%nat -> (3 <= seg)%nat ->
  ortho (tf_rot X) -> det (tf_rot X) = 1 -> convex K -> follows rows seg ts -> length ts = (2 * rows * seg)%nat -> length ps = (rows * seg + 2)%nat ->
  (forall v, okv rows seg v -> nth_error ps (idx rows seg v) = Some (pos v)) ->
  (forall v, okv rows seg v -> K (pos v)) ->
  (forall c, okc rows seg c -> match tmap pos (face rows seg c) with (p, q, s) => 0 < triple p q s end) ->
  mesh_good X K (map (tf_apply X) ps) ts.
Proof.
  intros rows seg pos X K ps ts R1 S3 O D C F Lt Lp N I T. split; [eapply follows_closed; eassumption|]. split.
  { intros k l. rewrite map_length, Lp. apply follows_linked; try assumption; lia. }
  split. { unfold tri in *. rewrite edges_length, map_length, Lt, Lp. ring. }
  intros x y w H. destruct F as [_ F]. destruct (F _ H) as (c & Hc & E). specialize (T c Hc).
  assert (V : forall u v, In (u, v) (edges1 (face rows seg c)) -> okv rows seg u) by (intros u v Hu; exact (proj1 (face_ok rows seg R1 c u v Hc Hu))).
  destruct (face rows seg c) as [[u1 u2] u3]. cbn in T, E, V.
  assert (V1 : okv rows seg u1) by (eapply V; eauto). assert (V2 : okv rows seg u2) by (eapply V; eauto). assert (V3 : okv rows seg u3) by (eapply V; eauto).
  assert (G : forall v1 v2 v3, okv rows seg v1 -> okv rows seg v2 -> okv rows seg v3 -> 0 < triple (pos v1) (pos v2) (pos v3) -> (x, y, w) = (idx rows seg v1, idx rows seg v2, idx rows seg v3) ->
    exists p q s, nth_error (map (tf_apply X) ps) x = Some p /\ nth_error (map (tf_apply X) ps) y = Some q /\ nth_error (map (tf_apply X) ps) w = Some s /\
     0 < dot (cross (vsub q p) (vsub s p)) (vsub p (tf_tr X)) /\ forall x, in_tri p q s x -> placed X K x).
  { intros v1 v2 v3 O1 O2 O3 P E'. inversion E'; subst x y w. exists (tf_apply X (pos v1)), (tf_apply X (pos v2)), (tf_apply X (pos v3)).
    rewrite !nth_error_map, !N by assumption. split; [reflexivity|]. split; [reflexivity|]. split; [reflexivity|]. split.
    - rewrite triple_apply by exact O. rewrite D, Rmult_1_l. exact P.
    - apply placed_tri; auto. }
  destruct E as [E|[E|E]].
  - apply (G u1 u2 u3); assumption.
  - apply (G u2 u3 u1); try assumption. rewrite <- triple_rot. exact T.
  - apply (G u3 u1 u2); try assumption. rewrite triple_rot. exact T.
Qed.

(** ** The five meshes *)

Lemma lt_INR_pos : forall n, (1 <= n)%nat -> 0 < INR n.
Proof. intros n H. apply lt_0_INR. lia. Qed.

(** Ellipsoid and sphere *)
Definition lat (ring i : nat) : R := PI / INR (ring + 1) * INR (i + 1).
Definition ell_pos (a b c : R) (ring seg : nat) : vert -> v3 :=
  turn a b (fun i => sin (lat ring i)) (fun i => c * cos (lat ring i)) c (- c) seg.
Lemma ell_length : forall a b c seg ring, length (ell_points a b c seg ring) = (ring * seg + 2)%nat.
Proof. intros. unfold ell_points. rewrite app_length, (loop2_length _ _ _ _ 1) by reflexivity. cbn. lia. Qed.
Lemma ell_nth : forall a b c seg ring v, okv ring seg v -> nth_error (ell_points a b c seg ring) (idx ring seg v) = Some (ell_pos a b c ring seg v).
Proof.
  intros a b c seg ring v Hv. unfold ell_points.
  assert (L : forall (f : nat -> nat -> v3), length (loop2 ring seg (fun i j => [f i j])) = (ring * seg)%nat) by (intros; rewrite (loop2_length _ _ _ _ 1) by reflexivity; lia).
  destruct v as [i j| |]; cbn [okv idx] in *.
  - rewrite nth_error_app1 by (rewrite L; nia). rewrite nth_loop2 by lia. unfold ell_pos, turn, lat, ang. f_equal. f_equal; rewrite ?Rplus_0_l; [f_equal; f_equal; ring|f_equal; f_equal; ring|reflexivity].
  - rewrite nth_error_app2 by (rewrite L; lia). rewrite L, Nat.sub_diag. reflexivity.
  - rewrite nth_error_app2 by (rewrite L; lia). rewrite L. replace (ring * seg + 1 - ring * seg)%nat with 1%nat by lia. reflexivity.
Qed.
Lemma lat_range : forall ring i, (i < ring)%nat -> 0 < lat ring i < PI.
Proof.
  intros ring i H. unfold lat. pose proof PI_RGT_0 as P. assert (Pr : 0 < INR (ring + 1)) by (apply lt_INR_pos; lia). assert (Pi : 0 < INR (i + 1)) by (apply lt_INR_pos; lia).
  split; [apply Rmult_lt_0_compat; [apply Rdiv_lt_0_compat; lra|lra]|].
  apply Rmult_lt_reg_r with (INR (ring + 1)); [exact Pr|]. replace (PI / INR (ring + 1) * INR (i + 1) * INR (ring + 1)) with (PI * INR (i + 1)) by (field; lra).
  apply Rmult_lt_compat_l; [exact P|]. apply lt_INR. lia.
Qed.
Lemma lat_step : forall ring i, (i + 1 < ring)%nat -> sin (lat ring (i + 1)) * cos (lat ring i) - sin (lat ring i) * cos (lat ring (i + 1)) = sin (PI / INR (ring + 1)).
Proof.
  intros ring i H. replace (sin (lat ring (i + 1)) * cos (lat ring i) - sin (lat ring i) * cos (lat ring (i + 1))) with (sin (lat ring (i + 1) - lat ring i)) by (rewrite sin_minus; ring).
  f_equal. unfold lat. rewrite !plus_INR. cbn [INR]. ring.
Qed.

(** Every vertex of the ellipsoid's mesh is on its surface. *)
Theorem ellipsoid_mesh_surface : forall a b c seg ring p, In p (ell_points a b c seg ring) -> exists w, norm2 w = 1 /\ p = mk3 (a * c0 w) (b * c1 w) (c * c2 w).
Proof.
  intros a b c seg ring p H. unfold ell_points in H. rewrite in_app_iff, in_loop2 in H.
  destruct H as [(i & j & _ & _ & [<-|[]])|[<-|[<-|[]]]].
  - set (th := 0 + PI / INR (ring + 1) * INR (i + 1)). set (ph := 0 + INR j * (PI * 2 / INR seg)). exists (mk3 (sin th * cos ph) (sin th * sin ph) (cos th)). split; [|cbn; f_equal; ring].
    unfold norm2, dot. cbn. pose proof (sin2_cos2 th) as A. pose proof (sin2_cos2 ph) as B. unfold Rsqr in A, B.
    replace (sin th * cos ph * (sin th * cos ph) + sin th * sin ph * (sin th * sin ph) + cos th * cos th) with (sin th * sin th * (sin ph * sin ph + cos ph * cos ph) + cos th * cos th) by ring. rewrite B. lra.
  - exists (mk3 0 0 1). split; [unfold norm2, dot; cbn; ring|cbn; f_equal; ring].
  - exists (mk3 0 0 (-1)). split; [unfold norm2, dot; cbn; ring|cbn; f_equal; ring].
Qed.
Print Assumptions ellipsoid_mesh_surface.
Theorem sphere_mesh_surface : forall r seg ring p, 0 <= r -> In p (sphere_points r seg ring) -> norm p = r.
Proof.
  intros r seg ring p Hr H. apply ellipsoid_mesh_surface in H. destruct H as (w & Hw & ->). unfold norm. replace (norm2 (mk3 (r * c0 w) (r * c1 w) (r * c2 w))) with (r * r * norm2 w) by (unfold norm2, dot; cbn; ring).
  rewrite Hw, Rmult_1_r. apply sqrt_square. exact Hr.
Qed.
Print Assumptions sphere_mesh_surface.

Theorem ellipsoid_mesh : forall a b c seg ring X, 0 < a -> 0 < b -> 0 < c -> (3 <= seg)%nat -> (1 <= ring)%nat -> ortho (tf_rot X) -> det (tf_rot X) = 1 ->
  mesh_good X (ellset (mk3 a b c)) (map (tf_apply X) (ell_points a b c seg ring)) (ball_tris seg ring).
Proof.
  intros a b c seg ring X Ha Hb Hc S3 R1 O D. apply follows_good with (rows := ring) (seg := seg) (pos := ell_pos a b c ring seg); try assumption.
  - apply ell_convex.
  - apply ball_follows; lia.
  - apply ball_length; assumption.
  - apply ell_length.
  - intros v Hv. apply ell_nth; assumption.
  - intros v Hv. destruct (ellipsoid_mesh_surface a b c seg ring (ell_pos a b c ring seg v)) as (w & Hw & E); [eapply nth_error_In; apply ell_nth; exact Hv|].
    exists w. split; [lra|exact E].
  - apply turn_out; try assumption.
    + intros i Hi. destruct (lat_range ring i Hi). apply sin_gt_0; assumption.
    + lra.
    + intros i Hi. replace (sin (lat ring (i + 1)) * (c * cos (lat ring i)) - sin (lat ring i) * (c * cos (lat ring (i + 1)))) with (c * sin (PI / INR (ring + 1))) by (rewrite <- (lat_step ring i Hi); ring).
      apply Rmult_lt_0_compat; [exact Hc|]. pose proof PI_RGT_0. assert (2 <= INR (ring + 1)) by (replace 2 with (INR 2) by (cbn; ring); apply le_INR; lia).
      apply sin_gt_0; [apply Rdiv_lt_0_compat; lra|]. apply Rmult_lt_reg_r with (INR (ring + 1)); [lra|]. unfold Rdiv. rewrite Rmult_assoc, Rinv_l by lra. nra.
Qed.
Print Assumptions ellipsoid_mesh.
Theorem sphere_mesh : forall r seg ring X, 0 < r -> (3 <= seg)%nat -> (1 <= ring)%nat -> ortho (tf_rot X) -> det (tf_rot X) = 1 ->
  mesh_good X (ball vzero r) (map (tf_apply X) (sphere_points r seg ring)) (ball_tris seg ring).
Proof.
  intros r seg ring X Hr S3 R1 O D. destruct (ellipsoid_mesh r r r seg ring X) as (C & L & Eu & T); try assumption.
  split; [exact C|]. split; [exact L|]. split; [exact Eu|]. intros a b c H. destruct (T a b c H) as (p & q & s & E1 & E2 & E3 & P & I). exists p, q, s. repeat split; try assumption.
  intros x Hx. destruct (I x Hx) as (y & (w & Hw & ->) & ->). eexists. split; [|reflexivity]. unfold ball, dist, norm. cbn [c0 c1 c2].
  replace (norm2 (vsub (mk3 (r * c0 w) (r * c1 w) (r * c2 w)) vzero)) with (r * r * norm2 w) by (unfold norm2, dot; cbn; ring).
  rewrite <- (sqrt_square r) by lra. rewrite sqrt_sqrt by nra. apply sqrt_le_1_alt. assert (0 <= r * r) by nra. nra.
Qed.
Print Assumptions sphere_mesh.

(** Cylinder *)
Definition tube_pos (rho z : nat -> R) (zt zb : R) (tot : nat) : vert -> v3 := turn 1 1 rho z zt zb tot.
Definition cyl_z (h : R) (num i : nat) : R := h / 2 - INR i * (h / INR num).
Lemma cyl_length : forall r h tot num, (1 <= num)%nat -> length (cyl_points r h tot num) = ((num + 1) * tot + 2)%nat.
Proof. intros r h tot num H. unfold cyl_points, loop. rewrite !app_length, !map_length, !seq_length, (loop2_length _ _ _ _ 1), dec_pos by (try reflexivity; exact H). cbn [length]. nia. Qed.
Lemma circle_turn : forall r zz tot j, circle r zz tot j = mk3 (1 * r * cos (ang tot j)) (1 * r * sin (ang tot j)) zz.
Proof. intros. unfold circle, ang. rewrite !Rplus_0_l. f_equal; ring. Qed.
Lemma cyl_nth : forall r h tot num v, (1 <= num)%nat -> okv (num + 1) tot v ->
  nth_error (cyl_points r h tot num) (idx (num + 1) tot v) = Some (tube_pos (fun _ => r) (cyl_z h num) (h / 2) (- h / 2) tot v).
Proof.
  intros r h tot num v N1 Hv. unfold cyl_points. rewrite dec_pos by exact N1. pose proof (lt_INR_pos num N1) as Pn.
  assert (L : forall (f : nat -> nat -> v3), length (loop2 (num - 1) tot (fun i j => [f i j])) = ((num - 1) * tot)%nat) by (intros; rewrite (loop2_length _ _ _ _ 1) by reflexivity; lia).
  assert (L1 : forall (f : nat -> v3), length (loop tot f) = tot) by (intros; unfold loop; rewrite map_length, seq_length; reflexivity).
  destruct v as [i j| |]; cbn [okv idx] in *; unfold tube_pos; cbn [turn].
  - destruct (Nat.eq_dec i 0) as [->|n0]; [|destruct (Nat.eq_dec i num) as [->|nn]].
    + rewrite nth_error_app1 by (rewrite L1; lia). cbn [Nat.mul Nat.add]. rewrite nth_loop by lia. rewrite circle_turn. unfold cyl_z. cbn [INR]. f_equal. f_equal. ring.
    + rewrite nth_error_app2 by (rewrite L1; nia). rewrite L1. rewrite nth_error_app2 by (rewrite L; nia). rewrite L. rewrite nth_error_app1 by (rewrite L1; nia).
      replace (num * tot + j - tot - (num - 1) * tot)%nat with j by nia. rewrite nth_loop by lia. rewrite circle_turn. unfold cyl_z. f_equal. f_equal. field. lra.
    + rewrite nth_error_app2 by (rewrite L1; nia). rewrite L1. rewrite nth_error_app1 by (rewrite L; nia).
      replace (i * tot + j - tot)%nat with ((i - 1) * tot + j)%nat by nia. rewrite nth_loop2 by lia. rewrite circle_turn. unfold cyl_z. replace (i - 1 + 1)%nat with i by lia. reflexivity.
  - rewrite nth_error_app2 by (rewrite L1; nia). rewrite L1. rewrite nth_error_app2 by (rewrite L; nia). rewrite L. rewrite nth_error_app2 by (rewrite L1; nia). rewrite L1.
    replace ((num + 1) * tot - tot - (num - 1) * tot - tot)%nat with 0%nat by nia. reflexivity.
  - rewrite nth_error_app2 by (rewrite L1; nia). rewrite L1. rewrite nth_error_app2 by (rewrite L; nia). rewrite L. rewrite nth_error_app2 by (rewrite L1; nia). rewrite L1.
    replace ((num + 1) * tot + 1 - tot - (num - 1) * tot - tot)%nat with 1%nat by nia. reflexivity.
Qed.
Lemma frac_le : forall i num, (1 <= num)%nat -> (i <= num)%nat -> 0 <= INR i / INR num <= 1.
Proof.
  intros i num N1 H. pose proof (lt_INR_pos num N1). pose proof (pos_INR i). pose proof (le_INR _ _ H). split; [apply Rmult_le_pos; [lra|left; apply Rinv_0_lt_compat; lra]|].
  apply Rmult_le_reg_r with (INR num); [lra|]. unfold Rdiv. rewrite Rmult_assoc, Rinv_l by lra. lra.
Qed.
Lemma circle_sq : forall r zz tot j, c0 (circle r zz tot j) * c0 (circle r zz tot j) + c1 (circle r zz tot j) * c1 (circle r zz tot j) = r * r.
Proof.
  intros. unfold circle. cbn. set (t := 0 + PI * 2 / INR tot * INR j). pose proof (sin2_cos2 t) as E. unfold Rsqr in E.
  replace (r * cos t * (r * cos t) + r * sin t * (r * sin t)) with (r * r * (sin t * sin t + cos t * cos t)) by ring. rewrite E. ring.
Qed.
(** Every vertex of the cylinder's mesh is on its surface. *)
Theorem cylinder_mesh_surface : forall r h tot num p, 0 <= h -> (1 <= num)%nat -> In p (cyl_points r h tot num) ->
  cylset h r p /\ (c0 p * c0 p + c1 p * c1 p = r * r \/ Rabs (c2 p) = h / 2).
Proof.
  intros r h tot num p Hh N1 H. unfold cyl_points in H. rewrite !in_app_iff, !in_loop, in_loop2, dec_pos in H by exact N1. pose proof (lt_INR_pos num N1) as Pn.
  destruct H as [(j & _ & ->)|[(i & j & Hi & _ & [<-|[]])|[(j & _ & ->)|[<-|[<-|[]]]]]]; unfold cylset; rewrite ?circle_sq.
  - cbn. split; [split; lra|left; reflexivity].
  - cbn [circle c2]. destruct (frac_le (i + 1) num N1 ltac:(lia)) as [F0 F1]. replace (INR (i + 1) * (h / INR num)) with (INR (i + 1) / INR num * h) by (field; lra).
    assert (0 <= INR (i + 1) / INR num * h <= h) by (split; [apply Rmult_le_pos; lra|]; rewrite <- (Rmult_1_l h) at 2; apply Rmult_le_compat_r; lra). split; [split; lra|left; reflexivity].
  - cbn. split; [split; lra|left; reflexivity].
  - cbn. split; [split; [lra|nra]|]. right. apply Rabs_pos_eq. lra.
  - cbn. split; [split; [lra|nra]|]. right. rewrite Rabs_left1; lra.
Qed.
Print Assumptions cylinder_mesh_surface.
Theorem cylinder_mesh : forall r h tot num X, 0 < r -> 0 < h -> (3 <= tot)%nat -> (1 <= num)%nat -> ortho (tf_rot X) -> det (tf_rot X) = 1 ->
  mesh_good X (cylset h r) (map (tf_apply X) (cyl_points r h tot num)) (cyl_tris tot num).
Proof.
  intros r h tot num X Hr Hh S3 N1 O D. pose proof (lt_INR_pos num N1) as Pn.
  apply follows_good with (rows := (num + 1)%nat) (seg := tot) (pos := tube_pos (fun _ => r) (cyl_z h num) (h / 2) (- h / 2) tot); try assumption; try lia.
  - apply cyl_convex.
  - apply cyl_follows; lia.
  - rewrite cyl_tube by exact N1. apply tube_length. lia.
  - apply cyl_length; assumption.
  - intros v Hv. apply cyl_nth; assumption.
  - intros v Hv. apply (cylinder_mesh_surface r h tot num); [lra|exact N1|]. eapply nth_error_In. apply cyl_nth; assumption.
  - apply turn_out; try assumption; try lra; try lia.
    + intros i _. exact Hr.
    + intros i Hi. unfold cyl_z. rewrite plus_INR. cbn [INR]. replace (r * (h / 2 - INR i * (h / INR num)) - r * (h / 2 - (INR i + 1) * (h / INR num))) with (r * (h / INR num)) by ring.
      apply Rmult_lt_0_compat; [exact Hr|]. apply Rdiv_lt_0_compat; assumption.
Qed.
Print Assumptions cylinder_mesh.

(** Cone *)
Definition cone_z (h : R) (num i : nat) : R := h / 2 - INR (i + 1) * (h / INR num).
Definition cone_r (r : R) (num i : nat) : R := r * (INR (i + 1) / INR num).
Lemma cone_length : forall r h tot num, (1 <= num)%nat -> length (cone_points r h tot num) = (num * tot + 2)%nat.
Proof. intros r h tot num H. unfold cone_points, loop. rewrite !app_length, !map_length, !seq_length, (loop2_length _ _ _ _ 1), dec_pos by (try reflexivity; exact H). cbn [length]. nia. Qed.
Lemma cone_radius : forall r h num i, h <> 0 -> (1 <= num)%nat -> r * (1 / 2 - (h / 2 - INR (i + 1) * (h / INR num)) / h) = cone_r r num i.
Proof. intros r h num i H N1. pose proof (lt_INR_pos num N1). unfold cone_r. field. split; lra. Qed.
Lemma cone_nth : forall r h tot num v, h <> 0 -> (1 <= num)%nat -> okv num tot v ->
  nth_error (cone_points r h tot num) (idx num tot v) = Some (tube_pos (cone_r r num) (cone_z h num) (h / 2) (- h / 2) tot v).
Proof.
  intros r h tot num v Hh N1 Hv. unfold cone_points. rewrite dec_pos by exact N1. pose proof (lt_INR_pos num N1) as Pn.
  assert (L : forall (f : nat -> nat -> v3), length (loop2 (num - 1) tot (fun i j => [f i j])) = ((num - 1) * tot)%nat) by (intros; rewrite (loop2_length _ _ _ _ 1) by reflexivity; lia).
  assert (L1 : forall (f : nat -> v3), length (loop tot f) = tot) by (intros; unfold loop; rewrite map_length, seq_length; reflexivity).
  destruct v as [i j| |]; cbn [okv idx] in *; unfold tube_pos; cbn [turn].
  - destruct (Nat.eq_dec i (num - 1)) as [->|nn].
    + rewrite nth_error_app2 by (rewrite L; nia). rewrite L. rewrite nth_error_app1 by (rewrite L1; nia).
      replace ((num - 1) * tot + j - (num - 1) * tot)%nat with j by nia. rewrite nth_loop by lia. rewrite circle_turn. unfold cone_z, cone_r. replace (num - 1 + 1)%nat with num by lia. f_equal. f_equal; field; lra.
    + rewrite nth_error_app1 by (rewrite L; nia). rewrite nth_loop2 by lia. rewrite circle_turn. rewrite cone_radius by assumption. reflexivity.
  - rewrite nth_error_app2 by (rewrite L; nia). rewrite L. rewrite nth_error_app2 by (rewrite L1; nia). rewrite L1.
    replace (num * tot - (num - 1) * tot - tot)%nat with 0%nat by nia. reflexivity.
  - rewrite nth_error_app2 by (rewrite L; nia). rewrite L. rewrite nth_error_app2 by (rewrite L1; nia). rewrite L1.
    replace (num * tot + 1 - (num - 1) * tot - tot)%nat with 1%nat by nia. reflexivity.
Qed.
(** Every vertex of the cone's mesh is on its surface: on the slanted side, or on the base. *)
Theorem cone_mesh_surface : forall r h tot num p, h <> 0 -> (1 <= num)%nat -> In p (cone_points r h tot num) ->
  coneset h r p /\ ((exists t, 0 <= t <= 1 /\ c2 p = h / 2 - t * h /\ c0 p * c0 p + c1 p * c1 p = t * r * (t * r)) \/ c2 p = - h / 2).
Proof.
  intros r h tot num p Hh N1 H. unfold cone_points in H. rewrite !in_app_iff, !in_loop, in_loop2, dec_pos in H by exact N1. pose proof (lt_INR_pos num N1) as Pn.
  assert (G : forall q, (exists t, 0 <= t <= 1 /\ c2 q = h / 2 - t * h /\ c0 q * c0 q + c1 q * c1 q = t * r * (t * r)) -> coneset h r q).
  { intros q (t & Ht & E & F). exists t. split; [exact Ht|]. split; [exact E|lra]. }
  destruct H as [(i & j & Hi & _ & [<-|[]])|[(j & _ & ->)|[<-|[<-|[]]]]].
  - assert (Q : exists t, 0 <= t <= 1 /\ c2 (circle (r * (1 / 2 - (h / 2 - INR (i + 1) * (h / INR num)) / h)) (h / 2 - INR (i + 1) * (h / INR num)) tot j) = h / 2 - t * h /\
       c0 (circle (r * (1 / 2 - (h / 2 - INR (i + 1) * (h / INR num)) / h)) (h / 2 - INR (i + 1) * (h / INR num)) tot j) * c0 (circle (r * (1 / 2 - (h / 2 - INR (i + 1) * (h / INR num)) / h)) (h / 2 - INR (i + 1) * (h / INR num)) tot j) +
       c1 (circle (r * (1 / 2 - (h / 2 - INR (i + 1) * (h / INR num)) / h)) (h / 2 - INR (i + 1) * (h / INR num)) tot j) * c1 (circle (r * (1 / 2 - (h / 2 - INR (i + 1) * (h / INR num)) / h)) (h / 2 - INR (i + 1) * (h / INR num)) tot j) = t * r * (t * r)).
    { rewrite circle_sq, cone_radius by assumption. exists (INR (i + 1) / INR num). split; [apply frac_le; lia|]. split; [cbn [circle c2]; field; lra|unfold cone_r; ring]. }
    split; [apply G; exact Q|left; exact Q].
  - assert (Q : exists t, 0 <= t <= 1 /\ c2 (circle r (- h / 2) tot j) = h / 2 - t * h /\ c0 (circle r (- h / 2) tot j) * c0 (circle r (- h / 2) tot j) + c1 (circle r (- h / 2) tot j) * c1 (circle r (- h / 2) tot j) = t * r * (t * r)).
    { rewrite circle_sq. exists 1. split; [lra|]. split; [cbn; field|ring]. }
    split; [apply G; exact Q|left; exact Q].
  - assert (Q : exists t, 0 <= t <= 1 /\ c2 (mk3 0 0 (h / 2)) = h / 2 - t * h /\ c0 (mk3 0 0 (h / 2)) * c0 (mk3 0 0 (h / 2)) + c1 (mk3 0 0 (h / 2)) * c1 (mk3 0 0 (h / 2)) = t * r * (t * r)).
    { exists 0. cbn. split; [lra|]. split; ring. }
    split; [apply G; exact Q|left; exact Q].
  - split; [|right; reflexivity]. exists 1. cbn. split; [lra|]. split; [field|nra].
Qed.
Print Assumptions cone_mesh_surface.
Theorem cone_mesh : forall r h tot num X, 0 < r -> 0 < h -> (3 <= tot)%nat -> (1 <= num)%nat -> ortho (tf_rot X) -> det (tf_rot X) = 1 ->
  mesh_good X (coneset h r) (map (tf_apply X) (cone_points r h tot num)) (cone_tris tot num).
Proof.
  intros r h tot num X Hr Hh S3 N1 O D. pose proof (lt_INR_pos num N1) as Pn.
  apply follows_good with (rows := num) (seg := tot) (pos := tube_pos (cone_r r num) (cone_z h num) (h / 2) (- h / 2) tot); try assumption; try lia.
  - apply cone_convex. lra.
  - apply cone_follows; lia.
  - rewrite cone_tube by exact N1. apply tube_length. lia.
  - apply cone_length; assumption.
  - intros v Hv. apply cone_nth; try assumption. lra.
  - intros v Hv. apply (cone_mesh_surface r h tot num); [lra|exact N1|]. eapply nth_error_In. apply cone_nth; try assumption. lra.
  - apply turn_out; try assumption; try lra; try lia.
    + intros i _. unfold cone_r. apply Rmult_lt_0_compat; [exact Hr|]. apply Rdiv_lt_0_compat; [apply lt_INR_pos; lia|exact Pn].
    + intros i Hi. unfold cone_z, cone_r. rewrite !plus_INR. cbn [INR].
      match goal with |- 0 < ?e => replace e with (r * h / (2 * INR num)) by (field; lra) end. apply Rdiv_lt_0_compat; [apply Rmult_lt_0_compat; assumption|lra].
Qed.
Print Assumptions cone_mesh.

(** Box *)
Lemma box_edges_nodup : NoDup (edges box_tris).
Proof. cbn. repeat (constructor; [cbn; intros H; repeat destruct H as [H|H]; try discriminate H; contradiction|]). constructor. Qed.
Lemma box_closed : closed box_tris.
Proof.
  split; [exact box_edges_nodup|]. intros u v H. cbn in H. repeat destruct H as [H|H]; try contradiction; inversion H; subst; cbn; tauto.
Qed.
Lemma box_linked : forall k l, (k < 8)%nat -> (l < 8)%nat -> linked box_tris k l.
Proof.
  assert (S : forall u v, In (u, v) (edges box_tris) -> linked box_tris u v) by (intros; now apply Relation_Operators.rt_step).
  assert (T : forall u v w, linked box_tris u v -> linked box_tris v w -> linked box_tris u w) by (intros u v w; apply Relation_Operators.rt_trans).
  assert (A : forall k, (k < 8)%nat -> linked box_tris k 0%nat /\ linked box_tris 0%nat k).
  { assert (P7 : linked box_tris 7%nat 0%nat /\ linked box_tris 0%nat 7%nat) by (split; apply S; cbn; tauto).
    assert (P6 : linked box_tris 6%nat 0%nat /\ linked box_tris 0%nat 6%nat) by (split; [apply (T _ 7%nat); [apply S; cbn; tauto|apply P7]|apply (T _ 7%nat); [apply P7|apply S; cbn; tauto]]).
    assert (P5 : linked box_tris 5%nat 0%nat /\ linked box_tris 0%nat 5%nat) by (split; [apply (T _ 7%nat); [apply S; cbn; tauto|apply P7]|apply (T _ 7%nat); [apply P7|apply S; cbn; tauto]]).
    intros k Hk. destruct k as [|[|[|[|[|[|[|[|k]]]]]]]]; try lia; try assumption; try (split; apply S; cbn; tauto). split; apply Relation_Operators.rt_refl. }
  intros k l Hk Hl. apply (T _ 0%nat); apply A; assumption.
Qed.
Theorem box_mesh : forall side X, 0 < c0 side -> 0 < c1 side -> 0 < c2 side -> ortho (tf_rot X) -> det (tf_rot X) = 1 ->
  mesh_good X (boxset side) (map (tf_apply X) (box_points side)) box_tris.
Proof.
  intros side X H0 H1 H2 O D. split; [exact box_closed|]. split; [intros k l; cbn [map length box_points]; apply box_linked|]. split; [reflexivity|].
  assert (K : forall p, In p (box_points side) -> boxset side p).
  { intros p Hp i Hi. cbn in Hp. repeat destruct Hp as [<-|Hp]; try contradiction; (destruct i as [|[|[|i]]]; [| | |lia]); cbn; lra. }
  assert (G : forall a b c p q s, nth_error (box_points side) a = Some p -> nth_error (box_points side) b = Some q -> nth_error (box_points side) c = Some s -> 0 < triple p q s ->
    exists p q s, nth_error (map (tf_apply X) (box_points side)) a = Some p /\ nth_error (map (tf_apply X) (box_points side)) b = Some q /\ nth_error (map (tf_apply X) (box_points side)) c = Some s /\
     0 < dot (cross (vsub q p) (vsub s p)) (vsub p (tf_tr X)) /\ forall x, in_tri p q s x -> placed X (boxset side) x).
  { intros a b c p q s Ea Eb Ec T. exists (tf_apply X p), (tf_apply X q), (tf_apply X s). rewrite !nth_error_map, Ea, Eb, Ec. split; [reflexivity|]. split; [reflexivity|]. split; [reflexivity|]. split.
    - rewrite triple_apply by exact O. rewrite D, Rmult_1_l. exact T.
    - apply placed_tri; [apply box_convex| | |]; apply K; eapply nth_error_In; eassumption. }
  assert (P : 0 < c0 side * c1 side * c2 side) by (repeat apply Rmult_lt_0_compat; assumption).
  intros a b c H. cbn in H. repeat destruct H as [H|H]; try contradiction; inversion H; subst a b c; (eapply G; [reflexivity|reflexivity|reflexivity|]); unfold triple, dot, cross; cbn;
    (match goal with |- 0 < ?e => replace e with (c0 side * c1 side * c2 side / 2) by field end); lra.
Qed.
Print Assumptions box_mesh.
(** The vertices are the eight corners. *)
Theorem box_mesh_corners : forall side p, In p (box_points side) <->
  (Rabs (c0 p) = Rabs (c0 side / 2) /\ Rabs (c1 p) = Rabs (c1 side / 2) /\ Rabs (c2 p) = Rabs (c2 side / 2)).
Proof.
  intros side p.
  assert (A : forall x y, Rabs x = Rabs (y / 2) <-> x = 1 / 2 * y \/ x = - (1 / 2) * y).
  { intros x y. unfold Rabs. destruct (Rcase_abs x), (Rcase_abs (y / 2)); lra. }
  rewrite !A. destruct p as [x y z]. cbn [c0 c1 c2]. unfold box_points. cbn [In]. split.
  - intros H. repeat destruct H as [H|H]; try contradiction; inversion H; subst; auto.
  - intros ([->| ->] & [->| ->] & [->| ->]); tauto.
Qed.
Print Assumptions box_mesh_corners.

(** ** Putting meshes into a model: any number of shapes with FinalizeModel::DONT and a last one with DO *)
Section Generate.
Variable BV : Type.
Variable fit : list v3 -> BV.
Variable plus : BV -> BV -> BV.
Variable split : (nat -> list v3) -> BV -> list nat -> nat -> bool.
Definition body := (tf * list v3 * list tri)%type.
Fixpoint gen_all (l : list body) (m : bvh v3 BV) : option (code * bvh v3 BV) :=
  match l with
  | [] => Some (COk, m)
  | (X, ps, ts) :: l' =>
      match generate fit plus split (match l' with [] => true | _ => false end) X ps ts m with
      | Some (COk, m') => gen_all l' m'
      | r => r
      end
  end.
(** The vertices and triangles of the union. *)
Fixpoint all_verts (l : list body) : list v3 := match l with [] => [] | (X, ps, _) :: l' => map (tf_apply X) ps ++ all_verts l' end.
Fixpoint all_tris (off : nat) (l : list body) : list tri :=
  match l with [] => [] | (X, ps, ts) :: l' => map (fun t => tmap (fun k => (off + k)%nat) t) ts ++ all_tris (off + length ps) l' end.
Definition body_ops (l : list body) : list (bop v3) := map (fun b => match b with (X, ps, ts) => OSubTris (map (tf_apply X) ps) ts end) l.

Lemma sub_state : forall (ps : list v3) ts (m m' : bvh v3 BV) c, m_st m = SBegun -> bstep fit plus split (OSubTris ps ts) m = Some (c, m') -> c = COk /\ m_st m' = SBegun.
Proof.
  intros ps ts m m' c H E. cbn [bstep] in E. unfold add_sub_tris in E. rewrite H in E.
  assert (Rv : forall f cap (a b : bvh v3 BV), room_v v3 BV f cap a = Some b -> m_st b = m_st a) by (intros f cap a b; unfold room_v; destruct f; [destruct (realloc _ _ _)|]; intros Q; inversion Q; reflexivity).
  assert (Pv : forall ps (a b : bvh v3 BV), push_v v3 BV ps a = Some b -> m_st b = m_st a) by (intros l a b; unfold push_v; destruct (awrite _ _ _); intros Q; inversion Q; reflexivity).
  assert (Rt : forall k (a b : bvh v3 BV), room_t v3 BV k a = Some b -> m_st b = m_st a) by (intros k a b; unfold room_t; destruct (_ <=? _)%nat; [destruct (realloc _ _ _)|]; intros Q; inversion Q; reflexivity).
  assert (Pt : forall ts (a b : bvh v3 BV), push_t v3 BV ts a = Some b -> m_st b = m_st a) by (intros l a b; unfold push_t; destruct (awrite _ _ _); intros Q; inversion Q; reflexivity).
  unfold add_points in E. destruct (room_v _ _ _ _ m) as [x1|] eqn:E1; [|discriminate]. cbn [obind] in E. destruct (push_v _ _ _ x1) as [x2|] eqn:E2; [|discriminate]. cbn [obind] in E.
  destruct (room_t _ _ _ x2) as [x3|] eqn:E3; [|discriminate]. cbn [obind] in E. destruct (push_t _ _ _ x3) as [x4|] eqn:E4; [|discriminate]. cbn [obind] in E. inversion E; subst. split; [reflexivity|].
  rewrite (Pt _ _ _ E4), (Rt _ _ _ E3), (Pv _ _ _ E2), (Rv _ _ _ _ E1). exact H.
Qed.
Lemma body_run : forall l vs ts, Forall (fun b => match b with (X, ps, t) => Forall (tri_in (length ps)) t end) l ->
  proper_history (body_ops l ++ [OEnd]) (Spec SBegun vs ts [] []) /\
  (vs ++ all_verts l <> [] -> arun (body_ops l ++ [OEnd]) (Spec SBegun vs ts [] []) =
   (repeat COk (length l + 1), Spec SProcessed (vs ++ all_verts l) (ts ++ all_tris (length vs) l) [] [])).
Proof.
  induction l as [|[[X ps] t] l IH]; intros vs ts F.
  - cbn. split; [auto|]. rewrite !app_nil_r. intros H. destruct vs; [congruence|reflexivity].
  - inversion F as [|? ? F1 F2]; subst. destruct (IH (vs ++ map (tf_apply X) ps) (ts ++ map (shift (length vs)) t) F2) as [P A].
    cbn [body_ops map app]. split.
    + split; [left; split; [reflexivity|]; rewrite map_length; exact F1|exact P].
    + intros N. cbn [arun astep a_add a_st a_verts a_tris]. change (map _ l ++ [OEnd]) with (body_ops l ++ [OEnd]).
      rewrite A by (rewrite <- app_assoc; exact N). cbn [length repeat Nat.add all_verts all_tris]. f_equal. rewrite <- !app_assoc, app_length, map_length. f_equal. f_equal. f_equal.
      apply map_ext. intros [[x y] z]. cbn. f_equal; [f_equal|]; lia.
Qed.
Lemma gen_brun : forall l m cs m', l <> [] -> m_st m = SBegun -> brun fit plus split (body_ops l ++ [OEnd]) m = Some (cs, m') -> cs = repeat COk (length l + 1) -> gen_all l m = Some (COk, m').
Proof.
  induction l as [|[[X ps] ts] l IH]; intros m cs m' N H E C; [congruence|]. cbn [body_ops map app brun] in E. cbn [gen_all]. unfold generate, add_triangles. rewrite H.
  destruct (bstep fit plus split (OSubTris (map (tf_apply X) ps) ts) m) as [[c m1]|] eqn:Es; [|discriminate]. destruct (sub_state _ _ _ _ _ H Es) as [-> H1].
  change (map _ l ++ [OEnd]) with (body_ops l ++ [OEnd]) in E. destruct l as [|b l].
  - cbn [body_ops map app brun] in E. destruct (bstep fit plus split OEnd m1) as [[c m2]|]; [|discriminate]. rewrite C in E. cbn in E. inversion E. reflexivity.
  - destruct (brun fit plus split (body_ops (b :: l) ++ [OEnd]) m1) as [[cs' m2]|] eqn:Eb; [|discriminate]. rewrite C in E. cbn [length Nat.add repeat] in E. inversion E as [[Ec Em]]. subst m2.
    apply (IH m1 cs' m'); try assumption; discriminate.
Qed.
End Generate.
Arguments gen_all {BV}.

(** Any non-empty list of shapes whose corner numbers are in range ends in a processed model that has
    all their vertices, and all their triangles renumbered. *)
Theorem generate_union : forall BV (fit : list v3 -> BV) plus split l, all_verts l <> [] ->
  Forall (fun b => match b with (X, ps, t) => Forall (tri_in (length ps)) t end) l ->
  exists m, gen_all fit plus split l fresh = Some (COk, m) /\ m_st m = SProcessed /\
    m_verts m = map Some (all_verts l) /\ m_nv m = length (all_verts l) /\ m_nt m = length (all_tris 0 l) /\ firstn (m_nt m) (m_tris m) = map Some (all_tris 0 l).
Proof.
  intros BV fit plus split l N F. destruct (body_run l [] [] F) as [P A].
  destruct (bvh_protocol v3 BV fit plus split (OBegin 0 0 :: body_ops l ++ [OEnd])) as (m & E & H); [split; [exact I|exact P]|].
  cbn [arun astep spec0 a_st] in E, H. rewrite A in E, H by exact N. cbn [fst snd a_st a_verts a_tris app length] in E, H. exists m.
  destruct H as (H1 & H2 & H3 & H4 & H5 & _). split; [|split; [exact H1|split; [apply H5; now left|split; [exact H2|split; [exact H3|apply H4; discriminate]]]]].
  cbn [brun] in E. destruct (bstep fit plus split (OBegin 0 0) fresh) as [[c m1]|] eqn:Eb; [|discriminate].
  assert (S1 : c = COk /\ m_st m1 = SBegun) by (cbn in Eb; inversion Eb; auto). destruct S1 as [-> S1].
  destruct (brun fit plus split (body_ops l ++ [OEnd]) m1) as [[cs m2]|] eqn:Er; [|discriminate]. inversion E; subst m2 cs.
  destruct l as [|[[X ps] ts] l]; [exfalso; apply N; reflexivity|].
  assert (Nl : (X, ps, ts) :: l <> []) by discriminate. rewrite <- (gen_brun BV fit plus split _ _ _ _ Nl S1 Er eq_refl).
  cbn [gen_all]. unfold generate, add_triangles. rewrite S1. change (m_st fresh) with SEmpty. cbv iota. rewrite Eb. reflexivity.
Qed.
Print Assumptions generate_union.
(** In particular each of the five shapes is accepted. *)
Theorem generate_shape : forall BV (fit : list v3 -> BV) plus split X K ps ts, mesh_good X K (map (tf_apply X) ps) ts -> ts <> [] ->
  exists m, generate fit plus split true X ps ts fresh = Some (COk, m) /\ m_st m = SProcessed /\ model_type v3 BV m = TTris /\
    m_verts m = map Some (map (tf_apply X) ps) /\ firstn (m_nt m) (m_tris m) = map Some ts.
Proof.
  intros BV fit plus split X K ps ts (_ & _ & _ & T) N.
  assert (Rg : Forall (tri_in (length ps)) ts).
  { apply Forall_forall. intros [[a b] c] H. destruct (T a b c H) as (p & q & s & E1 & E2 & E3 & _). cbn.
    rewrite <- (map_length (tf_apply X) ps). repeat split; apply nth_error_Some; congruence. }
  assert (Ne : ps <> []).
  { intros ->. destruct ts as [|[[a b] c] ts]; [congruence|]. destruct (Forall_inv Rg) as [H _]. cbn in H. lia. }
  destruct (generate_union BV fit plus split [(X, ps, ts)]) as (m & E & H1 & H2 & H2' & H3 & H4).
  { cbn. rewrite app_nil_r. destruct ps; [congruence|discriminate]. }
  { repeat constructor. exact Rg. }
  assert (Et : all_tris 0 [(X, ps, ts)] = ts) by (cbn; rewrite app_nil_r; rewrite <- (map_id ts) at 2; apply map_ext; intros [[x y] z]; reflexivity).
  assert (Ev : all_verts [(X, ps, ts)] = map (tf_apply X) ps) by (cbn; apply app_nil_r).
  rewrite Et in H3, H4. rewrite Ev in H2, H2'. exists m. cbn [gen_all] in E.
  destruct (generate fit plus split true X ps ts fresh) as [[c m1]|] eqn:Eg; [|discriminate]. destruct c; try discriminate. inversion E; subst m1.
  split; [reflexivity|]. split; [exact H1|]. split; [|split; assumption].
  unfold model_type. rewrite H3, H2', map_length. destruct ts; [congruence|]. destruct ps; [congruence|]. reflexivity.
Qed.
Print Assumptions generate_shape.

(** ** Resolutions *)
Lemma ceil_spec : forall x, 0 <= x -> x <= INR (ceil x) < x + 1.
Proof.
  intros x Hx. unfold ceil. destruct (base_Int_part (- x)) as [A B]. assert (P : (Int_part (- x) <= 0)%Z).
  { apply le_IZR. cbn. lra. }
  rewrite INR_IZR_INZ, Z2Nat.id by lia. rewrite opp_IZR. lra.
Qed.
Lemma ceil_ge : forall x k, INR k < x -> (k + 1 <= ceil x)%nat.
Proof.
  intros x k H. pose proof (pos_INR k). destruct (ceil_spec x ltac:(lra)) as [A _]. assert (INR k < INR (ceil x)) by lra. apply INR_lt in H1. lia.
Qed.
Lemma ceil_le : forall x k, 0 <= x -> x <= INR k -> (ceil x <= k)%nat.
Proof.
  intros x k P H. destruct (ceil_spec x P) as [_ B]. assert (C : INR (ceil x) < INR (k + 1)) by (rewrite plus_INR; cbn [INR]; lra). apply INR_lt in C. lia.
Qed.
Lemma trunc_spec : forall x, 0 <= x -> INR (trunc x) <= x < INR (trunc x) + 1.
Proof.
  intros x Hx. unfold trunc. destruct (base_Int_part x) as [A B]. assert (P : (0 <= Int_part x)%Z).
  { apply Z.lt_pred_le. apply lt_IZR. cbn. lra. }
  rewrite INR_IZR_INZ, Z2Nat.id by lia. lra.
Qed.

(** With a resolution given for the unit shape the sphere's mesh is good if sqrt(n/2) r^2 > 2 ... *)
Theorem sphere_mesh_by_count : forall n r X, 0 < r -> 2 < sqrt (INR n / 2) * (r * r) -> ortho (tf_rot X) -> det (tf_rot X) = 1 ->
  let k := sphere_split n r in mesh_good X (ball vzero r) (map (tf_apply X) (sphere_points r k k)) (ball_tris k k).
Proof.
  intros n r X Hr H O D k. assert (3 <= k)%nat by (apply (ceil_ge _ 2); cbn [INR]; lra). apply sphere_mesh; try assumption. lia.
Qed.
Print Assumptions sphere_mesh_by_count.
(** ... and otherwise it is flat: all its vertices lie in the plane y = 0. *)
Theorem sphere_mesh_flat_refuted : forall n r p, 0 < r -> sqrt (INR n / 2) * (r * r) <= 2 ->
  let k := sphere_split n r in In p (sphere_points r k k) -> c1 p = 0.
Proof.
  intros n r p Hr H k Hp. assert (Hk : (k <= 2)%nat) by (apply ceil_le; [apply Rmult_le_pos; [apply sqrt_pos|nra]|cbn [INR]; lra]).
  unfold sphere_points, ell_points in Hp. rewrite in_app_iff, in_loop2 in Hp. destruct Hp as [(i & j & _ & Hj & [<-|[]])|[<-|[<-|[]]]]; try reflexivity. cbn [c1].
  assert (S : sin (0 + INR j * (PI * 2 / INR k)) = 0).
  { rewrite Rplus_0_l. destruct k as [|[|[|k]]]; try lia; destruct j as [|[|j]]; try lia; cbn [INR].
    - rewrite Rmult_0_l. apply sin_0.
    - rewrite Rmult_0_l. apply sin_0.
    - replace (1 * (PI * 2 / (1 + 1))) with PI by field. apply sin_PI. }
  rewrite S. ring.
Qed.
Print Assumptions sphere_mesh_flat_refuted.
(** The number of triangles for [n] on the unit sphere is at least n s^2 with s = r^2, not the documented
    n s (geometric_shape_to_BVH_model.h 96-101); the ellipsoid does the same with s its p-mean (.h 113-119). *)
Theorem ball_face_count : forall n s, 0 <= s -> (1 <= ball_split n s)%nat ->
  let k := ball_split n s in INR n * (s * s) <= INR (length (ball_tris k k)) < 2 * ((sqrt (INR n / 2) * s + 1) * (sqrt (INR n / 2) * s + 1)).
Proof.
  intros n s Hs K1 k. pose proof (pos_INR n) as Pn. rewrite ball_length by exact K1.
  assert (P : 0 <= sqrt (INR n / 2) * s) by (apply Rmult_le_pos; [apply sqrt_pos|exact Hs]).
  destruct (ceil_spec _ P) as [A B]. fold (ball_split n s) in A, B. fold k in A, B. set (y := sqrt (INR n / 2) * s) in *.
  assert (Y : y * y = INR n / 2 * (s * s)) by (unfold y; replace (sqrt (INR n / 2) * s * (sqrt (INR n / 2) * s)) with (sqrt (INR n / 2) * sqrt (INR n / 2) * (s * s)) by ring; rewrite sqrt_sqrt by lra; reflexivity).
  rewrite !mult_INR. cbn [INR]. assert (y * y <= INR k * INR k) by (apply Rmult_le_compat; lra). assert (INR k * INR k < (y + 1) * (y + 1)) by (apply Rmult_le_0_lt_compat; lra).
  split; nra.
Qed.
Print Assumptions ball_face_count.
Theorem ball_face_count_refuted : forall n s, 1 < s -> (1 <= n)%nat -> INR n * s < INR (length (ball_tris (ball_split n s) (ball_split n s))).
Proof.
  intros n s Hs N1. pose proof (lt_INR_pos n N1) as Pn. assert (Q : 0 < sqrt (INR n / 2) * s) by (apply Rmult_lt_0_compat; [apply sqrt_lt_R0; lra|lra]).
  assert (K1 : (1 <= ball_split n s)%nat) by (apply (ceil_ge _ 0); exact Q). destruct (ball_face_count n s ltac:(lra) K1) as [A _].
  apply Rlt_le_trans with (2 := A). rewrite <- Rmult_assoc. rewrite <- (Rmult_1_r (INR n * s)) at 1. apply Rmult_lt_compat_l; [apply Rmult_lt_0_compat; lra|exact Hs].
Qed.
Print Assumptions ball_face_count_refuted.

(** No rings at all: the loop bound wraps and triangles refer to vertices that do not exist. *)
Lemma dec_zero : (2 < dec 0)%nat.
Proof. unfold dec. rewrite Nat.eqb_refl. apply Nat2Z.inj_lt. rewrite Z2Nat.id by lia. lia. Qed.
Theorem ball_no_rings_refuted : forall a b c seg, (1 <= seg)%nat -> exists x y z, In (x, y, z) (ball_tris seg 0) /\ (length (ell_points a b c seg 0) <= x)%nat.
Proof.
  intros a b c seg S1. rewrite ell_length. exists (2 * seg + 0)%nat. eexists _, _. split; [|lia]. unfold ball_tris. apply in_or_app. left. apply in_loop2. exists 2%nat, 0%nat.
  split; [exact dec_zero|]. split; [lia|]. unfold ball_quad. left. reflexivity.
Qed.
Print Assumptions ball_no_rings_refuted.
(** No layers at all: more than 4 * 10^9 vertices are asked for. *)
Theorem cylinder_no_layers_refuted : forall r h tot, (1 <= tot)%nat -> (Z.to_nat (2 ^ 32 - 1) <= length (cyl_points r h tot 0))%nat /\ (Z.to_nat (2 ^ 32 - 1) <= length (cone_points r h tot 0))%nat.
Proof.
  intros r h tot T1. assert (D : dec 0 = Z.to_nat (2 ^ 32 - 1)) by reflexivity. set (k := Z.to_nat (2 ^ 32 - 1)) in *.
  unfold cyl_points, cone_points. rewrite !app_length, !(loop2_length _ _ _ _ 1) by reflexivity. rewrite D. split; nia.
Qed.
Print Assumptions cylinder_no_layers_refuted.

(** Cylinder and cone with the circle count given for radius 1: good if at least three whole segments fit ... *)
Lemma layer_pos : forall tot r h, 0 < r -> 0 < h -> (1 <= circle_split tot r)%nat -> (1 <= layer_split tot r h)%nat.
Proof.
  intros tot r h Hr Hh K. unfold layer_split. destruct (Nat.eqb_spec (circle_split tot r) 0) as [e|ne]; [lia|]. apply (ceil_ge _ 0). cbn [INR].
  pose proof PI_RGT_0. pose proof (lt_INR_pos _ K). apply Rdiv_lt_0_compat; [exact Hh|]. apply Rmult_lt_0_compat; [|exact Hr]. apply Rdiv_lt_0_compat; lra.
Qed.
Theorem tube_mesh_by_count : forall tot r h X, 0 < r -> 0 < h -> 3 <= INR tot * r -> ortho (tf_rot X) -> det (tf_rot X) = 1 ->
  let k := circle_split tot r in let n := layer_split tot r h in
  mesh_good X (cylset h r) (map (tf_apply X) (cyl_points r h k n)) (cyl_tris k n) /\
  mesh_good X (coneset h r) (map (tf_apply X) (cone_points r h k n)) (cone_tris k n).
Proof.
  intros tot r h X Hr Hh H O D k n. assert (K3 : (3 <= k)%nat).
  { destruct (trunc_spec (INR tot * r) ltac:(lra)) as [_ B]. fold (circle_split tot r) in B. fold k in B. assert (C : INR 2 < INR k) by (cbn [INR]; lra). apply INR_lt in C. lia. }
  assert (N1 : (1 <= n)%nat) by (apply layer_pos; try assumption; fold k; lia).
  split; [apply cylinder_mesh|apply cone_mesh]; assumption.
Qed.
Print Assumptions tube_mesh_by_count.
(** ... and if less than one fits, the model is a point cloud of the two cap centres. *)
Theorem tube_mesh_thin_refuted : forall BV (fit : list v3 -> BV) plus split tot r h X, 0 < r -> INR tot * r < 1 ->
  let k := circle_split tot r in let n := layer_split tot r h in let two := [mk3 0 0 (h / 2); mk3 0 0 (- h / 2)] in
  cyl_points r h k n = two /\ cyl_tris k n = [] /\ cone_points r h k n = two /\ cone_tris k n = [] /\
  exists m, generate fit plus split true X two [] fresh = Some (COk, m) /\ m_st m = SProcessed /\ model_type v3 BV m = TPoints.
Proof.
  intros BV fit plus split tot r h X Hr H k n two.
  assert (K0 : k = 0%nat).
  { assert (0 <= INR tot * r) by (apply Rmult_le_pos; [apply pos_INR|lra]). destruct (trunc_spec (INR tot * r) ltac:(lra)) as [A _]. fold (circle_split tot r) in A. fold k in A.
    destruct k as [|q]; [reflexivity|]. rewrite S_INR in A. pose proof (pos_INR q). lra. }
  assert (N0 : n = 0%nat) by (unfold n, layer_split; fold k; rewrite K0; reflexivity).
  assert (Z2 : forall A (f : nat -> nat -> list A) q, loop2 q 0 f = []) by (intros A f q; unfold loop2; cbn [seq flat_map]; induction (seq 0 q) as [|x l IH]; [reflexivity|exact IH]).
  rewrite K0, N0. unfold cyl_points, cyl_tris, cone_points, cone_tris. rewrite !Z2. split; [reflexivity|]. split; [reflexivity|]. split; [reflexivity|]. split; [reflexivity|].
  destruct (generate_union BV fit plus split [(X, two, [])]) as (m & E & H1 & H2 & H2' & H3 & _); [discriminate|repeat constructor|].
  exists m. cbn [gen_all] in E. destruct (generate fit plus split true X two [] fresh) as [[c m1]|]; [|discriminate]. destruct c; try discriminate. inversion E; subst m1.
  split; [reflexivity|]. split; [exact H1|]. unfold model_type. rewrite H3, H2'. reflexivity.
Qed.
Print Assumptions tube_mesh_thin_refuted.

(** ** Cases *)
Definition turned : tf := mktf (mkm (mk3 0 1 0) (mk3 (-1) 0 0) (mk3 0 0 1)) (mk3 5 6 7).
Lemma turned_ok : ortho (tf_rot turned) /\ det (tf_rot turned) = 1.
Proof. unfold turned, ortho, det, dot, cross. cbn. repeat split; ring. Qed.
Example ball_tris_3_1 : ball_tris 3 1 = [(3, 0, 1); (0, 4, 1); (3, 1, 2); (1, 4, 2); (3, 2, 0); (2, 4, 0)]%nat.
Proof. reflexivity. Qed.
Example cyl_tris_3_1 : cyl_tris 3 1 = [(6, 0, 1); (6, 1, 2); (6, 2, 0); (7, 4, 3); (7, 5, 4); (7, 3, 5);
  (1, 0, 3); (1, 3, 4); (2, 1, 4); (2, 4, 5); (0, 2, 5); (0, 5, 3)]%nat.
Proof. reflexivity. Qed.
Example sphere_mesh_case : mesh_good turned (ball vzero 2) (map (tf_apply turned) (sphere_points 2 12 6)) (ball_tris 12 6) /\ length (ball_tris 12 6) = 144%nat.
Proof. split; [apply sphere_mesh; [lra|lia|lia|apply turned_ok|apply turned_ok]|reflexivity]. Qed.
Example cylinder_mesh_case : mesh_good turned (cylset 3 1) (map (tf_apply turned) (cyl_points 1 3 8 2)) (cyl_tris 8 2).
Proof. apply cylinder_mesh; [lra|lra|lia|lia|apply turned_ok|apply turned_ok]. Qed.
Example cone_mesh_case : mesh_good turned (coneset 3 1) (map (tf_apply turned) (cone_points 1 3 8 2)) (cone_tris 8 2).
Proof. apply cone_mesh; [lra|lra|lia|lia|apply turned_ok|apply turned_ok]. Qed.
Example box_mesh_case : mesh_good turned (boxset (mk3 1 2 3)) (map (tf_apply turned) (box_points (mk3 1 2 3))) box_tris.
Proof. apply box_mesh; [cbn; lra|cbn; lra|cbn; lra|apply turned_ok|apply turned_ok]. Qed.
(** 200 triangles for the unit sphere: more than 800 at radius 2, and a flat mesh at radius 1/3. *)
Example sphere_count_case : INR 200 * 4 < INR (length (ball_tris (sphere_split 200 2) (sphere_split 200 2))) /\
  (forall p, In p (sphere_points (1/3) (sphere_split 200 (1/3)) (sphere_split 200 (1/3))) -> c1 p = 0).
Proof.
  split; [unfold sphere_split; replace (2 * 2) with 4 by ring; apply ball_face_count_refuted; [lra|lia]|].
  intros p. apply sphere_mesh_flat_refuted; [lra|]. replace (INR 200 / 2) with (10 * 10) by (rewrite INR_IZR_INZ; cbn; field). rewrite sqrt_square by lra. lra.
Qed.
(** Two spheres in one model. *)
Example generate_union_case : exists m, gen_all (fun l => l) (@app v3) (fun _ _ _ _ => true)
  [(turned, sphere_points 1 3 1, ball_tris 3 1); (turned, box_points (mk3 1 1 1), box_tris)] fresh = Some (COk, m) /\ m_nt m = 18%nat.
Proof.
  destruct (generate_union (list v3) (fun l => l) (@app v3) (fun _ _ _ _ => true) [(turned, sphere_points 1 3 1, ball_tris 3 1); (turned, box_points (mk3 1 1 1), box_tris)]) as (m & E & _ & _ & _ & H & _).
  - discriminate.
  - repeat constructor; cbn; lia.
  - exists m. split; [exact E|]. rewrite H. reflexivity.
Qed.
