(** C85: the intersection test of two triangles. *)
From Coq Require Import Reals Lra Lia Psatz List Bool.
From Verif Require Import VecR Motion TriDist TriGeom TriSat.
Import ListNotations.
Open Scope R_scope.

(** the corners are not on a line *)
Definition proper (a b c : v3) : Prop := cross (vsub b a) (vsub c a) <> vzero.
Definition tri3 (a b c : v3) : triangle := fun i => match i with 0%nat => a | 1%nat => b | _ => c end.

Lemma proper_edges : forall a b c, proper a b c <-> cross (edge (tri3 a b c) 0) (edge (tri3 a b c) 1) <> vzero.
Proof. intros. unfold proper. cbn [edge tri3]. replace (cross (vsub b a) (vsub c b)) with (cross (vsub b a) (vsub c a)) by vring. tauto. Qed.

Lemma shift_axes : forall P1 P2 P3 Q1 Q2 Q3, tri_test P1 P2 P3 Q1 Q2 Q3 = forallb (fun ax => project6 ax P1 P2 P3 Q1 Q2 Q3) (axes P1 P2 P3 Q1 Q2 Q3).
Proof.
  intros. unfold tri_test. cbv zeta.
  assert (E : axes (vsub P1 P1) (vsub P2 P1) (vsub P3 P1) (vsub Q1 P1) (vsub Q2 P1) (vsub Q3 P1) = axes P1 P2 P3 Q1 Q2 Q3).
  { unfold axes. cbv zeta. assert (S : forall x y, vsub (vsub x P1) (vsub y P1) = vsub x y) by (intros; vring). rewrite !S. reflexivity. }
  rewrite E. generalize (axes P1 P2 P3 Q1 Q2 Q3). intros l.
  assert (Pr : forall ax, project6 ax (vsub P1 P1) (vsub P2 P1) (vsub P3 P1) (vsub Q1 P1) (vsub Q2 P1) (vsub Q3 P1) = project6 ax P1 P2 P3 Q1 Q2 Q3).
  { intros ax. destruct (project6 ax P1 P2 P3 Q1 Q2 Q3) eqn:B.
    - destruct (project6 ax (vsub P1 P1) _ _ _ _ _) eqn:A; [reflexivity|]. rewrite <- B. symmetry. apply project6_false in A. apply project6_false.
      assert (M : forall p u v w, In p [u; v; w] -> In (vsub p P1) [vsub u P1; vsub v P1; vsub w P1]) by (intros p u v w I; exact (in_map (fun y => vsub y P1) _ _ I)).
      destruct A as [A|A]; [left|right]; intros p q Ip Iq; specialize (A _ _ (M p _ _ _ Ip) (M q _ _ _ Iq)); rewrite !dot_sub_r in A; lra.
    - apply project6_false in B. apply project6_false. destruct B as [B|B]; [left|right]; intros p q Ip Iq; cbn [In] in Ip, Iq.
      + assert (Hp : exists p', In p' [P1; P2; P3] /\ p = vsub p' P1) by (destruct Ip as [<-|[<-|[<-|[]]]]; eexists; (split; [|reflexivity]); cbn; tauto).
        assert (Hq : exists q', In q' [Q1; Q2; Q3] /\ q = vsub q' P1) by (destruct Iq as [<-|[<-|[<-|[]]]]; eexists; (split; [|reflexivity]); cbn; tauto).
        destruct Hp as (p' & Ip' & ->), Hq as (q' & Iq' & ->). specialize (B p' q' Ip' Iq'). rewrite !dot_sub_r. lra.
      + assert (Hp : exists p', In p' [P1; P2; P3] /\ p = vsub p' P1) by (destruct Ip as [<-|[<-|[<-|[]]]]; eexists; (split; [|reflexivity]); cbn; tauto).
        assert (Hq : exists q', In q' [Q1; Q2; Q3] /\ q = vsub q' P1) by (destruct Iq as [<-|[<-|[<-|[]]]]; eexists; (split; [|reflexivity]); cbn; tauto).
        destruct Hp as (p' & Ip' & ->), Hq as (q' & Iq' & ->). specialize (B p' q' Ip' Iq'). rewrite !dot_sub_r. lra. }
  induction l as [|x l IH]; [reflexivity|]. cbn [forallb]. rewrite Pr, IH. reflexivity.
Qed.

Lemma tri_dot : forall a b c x n, in_tri a b c x -> (exists v, In v [a; b; c] /\ dot n v <= dot n x) /\ (exists v, In v [a; b; c] /\ dot n x <= dot n v).
Proof.
  intros a b c x n (u & v & w & Hu & Hv & Hw & S & ->). rewrite !dot_add_r, !dot_scale_r.
  set (A := dot n a). set (B := dot n b). set (C := dot n c).
  assert (G : forall A B C, (A <= u * A + v * B + w * C \/ B <= u * A + v * B + w * C \/ C <= u * A + v * B + w * C)).
  { intros X Y Z. destruct (Rle_dec X (u * X + v * Y + w * Z)); [tauto|]. destruct (Rle_dec Y (u * X + v * Y + w * Z)); [tauto|]. destruct (Rle_dec Z (u * X + v * Y + w * Z)); [tauto|]. exfalso.
    set (m := u * X + v * Y + w * Z) in *. assert (u * (X - m) + v * (Y - m) + w * (Z - m) = 0) by (unfold m; replace w with (1 - u - v) by lra; ring).
    assert (0 <= u * (X - m)) by (apply Rmult_le_pos; lra). assert (0 <= v * (Y - m)) by (apply Rmult_le_pos; lra). assert (0 <= w * (Z - m)) by (apply Rmult_le_pos; lra).
    assert (u = 0) by nra. assert (v = 0) by nra. assert (w = 0) by nra. lra. }
  split.
  - destruct (G A B C) as [G1|[G1|G1]]; [exists a|exists b|exists c]; (split; [cbn; tauto|]); unfold A, B, C in *; lra.
  - destruct (G (- A) (- B) (- C)) as [G1|[G1|G1]]; [exists a|exists b|exists c]; (split; [cbn; tauto|]); unfold A, B, C in *; lra.
Qed.

Lemma corners : forall a b c, in_tri a b c a /\ in_tri a b c b /\ in_tri a b c c.
Proof.
  intros a b c. split; [exists 1, 0, 0|split; [exists 0, 1, 0|exists 0, 0, 1]]; (split; [lra|split; [lra|split; [lra|split; [lra|vring]]]]).
Qed.

(** Triangles with a common point are never missed, flat ones included *)
Theorem tri_test_sound : forall P1 P2 P3 Q1 Q2 Q3 x, in_tri P1 P2 P3 x -> in_tri Q1 Q2 Q3 x -> tri_test P1 P2 P3 Q1 Q2 Q3 = true.
Proof.
  intros P1 P2 P3 Q1 Q2 Q3 x HP HQ. rewrite shift_axes. apply forallb_forall. intros ax _.
  destruct (project6 ax P1 P2 P3 Q1 Q2 Q3) eqn:E; [reflexivity|]. exfalso. apply project6_false in E.
  destruct (tri_dot _ _ _ x ax HP) as ((p & Ip & Lp) & (p' & Ip' & Lp')). destruct (tri_dot _ _ _ x ax HQ) as ((q & Iq & Lq) & (q' & Iq' & Lq')).
  destruct E as [E|E]; [specialize (E p q' Ip Iq')|specialize (E p' q Ip' Iq)]; lra.
Qed.
Print Assumptions tri_test_sound.

(** The answer is exact for triangles that are not flat *)
Theorem tri_test_exact : forall P1 P2 P3 Q1 Q2 Q3, proper P1 P2 P3 -> proper Q1 Q2 Q3 ->
  (tri_test P1 P2 P3 Q1 Q2 Q3 = true <-> exists x, in_tri P1 P2 P3 x /\ in_tri Q1 Q2 Q3 x).
Proof.
  intros P1 P2 P3 Q1 Q2 Q3 HP HQ. split; [|intros (x & A & B); eapply tri_test_sound; eassumption].
  intros H. set (S := tri3 P1 P2 P3). set (T := tri3 Q1 Q2 Q3).
  destruct (closest_exists S T) as (p & q & Hc). pose proof Hc as (Hp & Hq & _).
  destruct (Req_EM_T (norm2 (vsub q p)) 0) as [Z|Nz].
  - apply norm2_zero in Z. assert (E : q = p). { assert (D : vadd (vsub q p) p = q) by vring. rewrite Z in D. rewrite <- D. vring. }
    subst q. exists p. split; [exact Hp|exact Hq].
  - exfalso. assert (Pv : 0 < norm2 (vsub q p)) by (pose proof (norm2_nonneg (vsub q p)); lra).
    assert (In1 : forall i, lt3 i -> tri_set S (S i)).
    { intros i Hi. unfold tri_set. destruct (corners (S 0%nat) (S 1%nat) (S 2%nat)) as (c0' & c1' & c2'). destruct Hi as [ -> | [ -> | -> ] ]; assumption. }
    assert (In2 : forall i, lt3 i -> tri_set T (T i)).
    { intros i Hi. unfold tri_set. destruct (corners (T 0%nat) (T 1%nat) (T 2%nat)) as (c0' & c1' & c2'). destruct Hi as [ -> | [ -> | -> ] ]; assumption. }
    destruct (enough S T ltac:(apply (proj1 (proper_edges _ _ _) HP)) ltac:(apply (proj1 (proper_edges _ _ _) HQ)) (vscale (/ norm2 (vsub q p)) (vsub q p))) as (ax & Ax & Sep).
    { intros c I. apply in_diffs in I. destruct I as (i & j & Hi & Hj & ->). rewrite dot_scale_r.
      pose proof (closest_support1 S T p q _ Hc (In1 i Hi)) as S1. pose proof (closest_support2 S T p q _ Hc (In2 j Hj)) as S2.
      assert (E : dot (vsub (T j) (S i)) (vsub q p) = dot (vsub (T j) q) (vsub q p) - dot (vsub (S i) p) (vsub q p) + norm2 (vsub q p)).
      { unfold norm2. rewrite <- dot_sub_l, <- dot_add_l. f_equal. generalize (T j) (S i). clear. vring. }
      apply (Rmult_le_reg_l (norm2 (vsub q p))); [exact Pv|]. rewrite <- Rmult_assoc, Rinv_r by lra. lra. }
    apply axis_in in Ax. rewrite shift_axes, forallb_forall in H. specialize (H ax Ax). cbn beta in H.
    assert (F : project6 ax P1 P2 P3 Q1 Q2 Q3 = false); [|congruence]. apply project6_false.
    assert (V : forall x y, In x [P1; P2; P3] -> In y [Q1; Q2; Q3] -> In (vsub y x) (diffs S T)).
    { intros x y Ix Iy. apply in_diffs. change (In x (verts S)) in Ix. change (In y (verts T)) in Iy. apply in_verts in Ix. apply in_verts in Iy. destruct Ix as (i & Hi & ->), Iy as (j & Hj & ->). eauto. }
    destruct Sep as [Sp|Sp]; [right|left]; intros x y Ix Iy; specialize (Sp _ (V x y Ix Iy)); rewrite dot_sub_l, !(dot_comm _ ax) in Sp; lra.
Qed.
Print Assumptions tri_test_exact.

Lemma rot_proper : forall X a b c, ortho (tf_rot X) -> proper a b c -> proper (tf_apply X a) (tf_apply X b) (tf_apply X c).
Proof.
  intros X a b c O H Z. apply H. apply norm2_zero.
  assert (D : forall x y, vsub (tf_apply X x) (tf_apply X y) = mapply (tf_rot X) (vsub x y)) by (intros; unfold tf_apply; vring).
  rewrite !D in Z. pose proof (lagrange (mapply (tf_rot X) (vsub b a)) (mapply (tf_rot X) (vsub c a))) as L. rewrite Z in L.
  rewrite !(mapply_norm2 _ _ O), !(mapply_dot _ _ _ O) in L. pose proof (lagrange (vsub b a) (vsub c a)) as L'.
  replace (norm2 vzero) with 0 in L by (unfold norm2, dot, vzero; cbn; ring). lra.
Qed.

(** with the second triangle placed by a rotation and a translation *)
Theorem tri_test_placed : forall P1 P2 P3 Q1 Q2 Q3 X, ortho (tf_rot X) -> proper P1 P2 P3 -> proper Q1 Q2 Q3 ->
  (tri_test_tf P1 P2 P3 Q1 Q2 Q3 X = true <-> exists x, in_tri P1 P2 P3 (tf_apply X x) /\ in_tri Q1 Q2 Q3 x).
Proof.
  intros P1 P2 P3 Q1 Q2 Q3 X O HP HQ. unfold tri_test_tf. rewrite (tri_test_exact _ _ _ _ _ _ HP (rot_proper X _ _ _ O HQ)).
  assert (A : forall u v w, u + v + w = 1 -> tf_apply X (vadd (vadd (vscale u Q1) (vscale v Q2)) (vscale w Q3)) = vadd (vadd (vscale u (tf_apply X Q1)) (vscale v (tf_apply X Q2))) (vscale w (tf_apply X Q3))).
  { intros u v w S. replace w with (1 - u - v) by lra. unfold tf_apply. generalize (tf_rot X) (tf_tr X). clear. intros M t. destruct M as [[] [] []], t, Q1, Q2, Q3. unfold mapply, vadd, vscale, dot. cbn. f_equal; ring. }
  split.
  - intros (x & Ip & (u & v & w & Hu & Hv & Hw & S & ->)). exists (vadd (vadd (vscale u Q1) (vscale v Q2)) (vscale w Q3)).
    split; [rewrite (A u v w S); exact Ip|]. exists u, v, w. tauto.
  - intros (x & Ip & (u & v & w & Hu & Hv & Hw & S & ->)). eexists. split; [exact Ip|]. exists u, v, w. rewrite (A u v w S). tauto.
Qed.
Print Assumptions tri_test_placed.

(** Collinear triangles in one plane are reported as intersecting however far they are apart *)
Theorem tri_test_flat : forall P1 P2 P3 Q1 Q2 Q3 N k, ~ proper P1 P2 P3 -> ~ proper Q1 Q2 Q3 -> N <> vzero ->
  (forall x, In x [P1; P2; P3; Q1; Q2; Q3] -> dot N x = k) -> tri_test P1 P2 P3 Q1 Q2 Q3 = true.
Proof.
  intros P1 P2 P3 Q1 Q2 Q3 N k FP FQ Nz Hk. rewrite shift_axes. apply forallb_forall. intros ax I.
  assert (Dec : forall v : v3, ~ v <> vzero -> v = vzero).
  { intros v H. destruct (Req_EM_T (norm2 v) 0) as [E|E]; [apply norm2_zero, E|]. exfalso. apply H. intros ->. apply E. unfold norm2, dot, vzero. cbn. ring. }
  assert (ZP : cross (vsub P2 P1) (vsub P3 P2) = vzero) by (rewrite <- (Dec _ FP); vring).
  assert (ZQ : cross (vsub Q2 Q1) (vsub Q3 Q2) = vzero) by (rewrite <- (Dec _ FQ); vring).
  assert (Par : exists r, ax = vscale r N).
  { assert (Z0 : forall u w : v3, dot N u = 0 -> dot N w = 0 -> exists r, cross u w = vscale r N).
    { intros u w Hu Hw. apply par_scale; [|exact Nz]. replace (cross N (cross u w)) with (vsub (vscale (dot N w) u) (vscale (dot N u) w)) by (clear; vring). rewrite Hu, Hw. clear. vring. }
    assert (Zz : exists r, vzero = vscale r N) by (exists 0; symmetry; apply scale0).
    assert (C0 : forall u, cross u vzero = vzero) by (clear; vring).
    assert (Ex : forall x y, In x [P1; P2; P3; Q1; Q2; Q3] -> In y [P1; P2; P3; Q1; Q2; Q3] -> dot N (vsub x y) = 0) by (intros x y Ix Iy; rewrite dot_sub_r, (Hk x Ix), (Hk y Iy); ring).
    unfold axes in I. cbv zeta in I. rewrite ZP, ZQ, !C0 in I. cbn [In] in I.
    decompose [or] I; subst; try exact Zz; try (apply Z0; apply Ex; cbn; tauto). contradiction. }
  destruct Par as (r & ->). destruct (project6 (vscale r N) P1 P2 P3 Q1 Q2 Q3) eqn:E; [reflexivity|]. exfalso. apply project6_false in E.
  assert (C : dot (vscale r N) P1 = dot (vscale r N) Q1) by (rewrite !dot_scale_l, !Hk by (cbn; tauto); reflexivity).
  destruct E as [E|E]; specialize (E P1 Q1 (or_introl eq_refl) (or_introl eq_refl)); lra.
Qed.
Print Assumptions tri_test_flat.

(** so the answer is wrong for segments side by side at any distance, and for two points *)
Theorem tri_test_refuted : forall g, 0 < g ->
  (let P := mk3 0 0 0 in let Q := mk3 g 0 0 in tri_test P P P Q Q Q = true /\ ~ exists x, in_tri P P P x /\ in_tri Q Q Q x) /\
  (let P i := mk3 i 0 0 in let Q i := mk3 i g 0 in tri_test (P 0) (P 1) (P 2) (Q 0) (Q 1) (Q 2) = true /\ ~ exists x, in_tri (P 0) (P 1) (P 2) x /\ in_tri (Q 0) (Q 1) (Q 2) x).
Proof.
  intros g Hg. cbv zeta.
  assert (Fl : forall a b c, cross (vsub b a) (vsub c a) = vzero -> ~ proper a b c) by (intros a b c E H; exact (H E)).
  split; split.
  - apply (tri_test_flat _ _ _ _ _ _ (mk3 0 0 1) 0); [apply Fl; vring|apply Fl; vring|intros E; injection E; lra|]. intros x I. cbn in I. decompose [or] I; try contradiction; subst; unfold dot; cbn; ring.
  - intros (x & (u & v & w & Hu & Hv & Hw & S & ->) & (u' & v' & w' & Hu' & Hv' & Hw' & S' & E)). injection E as E _ _. cbn in E. nra.
  - apply (tri_test_flat _ _ _ _ _ _ (mk3 0 0 1) 0); [apply Fl; vring|apply Fl; vring|intros E; injection E; lra|]. intros x I. cbn in I. decompose [or] I; try contradiction; subst; unfold dot; cbn; ring.
  - intros (x & (u & v & w & Hu & Hv & Hw & S & ->) & (u' & v' & w' & Hu' & Hv' & Hw' & S' & E)). injection E as _ E _. cbn in E. nra.
Qed.
Print Assumptions tri_test_refuted.

(** one collinear triangle is enough: the direction across it is not among the axes *)
Theorem tri_test_half_flat_refuted :
  let P1 := mk3 (-10) (-1) 0 in let P2 := mk3 0 (-1) 0 in let P3 := mk3 10 (-1) 0 in
  let Q1 := mk3 0 0 0 in let Q2 := mk3 (-50) 50 0 in let Q3 := mk3 50 80 0 in
  proper Q1 Q2 Q3 /\ tri_test P1 P2 P3 Q1 Q2 Q3 = true /\ ~ exists x, in_tri P1 P2 P3 x /\ in_tri Q1 Q2 Q3 x.
Proof.
  cbv zeta. split; [intros E; unfold cross, vsub in E; cbn in E; injection E; lra|]. split.
  - rewrite shift_axes. apply forallb_forall. intros ax I. destruct (project6 ax _ _ _ _ _ _) eqn:E; [reflexivity|]. exfalso. apply project6_false in E.
    unfold axes in I. cbv zeta in I. cbn [In] in I.
    assert (K : forall p p' q q', In p [mk3 (-10) (-1) 0; mk3 0 (-1) 0; mk3 10 (-1) 0] -> In p' [mk3 (-10) (-1) 0; mk3 0 (-1) 0; mk3 10 (-1) 0] -> In q [mk3 0 0 0; mk3 (-50) 50 0; mk3 50 80 0] -> In q' [mk3 0 0 0; mk3 (-50) 50 0; mk3 50 80 0] ->
      dot ax p <= dot ax q -> dot ax q' <= dot ax p' -> False).
    { intros p p' q q' Ip Ip' Iq Iq' A B. destruct E as [E|E]; [specialize (E p q Ip Iq)|specialize (E p' q' Ip' Iq')]; lra. }
    decompose [or] I; try contradiction; subst ax;
    first
      [apply (K (mk3 (-10) (-1) 0) (mk3 (-10) (-1) 0) (mk3 0 0 0) (mk3 0 0 0)); cbn [In]; try tauto; unfold cross, vsub, dot; cbn; lra
      |apply (K (mk3 (-10) (-1) 0) (mk3 10 (-1) 0) (mk3 0 0 0) (mk3 0 0 0)); cbn [In]; try tauto; unfold cross, vsub, dot; cbn; lra
      |apply (K (mk3 10 (-1) 0) (mk3 (-10) (-1) 0) (mk3 0 0 0) (mk3 0 0 0)); cbn [In]; try tauto; unfold cross, vsub, dot; cbn; lra].
  - intros (x & (u & v & w & Hu & Hv & Hw & S & ->) & (u' & v' & w' & Hu' & Hv' & Hw' & S' & E)). injection E as _ E _. cbn in E. nra.
Qed.
Print Assumptions tri_test_half_flat_refuted.

Lemma plane_some : forall a b c, proper a b c -> exists n t, tri_plane a b c = Some (n, t) /\ norm2 n = 1 /\ (forall x, In x [a; b; c] -> dot n x = t) /\ forall x, in_tri a b c x -> dot n x = t.
Proof.
  intros a b c H. unfold tri_plane. set (N := cross (vsub b a) (vsub c a)) in *.
  assert (P : 0 < norm2 N) by (pose proof (norm2_nonneg N); destruct (Req_EM_T (norm2 N) 0) as [E|E]; [exfalso; apply H, norm2_zero, E|lra]).
  cbv zeta. destruct (Rlt_dec 0 (norm2 N)) as [_|C]; [|contradiction]. set (r := / sqrt (norm2 N)). exists (vscale r N), (dot (vscale r N) a).
  assert (V : forall x, In x [a; b; c] -> dot (vscale r N) x = dot (vscale r N) a).
  { intros x I. rewrite !dot_scale_l. f_equal. unfold N. destruct I as [<-|[<-|[<-|[]]]]; clear; vring. }
  split; [reflexivity|]. split; [|split; [exact V|]].
  - unfold norm2. rewrite dot_scale_l, dot_scale_r. fold (norm2 N). assert (Q : 0 < sqrt (norm2 N)) by (apply sqrt_lt_R0; exact P). unfold r. rewrite <- (sqrt_sqrt (norm2 N)) at 3 by lra. field. lra.
  - intros x (u & v & w & Hu & Hv & Hw & S & ->). set (M := vscale r N) in *. clearbody M. rewrite !dot_add_r, !dot_scale_r. rewrite (V b), (V c) by (cbn; tauto). replace w with (1 - u - v) by lra. ring.
Qed.

(** Contacts of triangles that are not flat and have a common point: a unit normal n (from the first to the
    second triangle), a depth d >= 0; the contact points are one or two corners of one of the triangles, all
    on one side of the plane of the other; translating the second triangle along n by more than d separates *)
Theorem tri_contact_spec : forall far P1 P2 P3 Q1 Q2 Q3 x, 0 < far -> proper P1 P2 P3 -> proper Q1 Q2 Q3 -> in_tri P1 P2 P3 x -> in_tri Q1 Q2 Q3 x ->
  exists pts n d, tri_contact far P1 P2 P3 Q1 Q2 Q3 = Some (pts, n, d) /\ norm2 n = 1 /\ 0 <= d /\ (1 <= length pts <= 2)%nat /\
    (forall s, d < s -> ~ exists p q, in_tri P1 P2 P3 p /\ in_tri Q1 Q2 Q3 q /\ p = vadd q (vscale s n)) /\
    (((forall y, In y [P1; P2; P3] -> dot n y = dot n P1) /\ (forall y, In y pts -> In y [Q1; Q2; Q3] /\ d - 1 / 1000000 <= dot n P1 - dot n y <= d) /\ exists y r, pts = y :: r /\ dot n P1 - dot n y = d) \/
     ((forall y, In y [Q1; Q2; Q3] -> dot n y = dot n Q1) /\ (forall y, In y pts -> In y [P1; P2; P3] /\ d - 1 / 1000000 <= dot n y - dot n Q1 <= d) /\ exists y r, pts = y :: r /\ dot n y - dot n Q1 = d)).
Proof.
  intros far P1 P2 P3 Q1 Q2 Q3 x Hf HP HQ IP IQ.
  destruct (plane_some _ _ _ HP) as (n1 & t1 & E1 & U1 & V1 & W1). destruct (plane_some _ _ _ HQ) as (n2 & t2 & E2 & U2 & V2 & W2).
  unfold tri_contact. rewrite E1, E2.
  destruct (deepest_points far [Q1; Q2; Q3] n1 t1) as (m2, p2) eqn:D2. destruct (deepest_points far [P1; P2; P3] n2 t2) as (m1, p1) eqn:D1.
  destruct (tri_dot _ _ _ x n1 IQ) as ((q & Iq & Lq) & (q' & Iq' & Lq')). rewrite (W1 x IP) in Lq, Lq'.
  destruct (tri_dot _ _ _ x n2 IP) as ((p & Ip & Lp) & (p' & Ip' & Lp')). rewrite (W2 x IQ) in Lp, Lp'.
  destruct (deepest_spec far [Q1; Q2; Q3] n1 t1 m2 p2 Hf) as (G2 & A2 & (y2 & r2 & Ey2 & Iy2 & By2) & C2); [exists q; split; [exact Iq|unfold depth_of; lra]|exists q'; split; [exact Iq'|unfold depth_of; lra]|exact D2|].
  destruct (deepest_spec far [P1; P2; P3] n2 t2 m1 p1 Hf) as (G1 & A1 & (y1 & r1 & Ey1 & Iy1 & By1) & C1); [exists p; split; [exact Ip|unfold depth_of; lra]|exists p'; split; [exact Ip'|unfold depth_of; lra]|exact D1|].
  assert (Fi : forall (y : v3) l, In y (firstn 2 l) -> In y l) by (intros y l I; rewrite <- (firstn_skipn 2 l); apply in_or_app; left; exact I).
  assert (Ln : forall (y : v3) r, (1 <= length (firstn 2 (y :: r)) <= 2)%nat) by (intros y r; rewrite firstn_length; cbn [length]; lia).
  unfold depth_of in *. destruct (Rlt_dec m2 m1) as [L|L].
  - exists (firstn 2 p2), n1, m2. split; [reflexivity|]. split; [exact U1|]. split; [exact G2|]. split; [rewrite Ey2; apply Ln|]. split; [|left].
    + intros s Hs (a & b & Ia & Ib & E). pose proof (W1 a Ia) as Ea. rewrite E, dot_add_r, dot_scale_r in Ea. fold (norm2 n1) in Ea. rewrite U1 in Ea.
      destruct (tri_dot _ _ _ b n1 Ib) as ((v & Iv & Lv) & _). specialize (A2 v Iv). lra.
    + split; [intros y Iy; rewrite !V1 by (cbn; tauto || exact Iy); reflexivity|]. rewrite (V1 P1) by (cbn; tauto). split.
      * intros y Iy. apply Fi in Iy. destruct (C2 y Iy) as (I' & B'). split; [exact I'|]. split; [exact B'|]. apply A2, I'.
      * rewrite Ey2. cbn [firstn]. eauto.
  - exists (firstn 2 p1), (vneg n2), m1. split; [reflexivity|]. split; [unfold norm2; rewrite dot_neg_r; replace (dot (vneg n2) n2) with (- norm2 n2) by (clear; vring); lra|]. split; [exact G1|]. split; [rewrite Ey1; apply Ln|].
    assert (Ng : forall y, dot (vneg n2) y = - dot n2 y) by (clear; vring). split; [|right].
    + intros s Hs (a & b & Ia & Ib & E). pose proof (W2 b Ib) as Eb. destruct (tri_dot _ _ _ a n2 Ia) as ((v & Iv & Lv) & _). specialize (A1 v Iv).
      assert (Ea : dot n2 a = dot n2 b - s * norm2 n2) by (rewrite E; clear; vring). rewrite U2 in Ea. lra.
    + split; [intros y Iy; rewrite !Ng, !V2 by (cbn; tauto || exact Iy); reflexivity|]. rewrite !Ng, (V2 Q1) by (cbn; tauto). split.
      * intros y Iy. apply Fi in Iy. destruct (C1 y Iy) as (I' & B'). split; [exact I'|]. rewrite Ng. specialize (A1 y I'). lra.
      * rewrite Ey1. cbn [firstn]. exists y1, (firstn 1 r1). split; [reflexivity|]. rewrite Ng. lra.
Qed.
Print Assumptions tri_contact_spec.

(** With a flat triangle the planes used for the contacts were never set, although the triangles do meet *)
Theorem tri_contact_refuted : forall far,
  let P1 := mk3 0 0 (-1) in let P2 := mk3 0 0 0 in let P3 := mk3 0 0 1 in
  let Q1 := mk3 (-1) (-1) 0 in let Q2 := mk3 1 (-1) 0 in let Q3 := mk3 0 1 0 in
  tri_test P1 P2 P3 Q1 Q2 Q3 = true /\ in_tri P1 P2 P3 vzero /\ in_tri Q1 Q2 Q3 vzero /\ tri_contact far P1 P2 P3 Q1 Q2 Q3 = None.
Proof.
  intros far. cbv zeta.
  assert (A : in_tri (mk3 0 0 (-1)) (mk3 0 0 0) (mk3 0 0 1) vzero) by (exists 0, 1, 0; split; [lra|split; [lra|split; [lra|split; [lra|unfold vadd, vscale, vzero; cbn; f_equal; ring]]]]).
  assert (B : in_tri (mk3 (-1) (-1) 0) (mk3 1 (-1) 0) (mk3 0 1 0) vzero) by (exists (1/4), (1/4), (1/2); split; [lra|split; [lra|split; [lra|split; [lra|unfold vadd, vscale, vzero; cbn; f_equal; field]]]]).
  split; [exact (tri_test_sound _ _ _ _ _ _ _ A B)|]. split; [exact A|]. split; [exact B|].
  unfold tri_contact, tri_plane. cbv zeta. destruct (Rlt_dec 0 _) as [L|_]; [|reflexivity]. exfalso. unfold norm2, dot, cross, vsub in L. cbn in L. lra.
Qed.
Print Assumptions tri_contact_refuted.

(** The depth is not the least translation: only one side of each plane is measured *)
Theorem tri_depth_refuted : forall far, 0 < far ->
  let P1 := mk3 (-10) (-10) 0 in let P2 := mk3 10 (-10) 0 in let P3 := mk3 0 10 0 in
  let Q1 := mk3 0 0 1 in let Q2 := mk3 (-1) 0 (-10) in let Q3 := mk3 1 0 (-10) in
  proper P1 P2 P3 /\ proper Q1 Q2 Q3 /\ tri_test P1 P2 P3 Q1 Q2 Q3 = true /\
  (exists pts n d, tri_contact far P1 P2 P3 Q1 Q2 Q3 = Some (pts, n, d) /\ 10 <= d) /\
  forall s, 1 < s -> ~ exists p q, in_tri P1 P2 P3 p /\ in_tri Q1 Q2 Q3 q /\ p = vadd q (vscale s (mk3 0 0 (-1))).
Proof.
  intros far Hf. cbv zeta.
  assert (HP : proper (mk3 (-10) (-10) 0) (mk3 10 (-10) 0) (mk3 0 10 0)) by (intros E; unfold cross, vsub in E; cbn in E; injection E; lra).
  assert (HQ : proper (mk3 0 0 1) (mk3 (-1) 0 (-10)) (mk3 1 0 (-10))) by (intros E; unfold cross, vsub in E; cbn in E; injection E; lra).
  assert (A : in_tri (mk3 (-10) (-10) 0) (mk3 10 (-10) 0) (mk3 0 10 0) vzero) by (exists (1/4), (1/4), (1/2); split; [lra|split; [lra|split; [lra|split; [lra|unfold vadd, vscale, vzero; cbn; f_equal; field]]]]).
  assert (B : in_tri (mk3 0 0 1) (mk3 (-1) 0 (-10)) (mk3 1 0 (-10)) vzero) by (exists (10/11), (1/22), (1/22); split; [lra|split; [lra|split; [lra|split; [lra|unfold vadd, vscale, vzero; cbn; f_equal; field]]]]).
  split; [exact HP|]. split; [exact HQ|]. split; [exact (tri_test_sound _ _ _ _ _ _ _ A B)|]. split.
  - assert (S1 : sqrt 160000 = 400) by (replace 160000 with (400 * 400) by lra; apply sqrt_square; lra).
    assert (S2 : sqrt 484 = 22) by (replace 484 with (22 * 22) by lra; apply sqrt_square; lra).
    unfold tri_contact, tri_plane. cbv zeta.
    assert (N1 : cross (vsub (mk3 10 (-10) 0) (mk3 (-10) (-10) 0)) (vsub (mk3 0 10 0) (mk3 (-10) (-10) 0)) = mk3 0 0 400) by (unfold cross, vsub; cbn; f_equal; ring).
    assert (N2 : cross (vsub (mk3 (-1) 0 (-10)) (mk3 0 0 1)) (vsub (mk3 1 0 (-10)) (mk3 0 0 1)) = mk3 0 (-22) 0) by (unfold cross, vsub; cbn; f_equal; ring).
    rewrite N1, N2.
    replace (norm2 (mk3 0 0 400)) with 160000 by (unfold norm2, dot; cbn; ring). replace (norm2 (mk3 0 (-22) 0)) with 484 by (unfold norm2, dot; cbn; ring). rewrite S1, S2.
    destruct (Rlt_dec 0 160000) as [_|C]; [|lra]. destruct (Rlt_dec 0 484) as [_|C]; [|lra].
    replace (vscale (/ 400) (mk3 0 0 400)) with (mk3 0 0 1) by (unfold vscale; cbn; f_equal; field). replace (vscale (/ 22) (mk3 0 (-22) 0)) with (mk3 0 (-1) 0) by (unfold vscale; cbn; f_equal; field).
    replace (dot (mk3 0 0 1) (mk3 (-10) (-10) 0)) with 0 by (unfold dot; cbn; ring). replace (dot (mk3 0 (-1) 0) (mk3 0 0 1)) with 0 by (unfold dot; cbn; ring).
    destruct (deepest_points far [mk3 0 0 1; mk3 (-1) 0 (-10); mk3 1 0 (-10)] (mk3 0 0 1) 0) as (m2, p2) eqn:D2. destruct (deepest_points far [mk3 (-10) (-10) 0; mk3 10 (-10) 0; mk3 0 10 0] (mk3 0 (-1) 0) 0) as (m1, p1) eqn:D1.
    apply deepest_spec in D2; [|exact Hf|exists (mk3 1 0 (-10)); split; [cbn; tauto|unfold depth_of, dot; cbn; lra]|exists (mk3 0 0 1); split; [cbn; tauto|unfold depth_of, dot; cbn; lra]].
    apply deepest_spec in D1; [|exact Hf|exists (mk3 0 10 0); split; [cbn; tauto|unfold depth_of, dot; cbn; lra]|exists (mk3 10 (-10) 0); split; [cbn; tauto|unfold depth_of, dot; cbn; lra]].
    destruct D2 as (_ & A2 & _). destruct D1 as (_ & A1 & _). specialize (A2 (mk3 1 0 (-10)) ltac:(cbn; tauto)). specialize (A1 (mk3 0 10 0) ltac:(cbn; tauto)). unfold depth_of, dot in A1, A2. cbn in A1, A2.
    destruct (Rlt_dec m2 m1); do 3 eexists; (split; [reflexivity|]); lra.
  - intros s Hs (p & q & (u & v & w & Hu & Hv & Hw & S & ->) & (u' & v' & w' & Hu' & Hv' & Hw' & S' & ->) & E). injection E as _ _ E. cbn in E. nra.
Qed.
Print Assumptions tri_depth_refuted.

(** a triangle through the middle of another, and one above it *)
Example crossing : tri_test (mk3 (-10) (-10) 0) (mk3 10 (-10) 0) (mk3 0 10 0) (mk3 0 0 1) (mk3 (-1) 0 (-10)) (mk3 1 0 (-10)) = true.
Proof. apply (tri_depth_refuted 1). lra. Qed.
Example apart : tri_test (mk3 0 0 0) (mk3 1 0 0) (mk3 0 1 0) (mk3 0 0 1) (mk3 1 0 1) (mk3 0 1 2) = false.
Proof.
  destruct (tri_test _ _ _ _ _ _) eqn:E; [|reflexivity]. apply tri_test_exact in E.
  - destruct E as (x & (u & v & w & Hu & Hv & Hw & S & ->) & (u' & v' & w' & Hu' & Hv' & Hw' & S' & E)). injection E as _ _ E. cbn in E. nra.
  - intros C. unfold cross, vsub in C. cbn in C. injection C. lra.
  - intros C. unfold cross, vsub in C. cbn in C. injection C. lra.
Qed.
