(** C65: boxes of the shapes, of their geometries and of collision objects. *)
From Coq Require Import Reals Lra Lia List Bool.
From Verif Require Import VecR Eigen3 P_Eigen3 Obb P_Obb Fit P_Fit Prim P_Prim Motion AabbDist P_AabbDist ShapeBV.
Import ListNotations.
Open Scope R_scope.

(** [b] is the least box containing the set [K]: everything in [K] is in [b], and [b] lies in every box containing [K]. *)
Definition encloses (b : boxR) (K : v3 -> Prop) : Prop := forall p, K p -> in_boxR p b.
Definition least (b : boxR) (K : v3 -> Prop) : Prop :=
  encloses b K /\ forall b', encloses b' K -> forall p, in_boxR p b -> in_boxR p b'.

Lemma half_abs : forall s x, - (s / 2) <= x <= s / 2 -> Rabs x <= Rabs (1 / 2 * s).
Proof. intros s x H. apply Rle_trans with (s / 2); [apply Rabs_le; exact H|]. pose proof (Rle_abs (1 / 2 * s)). lra. Qed.
Lemma half_out : forall a s, Rabs (a * (1 / 2 * s)) = 1 / 2 * Rabs (a * s).
Proof. intros. replace (a * (1 / 2 * s)) with (1 / 2 * (a * s)) by ring. rewrite Rabs_mult, (Rabs_pos_eq (1 / 2)); lra. Qed.

(** A box is least when each of its six faces is touched by the set. *)
Lemma least_touch : forall T d K, encloses (around T d) K ->
  (forall i, (i < 3)%nat -> exists p q, K p /\ K q /\ comp i p = comp i T - comp i d /\ comp i q = comp i T + comp i d) ->
  least (around T d) K.
Proof.
  intros T d K E H. split; [exact E|]. intros b' E' p Hp. apply in_boxR_comp. intros i Hi. destruct (H i Hi) as (p1 & q1 & Kp & Kq & Ep & Eq).
  apply E' in Kp. apply E' in Kq. rewrite in_boxR_comp in Kp, Kq, Hp. specialize (Kp i Hi). specialize (Kq i Hi). specialize (Hp i Hi).
  assert (comp i (lo (around T d)) = comp i T - comp i d /\ comp i (hi (around T d)) = comp i T + comp i d) as [A B] by (destruct i as [|[|i]]; split; reflexivity).
  lra.
Qed.

Definition sgn (x : R) : R := if Rle_dec 0 x then 1 else -1.
Lemma sgn_abs : forall x s, 0 <= s -> x * (sgn x * s) = Rabs (x * s).
Proof. intros x s H. rewrite Rabs_mult, (Rabs_pos_eq s H). unfold sgn, Rabs. destruct (Rle_dec 0 x), (Rcase_abs x); nra. Qed.
Lemma sgn_bound : forall x s, 0 <= s -> - s <= sgn x * s <= s. Proof. intros. unfold sgn. destruct (Rle_dec 0 x); lra. Qed.

Theorem box_aabb_least : forall side X, 0 <= c0 side -> 0 <= c1 side -> 0 <= c2 side ->
  least (box_aabb side X) (placed X (boxset side)).
Proof.
  intros side X S0 S1 S2. apply least_touch.
  - intros p (q & Hq & ->). apply around_in. intros i Hi. rewrite comp_apply.
    pose proof (Hq 0%nat ltac:(lia)) as Q0. pose proof (Hq 1%nat ltac:(lia)) as Q1. pose proof (Hq 2%nat ltac:(lia)) as Q2. cbn in Q0, Q1, Q2.
    pose proof (abs_mul_le (ent (tf_rot X) i 0) _ _ (half_abs _ _ Q0)) as A0. pose proof (abs_mul_le (ent (tf_rot X) i 1) _ _ (half_abs _ _ Q1)) as A1. pose proof (abs_mul_le (ent (tf_rot X) i 2) _ _ (half_abs _ _ Q2)) as A2.
    rewrite half_out in A0, A1, A2. pose proof (abs3 _ _ _ _ _ _ A0 A1 A2) as A. destruct i as [|[|[|i]]]; [..|lia]; cbn [comp c0 c1 c2]; lra.
  - intros i Hi.
    set (a := ent (tf_rot X) i 0). set (b := ent (tf_rot X) i 1). set (c := ent (tf_rot X) i 2).
    set (q := mk3 (sgn a * (c0 side / 2)) (sgn b * (c1 side / 2)) (sgn c * (c2 side / 2))).
    assert (Bq : boxset side q /\ boxset side (vneg q)).
    { pose proof (sgn_bound a (c0 side / 2) ltac:(lra)). pose proof (sgn_bound b (c1 side / 2) ltac:(lra)). pose proof (sgn_bound c (c2 side / 2) ltac:(lra)).
      split; intros j Hj; destruct j as [|[|[|j]]]; [..|lia| | | |lia]; cbn; lra. }
    exists (tf_apply X (vneg q)), (tf_apply X q). split; [exists (vneg q); tauto|split; [exists q; tauto|]].
    pose proof (comp_apply X q i) as Eq. pose proof (comp_apply X (vneg q) i) as En. fold a b c in Eq, En. unfold q in Eq at 2 3 4. unfold q in En at 2 3 4. cbn [c0 c1 c2 vneg] in Eq, En.
    pose proof (sgn_abs a (c0 side / 2) ltac:(lra)) as Sa. pose proof (sgn_abs b (c1 side / 2) ltac:(lra)) as Sb. pose proof (sgn_abs c (c2 side / 2) ltac:(lra)) as Sc.
    replace (a * (c0 side / 2)) with (a * (1 / 2 * c0 side)) in Sa by field. replace (b * (c1 side / 2)) with (b * (1 / 2 * c1 side)) in Sb by field. replace (c * (c2 side / 2)) with (c * (1 / 2 * c2 side)) in Sc by field.
    rewrite half_out in Sa, Sb, Sc.
    assert (D : comp i (mk3 (1 / 2 * (Rabs (ent (tf_rot X) 0 0 * c0 side) + Rabs (ent (tf_rot X) 0 1 * c1 side) + Rabs (ent (tf_rot X) 0 2 * c2 side)))
      (1 / 2 * (Rabs (ent (tf_rot X) 1 0 * c0 side) + Rabs (ent (tf_rot X) 1 1 * c1 side) + Rabs (ent (tf_rot X) 1 2 * c2 side)))
      (1 / 2 * (Rabs (ent (tf_rot X) 2 0 * c0 side) + Rabs (ent (tf_rot X) 2 1 * c1 side) + Rabs (ent (tf_rot X) 2 2 * c2 side)))) =
      1 / 2 * (Rabs (a * c0 side) + Rabs (b * c1 side) + Rabs (c * c2 side))) by (unfold a, b, c; destruct i as [|[|[|i]]]; [reflexivity..|lia]).
    rewrite D. split; lra.
Qed.
Print Assumptions box_aabb_least.

Lemma comp_vsub : forall i a b, comp i (vsub a b) = comp i a - comp i b. Proof. intros [|[|i]] a b; reflexivity. Qed.
Lemma comp_vadd : forall i a b, comp i (vadd a b) = comp i a + comp i b. Proof. intros [|[|i]] a b; reflexivity. Qed.
Lemma comp_const : forall i r, comp i (mk3 r r r) = r. Proof. intros [|[|i]] r; reflexivity. Qed.

Theorem sphere_aabb_least : forall r X, 0 <= r -> ortho (tf_rot X) -> least (sphere_aabb r X) (placed X (ball vzero r)).
Proof.
  intros r X Hr O.
  assert (Z : tf_apply X vzero = tf_tr X) by (destruct X as [A []]; unfold tf_apply, mapply, vzero, vadd, vscale; cbn; f_equal; ring).
  apply least_touch.
  - intros p (q & Hq & ->). apply around_in. intros i Hi. rewrite comp_const. rewrite <- Z.
    apply Rle_trans with (dist (tf_apply X q) (tf_apply X vzero)); [apply comp_dist; exact Hi|]. rewrite tf_dist by exact O. exact Hq.
  - intros i Hi. rewrite comp_const.
    assert (K : forall s, s * s = 1 -> placed X (ball vzero r) (vadd (tf_tr X) (axis i (s * r)))).
    { intros s Hs. exists (tf_inv_apply X (vadd (tf_tr X) (axis i (s * r)))). split; [|symmetry; apply tf_inv_right; exact O].
      unfold ball. rewrite <- (tf_dist X _ _ O), tf_inv_right, Z by exact O. unfold dist.
      apply norm_le_sq; [exact Hr|]. destruct (tf_tr X). unfold norm2, dot, vsub, vadd, axis. destruct i as [|[|i]]; cbn; nra. }
    exists (vadd (tf_tr X) (axis i (-1 * r))), (vadd (tf_tr X) (axis i (1 * r))). split; [apply K; lra|split; [apply K; lra|]].
    destruct i as [|[|[|i]]]; [..|lia]; cbn; lra.
Qed.
Print Assumptions sphere_aabb_least.

Theorem capsule_aabb_least : forall lz r X, 0 <= lz -> 0 <= r -> ortho (tf_rot X) -> least (capsule_aabb lz r X) (placed X (capset lz r)).
Proof.
  intros lz r X Hl Hr O.
  assert (D : forall i, (i < 3)%nat -> comp i (mk3 (1 / 2 * Rabs (ent (tf_rot X) 0 2 * lz) + r) (1 / 2 * Rabs (ent (tf_rot X) 1 2 * lz) + r) (1 / 2 * Rabs (ent (tf_rot X) 2 2 * lz) + r)) = 1 / 2 * Rabs (ent (tf_rot X) i 2 * lz) + r)
    by (intros [|[|[|i]]] Hi; [reflexivity..|lia]).
  apply least_touch.
  - intros p (q & (z & Hz & Dz) & ->). apply around_in. intros i Hi. rewrite D by exact Hi.
    pose proof (comp_apply X (mk3 0 0 z) i) as Ez. cbn [c0 c1 c2] in Ez.
    pose proof (comp_dist i (tf_apply X q) (tf_apply X (mk3 0 0 z)) Hi) as C. rewrite tf_dist in C by exact O.
    pose proof (abs_mul_le (ent (tf_rot X) i 2) _ _ (half_abs _ _ Hz)) as A. rewrite half_out in A.
    replace (comp i (tf_apply X q) - comp i (tf_tr X)) with ((comp i (tf_apply X q) - comp i (tf_apply X (mk3 0 0 z))) + ent (tf_rot X) i 2 * z) by lra.
    eapply Rle_trans; [apply Rabs_triang|]. lra.
  - intros i Hi. rewrite D by exact Hi. set (c := ent (tf_rot X) i 2).
    assert (K : forall s t, s * s = 1 -> - (lz / 2) <= t <= lz / 2 -> placed X (capset lz r) (vadd (tf_apply X (mk3 0 0 t)) (axis i (s * r)))).
    { intros s t Hs Ht. exists (tf_inv_apply X (vadd (tf_apply X (mk3 0 0 t)) (axis i (s * r)))). split; [|symmetry; apply tf_inv_right; exact O].
      exists t. split; [exact Ht|]. rewrite <- (tf_dist X _ _ O), tf_inv_right by exact O. unfold dist.
      apply norm_le_sq; [exact Hr|]. destruct (tf_apply X (mk3 0 0 t)). unfold norm2, dot, vsub, vadd, axis. destruct i as [|[|i]]; cbn; nra. }
    pose proof (sgn_bound c (lz / 2) ltac:(lra)) as Sb. pose proof (sgn_abs c (lz / 2) ltac:(lra)) as Sa. replace (c * (lz / 2)) with (c * (1 / 2 * lz)) in Sa by field. rewrite half_out in Sa.
    exists (vadd (tf_apply X (mk3 0 0 (- (sgn c * (lz / 2))))) (axis i (-1 * r))), (vadd (tf_apply X (mk3 0 0 (sgn c * (lz / 2)))) (axis i (1 * r))).
    split; [apply K; lra|split; [apply K; lra|]].
    pose proof (comp_apply X (mk3 0 0 (- (sgn c * (lz / 2)))) i) as E1. pose proof (comp_apply X (mk3 0 0 (sgn c * (lz / 2))) i) as E2. cbn [c0 c1 c2] in E1, E2. fold c in E1, E2.
    assert (Xi : forall s, comp i (axis i s) = s) by (intros; destruct i as [|[|[|i]]]; [reflexivity..|lia]).
    rewrite !comp_vadd, !Xi. split; lra.
Qed.
Print Assumptions capsule_aabb_least.

Theorem cyl_aabb_encloses : forall lz r X, encloses (cyl_aabb lz r X) (placed X (cylset lz r)).
Proof.
  intros lz r X p (q & (Hz & Hq) & ->). apply around_in. intros i Hi. rewrite comp_apply.
  assert (X0 : Rabs (c0 q) <= Rabs r) by (apply abs_le_sq; pose proof (Rle_0_sqr (c1 q)); unfold Rsqr in *; lra).
  assert (X1 : Rabs (c1 q) <= Rabs r) by (apply abs_le_sq; pose proof (Rle_0_sqr (c0 q)); unfold Rsqr in *; lra).
  pose proof (abs_mul_le (ent (tf_rot X) i 0) _ _ X0) as A0. pose proof (abs_mul_le (ent (tf_rot X) i 1) _ _ X1) as A1. pose proof (abs_mul_le (ent (tf_rot X) i 2) _ _ (half_abs _ _ Hz)) as A2.
  rewrite half_out in A2. pose proof (abs3 _ _ _ _ _ _ A0 A1 A2) as A. destruct i as [|[|[|i]]]; [..|lia]; cbn [comp c0 c1 c2]; lra.
Qed.
Print Assumptions cyl_aabb_encloses.

Lemma cone_cyl : forall lz r q, 0 <= lz -> coneset lz r q -> cylset lz r q.
Proof.
  intros lz r q Hl (t & Ht & Ez & H). split; [rewrite Ez; nra|].
  pose proof (Rle_0_sqr r) as Q. unfold Rsqr in Q. assert (t * t <= 1) by nra. nra.
Qed.
Theorem cone_aabb_encloses : forall lz r X, 0 <= lz -> encloses (cyl_aabb lz r X) (placed X (coneset lz r)).
Proof. intros lz r X Hl p (q & Hq & ->). apply cyl_aabb_encloses. exists q. split; [apply cone_cyl; assumption|reflexivity]. Qed.
Print Assumptions cone_aabb_encloses.

Lemma unit_comp : forall w i, norm2 w <= 1 -> (i < 3)%nat -> Rabs (comp i w) <= 1.
Proof.
  intros [x y z] i H Hi. unfold norm2, dot in H. cbn in H. apply Rle_trans with (Rabs 1); [|rewrite Rabs_R1; lra]. apply abs_le_sq.
  pose proof (Rle_0_sqr x). pose proof (Rle_0_sqr y). pose proof (Rle_0_sqr z). unfold Rsqr in *. destruct i as [|[|i]]; cbn; lra.
Qed.
Lemma ell_comp : forall radii q, ellset radii q -> Rabs (c0 q) <= Rabs (c0 radii) /\ Rabs (c1 q) <= Rabs (c1 radii) /\ Rabs (c2 q) <= Rabs (c2 radii).
Proof.
  intros radii q (w & Hw & ->). cbn [c0 c1 c2].
  assert (M : forall a x, Rabs x <= 1 -> Rabs (a * x) <= Rabs a) by (intros a x Hx; rewrite Rabs_mult; pose proof (Rabs_pos a); pose proof (Rabs_pos x); nra).
  split; [apply M, (unit_comp w 0 Hw); lia|split; [apply M, (unit_comp w 1 Hw); lia|apply M, (unit_comp w 2 Hw); lia]].
Qed.
Theorem ell_aabb_encloses : forall radii X, encloses (ell_aabb radii X) (placed X (ellset radii)).
Proof.
  intros radii X p (q & Hq & ->). apply around_in. intros i Hi. rewrite comp_apply. destruct (ell_comp _ _ Hq) as (X0 & X1 & X2).
  pose proof (abs_mul_le (ent (tf_rot X) i 0) _ _ X0) as A0. pose proof (abs_mul_le (ent (tf_rot X) i 1) _ _ X1) as A1. pose proof (abs_mul_le (ent (tf_rot X) i 2) _ _ X2) as A2.
  pose proof (abs3 _ _ _ _ _ _ A0 A1 A2) as A. destruct i as [|[|[|i]]]; [..|lia]; cbn [comp c0 c1 c2]; lra.
Qed.
Print Assumptions ell_aabb_encloses.

(** The least box of a convex polytope given by its vertices, as long as no coordinate exceeds [big]. *)
Lemma points_least : forall big ps (K : v3 -> Prop), (forall v, In v ps -> K v) -> (forall p, K p -> hull ps p) ->
  ps <> [] -> (forall v i, In v ps -> (i < 3)%nat -> - big <= comp i v <= big) -> least (box_of_points big ps) K.
Proof.
  intros big ps K HK KH Hne Hb. split.
  - intros p Hp. apply (hull_box ps); [intros v Hv; apply box_points_in; exact Hv|apply KH, Hp].
  - intros b' E p Hp. apply in_boxR_comp. intros i Hi. rewrite in_boxR_comp in Hp. specialize (Hp i Hi).
    destruct (box_points_comp ps (box_none big) i Hi) as [L H]. fold (box_of_points big ps) in L, H.
    assert (A : comp i (lo b') <= comp i (lo (box_of_points big ps))).
    { apply L. split; [|intros v Hv; apply HK, E in Hv; rewrite in_boxR_comp in Hv; apply Hv, Hi].
      destruct ps as [|v ps]; [congruence|]. pose proof (E v (HK v (or_introl eq_refl))) as Hv. rewrite in_boxR_comp in Hv. specialize (Hv i Hi).
      pose proof (Hb v i (or_introl eq_refl) Hi). unfold box_none. cbn [lo]. rewrite comp_const. lra. }
    assert (B : comp i (hi (box_of_points big ps)) <= comp i (hi b')).
    { apply H. split; [|intros v Hv; apply HK, E in Hv; rewrite in_boxR_comp in Hv; apply Hv, Hi].
      destruct ps as [|v ps]; [congruence|]. pose proof (E v (HK v (or_introl eq_refl))) as Hv. rewrite in_boxR_comp in Hv. specialize (Hv i Hi).
      pose proof (Hb v i (or_introl eq_refl) Hi). unfold box_none. cbn [hi]. rewrite comp_const. lra. }
    lra.
Qed.
Theorem convex_aabb_least : forall big vs X, vs <> [] ->
  (forall v i, In v vs -> (i < 3)%nat -> - big <= comp i (tf_apply X v) <= big) ->
  least (convex_aabb big vs X) (placed X (hull vs)).
Proof.
  intros big vs X Hne Hb. apply points_least.
  - intros v Hv. apply in_map_iff in Hv. destruct Hv as (q & <- & Hq). exists q. split; [apply hull_vertex, Hq|reflexivity].
  - intros p Hp. apply hull_placed, Hp.
  - destruct vs; [congruence|discriminate].
  - intros v i Hv Hi. apply in_map_iff in Hv. destruct Hv as (q & <- & Hq). apply Hb; assumption.
Qed.
Print Assumptions convex_aabb_least.

Lemma box3_points : forall a b c i, (i < 3)%nat ->
  comp i (lo (box3 a b c)) = Rmin (Rmin (comp i a) (comp i b)) (comp i c) /\ comp i (hi (box3 a b c)) = Rmax (Rmax (comp i a) (comp i b)) (comp i c).
Proof. intros a b c [|[|[|i]]] Hi; [split; reflexivity..|lia]. Qed.
Lemma box3_in : forall a b c p, In p [a; b; c] -> in_boxR p (box3 a b c).
Proof.
  intros a b c p Hp. apply in_boxR_comp. intros i Hi. destruct (box3_points a b c i Hi) as [-> ->]. unfold Rmin, Rmax.
  destruct Hp as [<- | [<- | [<- | []]]]; repeat destruct (Rle_dec _ _); lra.
Qed.
Lemma tri_hull : forall a b c p, in_tri a b c p -> hull [a; b; c] p.
Proof.
  intros a b c p (u & v & w & U & V & W & E & ->) n h H.
  pose proof (H a ltac:(cbn; auto)) as A. pose proof (H b ltac:(cbn; auto)) as B. pose proof (H c ltac:(cbn; auto)) as C.
  rewrite !dot_add_r, !dot_scale_r. replace h with (u * h + v * h + w * h) by (rewrite <- (Rmult_1_l h) at 4; rewrite <- E; ring).
  pose proof (Rmult_le_compat_l u _ _ U A). pose proof (Rmult_le_compat_l v _ _ V B). pose proof (Rmult_le_compat_l w _ _ W C). lra.
Qed.
Theorem tri_aabb_least : forall a b c X, least (tri_aabb a b c X) (placed X (in_tri a b c)).
Proof.
  intros a b c X. split.
  - intros p (q & Hq & ->). apply (hull_box [tf_apply X a; tf_apply X b; tf_apply X c]); [apply box3_in|].
    apply (hull_placed X [a; b; c]). exists q. split; [apply tri_hull, Hq|reflexivity].
  - intros b' E p Hp. apply in_boxR_comp. intros i Hi. rewrite in_boxR_comp in Hp. specialize (Hp i Hi).
    unfold tri_aabb in Hp. destruct (box3_points (tf_apply X a) (tf_apply X b) (tf_apply X c) i Hi) as [Q1 Q2]. rewrite Q1, Q2 in Hp.
    assert (V : forall v, In v [a; b; c] -> comp i (lo b') <= comp i (tf_apply X v) <= comp i (hi b')).
    { intros v Hv. assert (in_boxR (tf_apply X v) b') as Q; [|rewrite in_boxR_comp in Q; apply Q, Hi]. apply E. exists v. split; [|reflexivity].
      destruct Hv as [<- | [<- | [<- | []]]]; [exists 1, 0, 0|exists 0, 1, 0|exists 0, 0, 1]; (split; [lra|split; [lra|split; [lra|split; [lra|]]]]); destruct a, b, c; unfold vadd, vscale; cbn; f_equal; ring. }
    pose proof (V a ltac:(cbn; auto)) as Va. pose proof (V b ltac:(cbn; auto)) as Vb. pose proof (V c ltac:(cbn; auto)) as Vc.
    unfold Rmin, Rmax in Hp. repeat destruct (Rle_dec _ _) in Hp; lra.
Qed.
Print Assumptions tri_aabb_least.

(** ** Oriented boxes *)
Lemma inobb_local : forall A T e q, Rabs (c0 q) <= c0 e -> Rabs (c1 q) <= c1 e -> Rabs (c2 q) <= c2 e -> inobb (mkobb A T e) (tf_apply (mktf A T) q).
Proof.
  intros A T e [x y z] H0 H1 H2. cbn in *. apply Rabs_le_inv in H0. apply Rabs_le_inv in H1. apply Rabs_le_inv in H2.
  exists x, y, z. cbn [ax oc ext]. split; [lra|split; [lra|split; [lra|]]]. unfold tf_apply. cbn. destruct T, (mapply A _). unfold vadd. cbn. f_equal; ring.
Qed.
(** The oriented box of a box is the box itself. *)
Theorem box_obb_exact : forall side X p, inobb (box_obb side X) p <-> placed X (boxset side) p.
Proof.
  intros side X p. split.
  - intros (u0 & u1 & u2 & U0 & U1 & U2 & ->). cbn [ax oc ext box_obb vscale c0 c1 c2] in *. exists (mk3 u0 u1 u2). split.
    + intros i Hi. destruct i as [|[|[|i]]]; [..|lia]; cbn; lra.
    + unfold tf_apply. destruct (tf_tr X), (mapply _ _). unfold vadd. cbn. f_equal; ring.
  - intros (q & Hq & ->). pose proof (Hq 0%nat ltac:(lia)) as Q0. pose proof (Hq 1%nat ltac:(lia)) as Q1. pose proof (Hq 2%nat ltac:(lia)) as Q2. cbn in Q0, Q1, Q2.
    destruct X as [A T]. apply inobb_local; cbn; apply Rabs_le; lra.
Qed.
Print Assumptions box_obb_exact.

Theorem capsule_obb_encloses : forall lz r X p, placed X (capset lz r) p -> inobb (capsule_obb lz r X) p.
Proof.
  intros lz r [A T] p (q & (z & Hz & D) & ->).
  pose proof (comp_dist 0 q (mk3 0 0 z) ltac:(lia)) as D0. pose proof (comp_dist 1 q (mk3 0 0 z) ltac:(lia)) as D1. pose proof (comp_dist 2 q (mk3 0 0 z) ltac:(lia)) as D2. cbn in D0, D1, D2.
  apply inobb_local; cbn [c0 c1 c2]; apply Rabs_le.
  - apply Rle_trans with (2 := D) in D0. apply Rabs_le_inv in D0. lra.
  - apply Rle_trans with (2 := D) in D1. apply Rabs_le_inv in D1. lra.
  - apply Rle_trans with (2 := D) in D2. apply Rabs_le_inv in D2. lra.
Qed.
Print Assumptions capsule_obb_encloses.

Theorem cyl_obb_encloses : forall lz r X p, 0 <= r -> placed X (cylset lz r) p -> inobb (cyl_obb lz r X) p.
Proof.
  intros lz r [A T] p Hr (q & (Hz & Hq) & ->). apply inobb_local; cbn [c0 c1 c2].
  - rewrite <- (Rabs_pos_eq r Hr). apply abs_le_sq. pose proof (Rle_0_sqr (c1 q)). unfold Rsqr in *. lra.
  - rewrite <- (Rabs_pos_eq r Hr). apply abs_le_sq. pose proof (Rle_0_sqr (c0 q)). unfold Rsqr in *. lra.
  - apply Rabs_le. lra.
Qed.
Print Assumptions cyl_obb_encloses.

Theorem cone_obb_encloses : forall lz r X p, 0 <= lz -> 0 <= r -> placed X (coneset lz r) p -> inobb (cyl_obb lz r X) p.
Proof. intros lz r X p Hl Hr (q & Hq & ->). apply cyl_obb_encloses; [exact Hr|]. exists q. split; [apply cone_cyl; assumption|reflexivity]. Qed.
Print Assumptions cone_obb_encloses.

Theorem ell_obb_encloses : forall radii X p, 0 <= c0 radii -> 0 <= c1 radii -> 0 <= c2 radii -> placed X (ellset radii) p -> inobb (ell_obb radii X) p.
Proof.
  intros radii [A T] p H0 H1 H2 (q & Hq & ->). destruct (ell_comp _ _ Hq) as (X0 & X1 & X2).
  rewrite (Rabs_pos_eq (c0 radii)) in X0 by assumption. rewrite (Rabs_pos_eq (c1 radii)) in X1 by assumption. rewrite (Rabs_pos_eq (c2 radii)) in X2 by assumption.
  apply inobb_local; assumption.
Qed.
Print Assumptions ell_obb_encloses.

Theorem sphere_obb_encloses : forall r X p, ortho (tf_rot X) -> placed X (ball vzero r) p -> inobb (sphere_obb r X) p.
Proof.
  intros r X p O (q & Hq & ->). unfold ball in Hq. rewrite <- (tf_dist X _ _ O) in Hq.
  assert (Z : tf_apply X vzero = tf_tr X) by (destruct X as [A []]; unfold tf_apply, mapply, vzero, vadd, vscale; cbn; f_equal; ring).
  rewrite Z in Hq. set (p := tf_apply X q) in *.
  replace p with (tf_apply (mktf mid (tf_tr X)) (vsub p (tf_tr X))).
  - pose proof (comp_dist 0 p (tf_tr X) ltac:(lia)) as D0. pose proof (comp_dist 1 p (tf_tr X) ltac:(lia)) as D1. pose proof (comp_dist 2 p (tf_tr X) ltac:(lia)) as D2. cbn [comp] in D0, D1, D2.
    apply inobb_local; cbn [c0 c1 c2 vsub]; lra.
  - destruct p, (tf_tr X). unfold tf_apply, mapply, mid, vsub, vadd, vscale. cbn. f_equal; ring.
Qed.
Print Assumptions sphere_obb_encloses.

Lemma hull_obb : forall vs b p, ortho (ax b) -> (forall v, In v vs -> inobb b v) -> hull vs p -> inobb b p.
Proof.
  intros vs b p O H Hp. apply inobb_iff; [exact O|].
  assert (K : forall a e, (forall v, In v vs -> - e <= dot (vsub v (oc b)) a <= e) -> - e <= dot (vsub p (oc b)) a <= e).
  { intros a e Hv.
    assert (dot a p <= e + dot a (oc b)) by (apply Hp; intros v Iv; apply Hv in Iv; rewrite dot_comm, dot_sub_r in Iv; lra).
    assert (dot (vneg a) p <= e - dot a (oc b)).
    { apply Hp. intros v Iv. apply Hv in Iv. rewrite dot_comm, dot_sub_r in Iv. replace (dot (vneg a) v) with (- dot a v) by (destruct a, v; unfold dot, vneg; cbn; ring). lra. }
    replace (dot (vneg a) p) with (- dot a p) in * by (destruct a, p; unfold dot, vneg; cbn; ring). rewrite dot_comm, dot_sub_r. lra. }
  split; [|split]; apply K; intros v Hv; apply H in Hv; apply inobb_iff in Hv; try exact O; tauto.
Qed.

(** The oriented box of a convex polytope is right when the fit happens to return the coordinate axes ... *)
Theorem convex_obb_encloses : forall vs b X p, ax b = mid -> ortho (tf_rot X) -> (forall v, In v vs -> inobb b v) ->
  placed X (hull vs) p -> inobb (convex_obb b X) p.
Proof.
  intros vs b X p A O H (q & Hq & ->). assert (Q : inobb b q) by (apply (hull_obb vs); [rewrite A; apply ortho_mid|exact H|exact Hq]).
  destruct Q as (u0 & u1 & u2 & U0 & U1 & U2 & E). exists u0, u1, u2. cbn [ax oc ext convex_obb]. split; [exact U0|split; [exact U1|split; [exact U2|]]].
  rewrite E, A. destruct X as [B T], (oc b). unfold tf_apply, mapply, mid, vadd, vscale. cbn. destruct B as [[] [] []], T. cbn. f_equal; ring.
Qed.
Print Assumptions convex_obb_encloses.

(** ... and wrong for a box of sides 2, 4, 2 given by its eight corners, wherever it is translated:
    the fit encloses the corners, the placed box does not contain the corner (1, 2, 1). *)
Definition brick : list v3 :=
  [mk3 1 2 1; mk3 1 2 (-1); mk3 1 (-2) 1; mk3 1 (-2) (-1); mk3 (-1) 2 1; mk3 (-1) 2 (-1); mk3 (-1) (-2) 1; mk3 (-1) (-2) (-1)].
Lemma ec_bounds : forall xs mn mx a b, (forall x, In x xs -> a <= x <= b) -> a <= mn -> mx <= b ->
  a <= fst (fold_left ecstep xs (mn, mx)) /\ snd (fold_left ecstep xs (mn, mx)) <= b.
Proof.
  induction xs as [|x xs IH]; intros mn mx a b H A B; cbn [fold_left]; [cbn; lra|]. unfold ecstep at 2 4. cbn [fst snd].
  pose proof (H x (or_introl eq_refl)). apply IH; [intros y Hy; apply H; right; exact Hy| |]; destruct (Rlt_dec _ _); lra.
Qed.
Theorem convex_obb_refuted : forall big absorbed T, 2 <= big -> exists b,
  obb_fitn big absorbed brick = Some b /\ (forall v, In v brick -> inobb b v) /\
  ~ inobb (convex_obb b (mktf mid T)) (tf_apply (mktf mid T) (mk3 1 2 1)).
Proof.
  intros big absorbed T Hbig.
  assert (C : covariance brick = mkm (mk3 8 0 0) (mk3 0 32 0) (mk3 0 0 8)) by (unfold covariance, sumf, brick; cbn; f_equal; f_equal; field).
  assert (F : exists b, obb_fitn big absorbed brick = Some b /\ b = extent_center big (mkm (mk3 0 1 0) (mk3 0 0 1) (mk3 1 0 0)) brick).
  { unfold obb_fitn. rewrite C, eigen_old_diagonal. eexists. split; [reflexivity|]. f_equal. unfold axis_from_eigen, select. cbn [c0 c1 c2].
    destruct (Rlt_dec 32 8); [lra|]. cbn [comp c0 c1 c2]. destruct (Rlt_dec 8 8); [lra|]. destruct (Rlt_dec 32 8); [lra|]. cbn. unfold cross, mid. cbn. f_equal; f_equal; ring. }
  destruct F as (b & F & Eb). exists b. split; [exact F|]. pose proof (obb_fitn_encloses _ _ _ _ F) as [_ En]. split; [exact En|].
  intros (u0 & u1 & u2 & U0 & U1 & U2 & E).
  pose proof (En (mk3 1 2 1) ltac:(cbn; auto)) as (a0 & a1 & a2 & A0 & A1 & A2 & EA).
  pose proof (En (mk3 1 (-2) 1) ltac:(cbn; auto)) as (d0 & d1 & d2 & D0 & D1 & D2 & ED).
  apply (f_equal c1) in E. apply (f_equal c1) in EA. apply (f_equal c1) in ED.
  unfold convex_obb in E, U0, U1, U2. cbn [ax oc ext] in E, U0, U1, U2. set (o := oc b) in *.
  assert (X0 : c0 (ext b) <= 2 /\ c1 (ext b) <= 1 /\ ax b = mkm (mk3 0 1 0) (mk3 0 0 1) (mk3 1 0 0)).
  { rewrite Eb. unfold extent_center. cbv zeta. cbn [ext ax c0 c1].
    match goal with |- (snd (fold_left ecstep ?l0 _) - _) / 2 <= 2 /\ (snd (fold_left ecstep ?l1 _) - _) / 2 <= 1 /\ _ =>
      assert (B0 : forall x, In x l0 -> -2 <= x <= 2); [|assert (B1 : forall x, In x l1 -> -1 <= x <= 1)] end.
    - intros x Hx. apply in_map_iff in Hx. destruct Hx as (v & <- & Hv). unfold brick in Hv. cbn in Hv. repeat destruct Hv as [<-|Hv]; [..|contradiction]; unfold dot; cbn; lra.
    - intros x Hx. apply in_map_iff in Hx. destruct Hx as (v & <- & Hv). unfold brick in Hv. cbn in Hv. repeat destruct Hv as [<-|Hv]; [..|contradiction]; unfold dot; cbn; lra.
    - pose proof (ec_bounds _ big (- big) _ _ B0 ltac:(lra) ltac:(lra)). pose proof (ec_bounds _ big (- big) _ _ B1 ltac:(lra) ltac:(lra)). split; [lra|split; [lra|reflexivity]]. }
  clear Eb F En C. destruct X0 as (X0 & X1 & Ax). rewrite Ax in EA, ED. clearbody o. destruct o, T.
  unfold tf_apply, convex_obb, mapply, mid, vadd, vscale in *. cbn in *. lra.
Qed.
Print Assumptions convex_obb_refuted.

(** ** The local box and ball, and the box of an object *)
Lemma local_ball : forall b p, in_boxR p b -> dist p (lcen (local_of b)) <= lrad (local_of b).
Proof.
  intros [[lx ly lz] [hx hy hz]] [x y z] (H0 & H1 & H2). unfold local_of, box_center. cbn [lo hi lcen lrad c0 c1 c2] in *.
  unfold dist. apply norm_mono. unfold norm2, dot, vsub, vadd, vscale. cbn.
  assert (S : forall l h t, l <= t <= h -> (t - 1 / 2 * (l + h)) * (t - 1 / 2 * (l + h)) <= (l - 1 / 2 * (l + h)) * (l - 1 / 2 * (l + h))) by (intros; nra).
  pose proof (S _ _ _ H0). pose proof (S _ _ _ H1). pose proof (S _ _ _ H2). lra.
Qed.

(** What a geometry promises: its points lie in the local box and in the local ball. *)
Definition sound_local (g : local) (K : v3 -> Prop) : Prop := forall q, K q -> in_boxR q (lbox g) /\ dist q (lcen g) <= lrad g.
Lemma local_sound : forall b K, encloses b K -> sound_local (local_of b) K.
Proof. intros b K H q Hq. split; [apply H, Hq|apply local_ball, H, Hq]. Qed.

Theorem shape_locals_sound :
  (forall side, sound_local (box_local side) (boxset side)) /\
  (forall lz r, sound_local (capsule_local lz r) (capset lz r)) /\
  (forall lz r, 0 <= r -> sound_local (cyl_local lz r) (cylset lz r)) /\
  (forall lz r, 0 <= lz -> 0 <= r -> sound_local (cyl_local lz r) (coneset lz r)) /\
  (forall radii, 0 <= c0 radii -> 0 <= c1 radii -> 0 <= c2 radii -> sound_local (ell_local radii) (ellset radii)) /\
  (forall r, sound_local (sphere_local r) (ball vzero r)) /\
  (forall big vs, sound_local (convex_local big vs) (hull vs)) /\
  (forall a b c, sound_local (tri_local a b c) (in_tri a b c)).
Proof.
  assert (B : forall d q, Rabs (c0 q) <= c0 d -> Rabs (c1 q) <= c1 d -> Rabs (c2 q) <= c2 d -> in_boxR q (BoxR (vneg d) d)).
  { intros d q H0 H1 H2. apply Rabs_le_inv in H0. apply Rabs_le_inv in H1. apply Rabs_le_inv in H2. unfold in_boxR. cbn. lra. }
  assert (Cy : forall lz r, 0 <= r -> encloses (BoxR (vneg (mk3 r r (1 / 2 * lz))) (mk3 r r (1 / 2 * lz))) (cylset lz r)).
  { intros lz r Hr q (Hz & Hq). apply B; cbn [c0 c1 c2].
    - rewrite <- (Rabs_pos_eq r Hr). apply abs_le_sq. pose proof (Rle_0_sqr (c1 q)). unfold Rsqr in *. lra.
    - rewrite <- (Rabs_pos_eq r Hr). apply abs_le_sq. pose proof (Rle_0_sqr (c0 q)). unfold Rsqr in *. lra.
    - apply Rabs_le. lra. }
  split; [|split; [|split; [|split; [|split; [|split; [|split]]]]]].
  - intros side. apply local_sound. intros q Hq. pose proof (Hq 0%nat ltac:(lia)) as Q0. pose proof (Hq 1%nat ltac:(lia)) as Q1. pose proof (Hq 2%nat ltac:(lia)) as Q2. cbn in Q0, Q1, Q2.
    apply B; cbn; apply Rabs_le; lra.
  - intros lz r. apply local_sound. intros q (z & Hz & D).
    pose proof (comp_dist 0 q (mk3 0 0 z) ltac:(lia)) as D0. pose proof (comp_dist 1 q (mk3 0 0 z) ltac:(lia)) as D1. pose proof (comp_dist 2 q (mk3 0 0 z) ltac:(lia)) as D2. cbn in D0, D1, D2.
    apply Rle_trans with (2 := D) in D0, D1, D2. apply Rabs_le_inv in D0. apply Rabs_le_inv in D1. apply Rabs_le_inv in D2. apply B; cbn; apply Rabs_le; lra.
  - intros lz r Hr. apply local_sound, Cy, Hr.
  - intros lz r Hl Hr. apply local_sound. intros q Hq. apply Cy; [exact Hr|]. apply cone_cyl; assumption.
  - intros radii H0 H1 H2. apply local_sound. intros q Hq. destruct (ell_comp _ _ Hq) as (X0 & X1 & X2).
    rewrite (Rabs_pos_eq (c0 radii)) in X0 by assumption. rewrite (Rabs_pos_eq (c1 radii)) in X1 by assumption. rewrite (Rabs_pos_eq (c2 radii)) in X2 by assumption. apply B; assumption.
  - intros r q Hq. unfold ball in Hq. cbn [lbox lcen lrad sphere_local].
    assert (Z : box_center (BoxR (mk3 (- r) (- r) (- r)) (mk3 r r r)) = vzero) by (unfold box_center, vadd, vscale, vzero; cbn; f_equal; lra).
    rewrite Z. split; [|exact Hq].
    pose proof (comp_dist 0 q vzero ltac:(lia)) as D0. pose proof (comp_dist 1 q vzero ltac:(lia)) as D1. pose proof (comp_dist 2 q vzero ltac:(lia)) as D2. cbn in D0, D1, D2.
    apply Rle_trans with (2 := Hq) in D0, D1, D2. apply Rabs_le_inv in D0. apply Rabs_le_inv in D1. apply Rabs_le_inv in D2. unfold in_boxR. cbn. lra.
  - intros big vs. apply local_sound. intros q Hq. apply (hull_box vs); [intros v Hv; apply box_points_in, Hv|exact Hq].
  - intros a b c. apply local_sound. intros q Hq. apply (hull_box [a; b; c]); [apply box3_in|apply tri_hull, Hq].
Qed.
Print Assumptions shape_locals_sound.

(** The mesh: every triangle spanned by its vertices is in the box and in the ball. *)
Lemma mesh_fold : forall c vs m v, In v vs -> norm2 (vsub c v) <= fold_left (fun m v => if Rlt_dec m (norm2 (vsub c v)) then norm2 (vsub c v) else m) vs m.
Proof.
  intros c vs. assert (G : forall vs m, m <= fold_left (fun m v => if Rlt_dec m (norm2 (vsub c v)) then norm2 (vsub c v) else m) vs m).
  { clear vs. induction vs as [|v vs IH]; intros m; cbn [fold_left]; [lra|]. destruct (Rlt_dec m _); [|apply IH]. eapply Rle_trans; [|apply IH]. lra. }
  induction vs as [|w vs IH]; intros m v; [intros []|]. intros [<-|Hv]; cbn [fold_left]; [|apply IH, Hv].
  destruct (Rlt_dec m _); [apply G|]. eapply Rle_trans; [|apply G]. lra.
Qed.
(** A ball contains the hull of its points. *)
Lemma hull_ball : forall vs o r p, 0 <= r -> (forall v, In v vs -> dist v o <= r) -> hull vs p -> dist p o <= r.
Proof.
  intros vs o r p Hr H Hp. set (u := vsub p o).
  assert (Q : dot u p <= norm u * r + dot u o).
  { apply Hp. intros v Hv. apply H in Hv. pose proof (cauchy_schwarz u (vsub v o)) as C. rewrite dot_sub_r in C. unfold dist in Hv.
    pose proof (Rmult_le_compat_l (norm u) _ _ (sqrt_pos (norm2 u) : 0 <= norm u) Hv). lra. }
  assert (E : dot u p - dot u o = norm u * norm u) by (rewrite norm_sq; unfold norm2; rewrite <- dot_sub_r; reflexivity).
  unfold dist. fold u. pose proof (sqrt_pos (norm2 u) : 0 <= norm u). destruct (Rle_dec (norm u) r); [assumption|]. nra.
Qed.
Theorem mesh_local_sound : forall big vs a b c, In a vs -> In b vs -> In c vs -> sound_local (mesh_local big vs) (in_tri a b c).
Proof.
  intros big vs a b c Ha Hb Hc q Hq. apply tri_hull in Hq. assert (V : forall v, In v [a; b; c] -> In v vs) by (intros v [<- | [<- | [<- | []]]]; assumption).
  split.
  - apply (hull_box [a; b; c]); [intros v Hv; apply box_points_in, V, Hv|exact Hq].
  - apply (hull_ball [a; b; c]); [apply sqrt_pos| |exact Hq]. intros v Hv. apply V in Hv. cbn [lcen lrad mesh_local].
    unfold dist, norm. apply sqrt_le_1_alt. eapply Rle_trans; [|apply mesh_fold, Hv]. right. apply norm2_sub_sym.
Qed.
Print Assumptions mesh_local_sound.

Lemma near_id_zero : forall A, near_id 0 A = true <-> A = mid.
Proof.
  intros A. split.
  - intros H. unfold near_id in H. rewrite forallb_forall in H.
    assert (E : forall i j, In (i, j) [(0, 0); (0, 1); (0, 2); (1, 0); (1, 1); (1, 2); (2, 0); (2, 1); (2, 2)]%nat -> ent A i j = ent mid i j).
    { intros i j Hij. specialize (H _ Hij). cbn [fst snd] in H. destruct (Rle_dec _ 0) as [L|]; [|discriminate]. pose proof (Rabs_pos (ent A i j - ent mid i j)).
      assert (Z : Rabs (ent A i j - ent mid i j) = 0) by lra. destruct (Req_dec (ent A i j - ent mid i j) 0) as [|N]; [lra|]. apply Rabs_no_R0 in N. lra. }
    destruct A as [[a b c] [d e f] [g h i]]. pose proof (E 0%nat 0%nat ltac:(cbn; tauto)) as E1. pose proof (E 0%nat 1%nat ltac:(cbn; tauto)) as E2. pose proof (E 0%nat 2%nat ltac:(cbn; tauto)) as E3. pose proof (E 1%nat 0%nat ltac:(cbn; tauto)) as E4. pose proof (E 1%nat 1%nat ltac:(cbn; tauto)) as E5. pose proof (E 1%nat 2%nat ltac:(cbn; tauto)) as E6. pose proof (E 2%nat 0%nat ltac:(cbn; tauto)) as E7. pose proof (E 2%nat 1%nat ltac:(cbn; tauto)) as E8. pose proof (E 2%nat 2%nat ltac:(cbn; tauto)) as E9.
    cbn in *. unfold mid. subst. reflexivity.
  - intros ->. unfold near_id. apply forallb_forall. intros [i j] _. cbn [fst snd]. rewrite Rminus_diag_eq, Rabs_R0 by reflexivity. destruct (Rle_dec 0 0); [reflexivity|lra].
Qed.

(** The box of a collision object contains the placed geometry, unless the rotation is taken for the
    identity without being it. *)
Theorem object_aabb_encloses : forall prec g K X, sound_local g K -> ortho (tf_rot X) -> 
  (near_id prec (tf_rot X) = true -> tf_rot X = mid) -> encloses (object_aabb prec g X) (placed X K).
Proof.
  intros prec g K X S O N p (q & Hq & ->). destruct (S q Hq) as [B D]. unfold object_aabb. destruct (near_id prec (tf_rot X)).
  - unfold tf_apply. rewrite (N eq_refl). unfold in_boxR, box_translate in *. destruct q, (tf_tr X). unfold mapply, mid, vadd, vscale. cbn in *. lra.
  - rewrite <- (tf_dist X _ _ O) in D. set (p := tf_apply X q) in *. set (c := tf_apply X (lcen g)) in *. apply in_boxR_comp. intros i Hi. pose proof (comp_dist i p c Hi) as C.
    apply Rle_trans with (2 := D) in C. apply Rabs_le_inv in C. cbn [lo hi]. rewrite comp_vsub, comp_vadd, comp_const. lra.
Qed.
Print Assumptions object_aabb_encloses.

Theorem object_aabb_exact_test : forall g K X, sound_local g K -> ortho (tf_rot X) -> encloses (object_aabb 0 g X) (placed X K).
Proof. intros g K X S O. apply object_aabb_encloses; [exact S|exact O|]. intros H. apply near_id_zero. exact H. Qed.
Print Assumptions object_aabb_exact_test.

(** With any positive precision there is a rotation about z, taken for the identity, and a flat box that
    sticks out of the box of its object. *)
Theorem object_aabb_refuted : forall prec, 0 < prec -> exists X side p, ortho (tf_rot X) /\ det (tf_rot X) = 1 /\
  placed X (boxset side) p /\ ~ in_boxR p (object_aabb prec (box_local side) X).
Proof.
  intros prec Hp. set (s := Rmin prec (1 / 2)). assert (S : 0 < s /\ s <= prec /\ s <= 1 / 2) by (unfold s, Rmin; destruct (Rle_dec _ _); lra). destruct S as (S0 & S1 & S2). clearbody s.
  set (c := sqrt (1 - s * s)). assert (C : c * c = 1 - s * s) by (apply sqrt_sqrt; nra). assert (C0 : 0 <= c) by apply sqrt_pos. assert (C1 : c <= 1) by nra.
  assert (C2 : 1 - c <= s) by nra.
  exists (mktf (mkm (mk3 c s 0) (mk3 (- s) c 0) (mk3 0 0 1)) vzero), (mk3 2 0 0), (mk3 c s 0).
  split; [unfold ortho, dot; cbn; nra|split; [unfold det, dot, cross; cbn; nra|split]].
  - exists (mk3 1 0 0). split; [intros i Hi; destruct i as [|[|[|i]]]; [..|lia]; cbn; lra|]. unfold tf_apply, mapply, vadd, vscale, vzero. cbn. f_equal; ring.
  - unfold object_aabb. assert (N : near_id prec (mkm (mk3 c s 0) (mk3 (- s) c 0) (mk3 0 0 1)) = true).
    { unfold near_id. apply forallb_forall. intros [i j] Hij. cbn in Hij. cbn [fst snd]. destruct (Rle_dec _ prec) as [|n]; [reflexivity|]. exfalso. apply n. clear n. apply Rabs_le.
      repeat destruct Hij as [E|Hij]; [injection E as <- <-; cbn; lra..|contradiction]. }
    cbn [tf_rot tf_tr]. rewrite N. unfold in_boxR, box_translate, box_local, local_of, vzero. cbn. lra.
Qed.
Print Assumptions object_aabb_refuted.

(** Non-vacuity: a capsule turned by a quarter turn about x. *)
Example ex_capsule : let X := mktf (mkm (mk3 1 0 0) (mk3 0 0 1) (mk3 0 (-1) 0)) (mk3 5 0 0) in
  ortho (tf_rot X) /\ capsule_aabb 4 1 X = BoxR (mk3 4 (-3) (-1)) (mk3 6 3 1).
Proof.
  cbv zeta. split; [unfold ortho, dot; cbn; lra|]. unfold capsule_aabb, around, ent. cbn.
  replace (Rabs (0 * 4)) with 0 by (rewrite Rmult_0_l, Rabs_R0; reflexivity). replace (Rabs (-1 * 4)) with 4 by (rewrite Rabs_left; lra).
  unfold vsub, vadd. cbn. f_equal; f_equal; lra.
Qed.
Example ex_object : in_boxR (mk3 3 0 0) (object_aabb 0 (box_local (mk3 2 2 2)) (mktf mid (mk3 2 0 0))) /\ ~ in_boxR (mk3 4 0 0) (object_aabb 0 (box_local (mk3 2 2 2)) (mktf mid (mk3 2 0 0))).
Proof.
  unfold object_aabb. cbn [tf_rot tf_tr]. rewrite (proj2 (near_id_zero mid) eq_refl). unfold in_boxR, box_translate, box_local, local_of. cbn. lra.
Qed.
