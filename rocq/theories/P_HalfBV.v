(** C67: bounding volumes of half-spaces and planes. *)
From Coq Require Import Reals Lra Lia Arith List Bool.
From Verif Require Import VecR KDop P_KDop Motion Eigen3 P_Eigen3 Obb P_Obb Fit P_Fit Prim P_Prim AabbDist ShapeBV P_ShapeBV HalfBV.
Import ListNotations.
Open Scope R_scope.

(** ** Normalisation and placement *)
Theorem unit_normal_same : forall s, fn s <> vzero ->
  dot (fn (unit_normal s)) (fn (unit_normal s)) = 1 /\
  (forall p, in_half (unit_normal s) p <-> in_half s p) /\ (forall p, in_plane (unit_normal s) p <-> in_plane s p).
Proof.
  intros s Hn. pose proof (norm_pos _ Hn) as P. unfold unit_normal. destruct (Rlt_dec 0 (norm (fn s))); [|lra]. unfold in_half, in_plane. cbn [fn fd].
  assert (I : 0 < / norm (fn s)) by (apply Rinv_0_lt_compat, P). split.
  - rewrite dot_scale_l, dot_scale_r. replace (dot (fn s) (fn s)) with (norm (fn s) * norm (fn s)) by (rewrite norm_sq; reflexivity). field. lra.
  - split; intros p; rewrite dot_scale_l, (Rmult_comm (fd s)).
    + split; intros H; [apply Rmult_le_reg_l with (1 := I); exact H|apply Rmult_le_compat_l; lra].
    + split; intros H; [apply Rmult_eq_reg_l with (1 := H); lra|rewrite H; reflexivity].
Qed.
Print Assumptions unit_normal_same.

Lemma transform_form : forall s X, ortho (tf_rot X) -> dot (fn s) (fn s) = 1 ->
  flat_transform s X = Flat (mapply (tf_rot X) (fn s)) (fd s + dot (mapply (tf_rot X) (fn s)) (tf_tr X)) /\
  dot (mapply (tf_rot X) (fn s)) (mapply (tf_rot X) (fn s)) = 1.
Proof.
  intros s X O U. assert (U' : dot (mapply (tf_rot X) (fn s)) (mapply (tf_rot X) (fn s)) = 1) by (rewrite mapply_dot by exact O; exact U).
  split; [|exact U']. unfold flat_transform, flat_make, unit_normal. cbn [fn fd]. assert (N : norm (mapply (tf_rot X) (fn s)) = 1) by (unfold norm, norm2; rewrite U'; apply sqrt_1).
  rewrite N. destruct (Rlt_dec 0 1); [|lra]. rewrite Rinv_1, Rmult_1_r. f_equal. destruct (mapply (tf_rot X) (fn s)). unfold vscale. cbn. f_equal; ring.
Qed.
(** The transformed half-space (plane) is the image of the half-space (plane). *)
Theorem flat_transform_exact : forall s X p, ortho (tf_rot X) -> dot (fn s) (fn s) = 1 ->
  (in_half (flat_transform s X) p <-> placed X (in_half s) p) /\ (in_plane (flat_transform s X) p <-> placed X (in_plane s) p).
Proof.
  intros s X p O U. destruct (transform_form s X O U) as [-> _]. unfold in_half, in_plane, placed. cbn [fn fd].
  assert (E : forall q, dot (mapply (tf_rot X) (fn s)) (tf_apply X q) = dot (fn s) q + dot (mapply (tf_rot X) (fn s)) (tf_tr X)).
  { intros q. unfold tf_apply. rewrite dot_add_r, mapply_dot by exact O. ring. }
  split; split.
  - intros H. exists (tf_inv_apply X p). rewrite tf_inv_right by exact O. split; [|reflexivity]. rewrite <- (tf_inv_right X p O), E in H. lra.
  - intros (q & Hq & ->). rewrite E. lra.
  - intros H. exists (tf_inv_apply X p). rewrite tf_inv_right by exact O. split; [|reflexivity]. rewrite <- (tf_inv_right X p O), E in H. lra.
  - intros (q & Hq & ->). rewrite E. lra.
Qed.
Print Assumptions flat_transform_exact.

(** ** AABB *)
Definition along (n : v3) : Prop := exists i l, (i < 3)%nat /\ n = axis i l.
Definition bounded (big : R) (p : v3) : Prop := forall i, (i < 3)%nat -> - big <= comp i p <= big.

Lemma aligned_spec : forall n, dot n n = 1 ->
  match aligned n with
  | Some i => (i < 3)%nat /\ exists l, n = axis i l /\ (l = 1 \/ l = -1) /\ comp i n = l
  | None => ~ along n
  end.
Proof.
  intros [a b c] U. unfold dot in U. cbn in U. unfold aligned. cbn [c0 c1 c2].
  destruct (zb b) eqn:B, (zb c) eqn:C, (zb a) eqn:A; cbn [andb];
  repeat match goal with H : zb _ = true |- _ => apply zb_true in H | H : zb _ = false |- _ => apply zb_false in H end; subst.
  all: try (split; [lia|]; match goal with |- exists l, mk3 ?x 0 0 = _ /\ _ => exists x | |- exists l, mk3 0 ?x 0 = _ /\ _ => exists x | |- exists l, mk3 0 0 ?x = _ /\ _ => exists x end; cbn; split; [reflexivity|split; [|reflexivity]]; match goal with H : ?u = 1 |- ?l = 1 \/ _ => assert ((l - 1) * (l + 1) = 0) as Z by lra; apply Rmult_integral in Z; destruct Z; [left|right]; lra end).
  all: intros (i & l & Hi & E); destruct i as [|[|[|i]]]; [..|lia]; pose proof (f_equal c0 E) as E1; pose proof (f_equal c1 E) as E2; pose proof (f_equal c2 E) as E3; cbn in E1, E2, E3; subst; contradiction || lra.
Qed.

Theorem half_aabb_exact : forall big s X p, ortho (tf_rot X) -> dot (fn s) (fn s) = 1 -> bounded big p ->
  (in_boxR p (half_aabb big s X) <-> (along (mapply (tf_rot X) (fn s)) -> placed X (in_half s) p)).
Proof.
  intros big s X p O U B. rewrite <- (proj1 (flat_transform_exact s X p O U)). unfold half_aabb. destruct (transform_form s X O U) as [-> U'].
  set (n := mapply (tf_rot X) (fn s)) in *. set (d := fd s + _). clearbody n d. unfold half_box, in_half. cbn [fn fd].
  pose proof (B 0%nat ltac:(lia)) as B0. pose proof (B 1%nat ltac:(lia)) as B1. pose proof (B 2%nat ltac:(lia)) as B2. cbn in B0, B1, B2.
  pose proof (aligned_spec n U') as S. destruct (aligned n) as [i|].
  - destruct S as (Hi & l & En & Hl & Ei). rewrite Ei. assert (Al : along n) by (exists i, l; auto). rewrite En at 2. unfold in_boxR, negb', posb.
    destruct i as [|[|[|i]]]; [..|lia]; destruct Hl as [-> | ->]; repeat destruct (Rlt_dec _ _); try lra; cbn; unfold dot; cbn; (split; [intros H _; lra|intros H; specialize (H Al); lra]).
  - unfold in_boxR. cbn. split; [intros _ A; contradiction|intros _; lra].
Qed.
Print Assumptions half_aabb_exact.

Theorem plane_aabb_exact : forall big s X p, ortho (tf_rot X) -> dot (fn s) (fn s) = 1 -> bounded big p ->
  (in_boxR p (plane_aabb big s X) <-> (along (mapply (tf_rot X) (fn s)) -> placed X (in_plane s) p)).
Proof.
  intros big s X p O U B. rewrite <- (proj2 (flat_transform_exact s X p O U)). unfold plane_aabb. destruct (transform_form s X O U) as [-> U'].
  set (n := mapply (tf_rot X) (fn s)) in *. set (d := fd s + _). clearbody n d. unfold plane_box, in_plane. cbn [fn fd].
  pose proof (B 0%nat ltac:(lia)) as B0. pose proof (B 1%nat ltac:(lia)) as B1. pose proof (B 2%nat ltac:(lia)) as B2. cbn in B0, B1, B2.
  pose proof (aligned_spec n U') as S. destruct (aligned n) as [i|].
  - destruct S as (Hi & l & En & Hl & Ei). rewrite Ei. assert (Al : along n) by (exists i, l; auto). rewrite En at 2. unfold in_boxR, negb', posb.
    destruct i as [|[|[|i]]]; [..|lia]; destruct Hl as [-> | ->]; repeat destruct (Rlt_dec _ _); try lra; cbn; unfold dot; cbn; (split; [intros H _; lra|intros H; specialize (H Al); lra]).
  - unfold in_boxR. cbn. split; [intros _ A; contradiction|intros _; lra].
Qed.
Print Assumptions plane_aabb_exact.

(** ** kDOP *)
(** Normals along a direction of the kDOP; the cascade never recognises direction 9, (1, 1, -1). *)
Definition parallel (k : kind) (n : v3) : Prop := exists i l, (i < half k)%nat /\ i <> 9%nat /\ n = vscale l (dir k i).
Definition kbounded (big : R) (k : kind) (p : v3) : Prop := forall i, (i < half k)%nat -> - big <= dot (dir k i) p <= big.
(** The normals for which case 4 and case 9 are entered *)
Definition diag_xz (n : v3) : Prop := exists a, 0 < a /\ n = mk3 a 0 a.
Definition diag_ppm (k : kind) (n : v3) : Prop := k = K24 /\ exists a, n = mk3 a (- a) (- a).

Ltac zbs := repeat match goal with
  | H : zb _ = true |- _ => apply zb_true in H | H : zb _ = false |- _ => apply zb_false in H
  | H : eqb _ _ = true |- _ => apply eqb_true in H end.
Lemma eqb_false : forall x y, eqb x y = false -> x <> y. Proof. intros x y. unfold eqb. destruct (Req_EM_T x y); [discriminate|auto]. Qed.

Ltac nope E := solve [try match type of E with upto ?k ?i && _ = _ => change (upto k i) with true in E; cbn [andb] in E end; apply andb_false_iff in E; destruct E as [E|E]; [apply zb_false in E; apply E; lra|first [apply zb_false in E|apply eqb_false in E]; apply E; lra]].
Definition hit (k : kind) (n : v3) (i : nat) : Prop :=
  (i < half k)%nat /\ i <> 9%nat /\ exists l, l <> 0 /\ n = vscale l (dir k i) /\ (forall d, l * half_value i n d = d) /\ (i <> 4%nat -> (0 < half_sign i n <-> 0 < l)).
Lemma slab_spec : forall k n, dot n n = 1 -> ~ diag_ppm k n ->
  match slab k n with Some i => hit k n i | None => ~ parallel k n end.
Proof.
  intros k [a b c] U Nd. unfold dot in U. cbn in U. unfold slab. cbn [c0 c1 c2].
  assert (Hit : forall i l, (i < half k)%nat -> i <> 9%nat -> l <> 0 -> mk3 a b c = vscale l (dir k i) -> (forall d, l * half_value i (mk3 a b c) d = d) -> (i <> 4%nat -> (0 < half_sign i (mk3 a b c) <-> 0 < l)) -> hit k (mk3 a b c) i).
  { intros i l H1 H9 H2 H3 H4 H5. split; [exact H1|split; [exact H9|]]. exists l. repeat (split; [assumption|]). exact H5. }
  assert (H8 : forall i, (i < 8)%nat -> (i < half k)%nat) by (destruct k; cbn; intros; lia).
  destruct (zb b && zb c) eqn:E0; [apply andb_prop in E0; destruct E0; zbs; subst|].
  { apply (Hit _ a); [apply H8; lia|lia|intros ->; lra|destruct k; cbn; unfold vscale; cbn; f_equal; ring| |cbn; tauto].
    intros d. cbn. unfold posb. destruct (Rlt_dec 0 a); [assert (a = 1) by nra|assert (a = -1) by nra]; subst; ring. }
  destruct (zb a && zb c) eqn:E1; [apply andb_prop in E1; destruct E1; zbs; subst|].
  { apply (Hit _ b); [apply H8; lia|lia|intros ->; lra|destruct k; cbn; unfold vscale; cbn; f_equal; ring| |cbn; tauto].
    intros d. cbn. unfold posb. destruct (Rlt_dec 0 b); [assert (b = 1) by nra|assert (b = -1) by nra]; subst; ring. }
  destruct (zb a && zb b) eqn:E2; [apply andb_prop in E2; destruct E2; zbs; subst|].
  { apply (Hit _ c); [apply H8; lia|lia|intros ->; lra|destruct k; cbn; unfold vscale; cbn; f_equal; ring| |cbn; tauto].
    intros d. cbn. unfold posb. destruct (Rlt_dec 0 c); [assert (c = 1) by nra|assert (c = -1) by nra]; subst; ring. }
  destruct (zb c && eqb a b) eqn:E3; [apply andb_prop in E3; destruct E3; zbs; subst|].
  { apply (Hit _ b); [apply H8; lia|lia|intros ->; lra|destruct k; cbn; unfold vscale; cbn; f_equal; ring| |cbn; tauto].
    intros d. cbn. transitivity (d * (b * b + b * b + 0 * 0)); [ring|rewrite U; ring]. }
  destruct (zb b && eqb a c) eqn:E4; [apply andb_prop in E4; destruct E4; zbs; subst|].
  { apply (Hit _ c); [apply H8; lia|lia|intros ->; lra|destruct k; cbn; unfold vscale; cbn; f_equal; ring| |lia].
    intros d. cbn. transitivity (d * (c * c + 0 * 0 + c * c)); [ring|rewrite U; ring]. }
  destruct (zb a && eqb b c) eqn:E5; [apply andb_prop in E5; destruct E5; zbs; subst|].
  { apply (Hit _ c); [apply H8; lia|lia|intros ->; lra|destruct k; cbn; unfold vscale; cbn; f_equal; ring| |cbn; tauto].
    intros d. cbn. transitivity (d * (0 * 0 + c * c + c * c)); [ring|rewrite U; ring]. }
  destruct (zb c && zb (a + b)) eqn:E6; [apply andb_prop in E6; destruct E6 as [F G]; zbs|].
  { assert (b = - a) by lra. subst. apply (Hit _ a); [apply H8; lia|lia|intros ->; lra|destruct k; cbn; unfold vscale; cbn; f_equal; ring| |cbn; tauto].
    intros d. cbn. transitivity (d * (a * a + - a * - a + 0 * 0)); [ring|rewrite U; ring]. }
  destruct (zb b && zb (a + c)) eqn:E7; [apply andb_prop in E7; destruct E7 as [F G]; zbs|].
  { assert (c = - a) by lra. subst. apply (Hit _ a); [apply H8; lia|lia|intros ->; lra|destruct k; cbn; unfold vscale; cbn; f_equal; ring| |cbn; tauto].
    intros d. cbn. transitivity (d * (a * a + 0 * 0 + - a * - a)); [ring|rewrite U; ring]. }
  destruct (upto k 8 && (zb a && zb (b + c))) eqn:E8; [apply andb_prop in E8; destruct E8 as [K E8]; apply andb_prop in E8; destruct E8 as [F G]; zbs|].
  { assert (c = - b) by lra. subst. unfold upto in K. apply Nat.ltb_lt in K. apply (Hit _ b); [exact K|lia|intros ->; lra|destruct k; cbn in K; [lia|..]; cbn; unfold vscale; cbn; f_equal; ring| |cbn; tauto].
    intros d. cbn. transitivity (d * (0 * 0 + b * b + - b * - b)); [ring|rewrite U; ring]. }
  destruct (upto k 9 && (zb (a + c) && zb (a + b))) eqn:E9; [apply andb_prop in E9; destruct E9 as [K E9]; apply andb_prop in E9; destruct E9 as [F G]; zbs|].
  { exfalso. apply Nd. destruct k; [discriminate..|]. split; [reflexivity|]. exists a. f_equal; lra. }
  destruct (upto k 10 && (zb (a + b) && zb (b + c))) eqn:E10; [apply andb_prop in E10; destruct E10 as [K E10]; apply andb_prop in E10; destruct E10 as [F G]; zbs|].
  { assert (b = - a) by lra. assert (c = a) by lra. subst b c. unfold upto in K. apply Nat.ltb_lt in K. apply (Hit _ a); [exact K|lia|intros ->; lra|destruct k; cbn in K; [lia|lia|]; cbn; unfold vscale; cbn; f_equal; ring| |cbn; tauto].
    intros d. cbn. transitivity (d * (a * a + - a * - a + a * a)); [ring|rewrite U; ring]. }
  destruct (upto k 11 && (zb (a + b) && zb (a + c))) eqn:E11; [apply andb_prop in E11; destruct E11 as [K E11]; apply andb_prop in E11; destruct E11 as [F G]; zbs|].
  { exfalso. apply Nd. destruct k; [discriminate..|]. split; [reflexivity|]. exists a. f_equal; lra. }
  intros (i & l & Hi & N9 & E). pose proof (f_equal c0 E) as X. pose proof (f_equal c1 E) as Y. pose proof (f_equal c2 E) as Z. clear E Hit U. cbn in X, Y, Z.
  destruct k; cbn in Hi; do 12 (destruct i as [|i]; [cbn in X, Y, Z; first [lia|congruence|nope E0|nope E1|nope E2|nope E3|nope E4|nope E5|nope E6|nope E7|nope E8|nope E9|nope E10|apply Nd; split; [reflexivity|exists a; f_equal; lra]]|]); lia.
Qed.

Lemma contains_upper : forall big k i v p, (i < half k)%nat -> kbounded big k p ->
  (contains k (put (kwhole big k) (half k + i) v) p <-> dot (dir k i) p <= v).
Proof.
  intros big k i v p Hi B. unfold contains. split.
  - intros H. specialize (H i Hi). rewrite !get_put, kwhole_length in H. replace (Nat.eqb (half k + i) (i + half k)) with true in H by (symmetry; apply Nat.eqb_eq; lia).
    replace (Nat.ltb (half k + i) (2 * half k)) with true in H by (symmetry; apply Nat.ltb_lt; lia). lra.
  - intros H j Hj. specialize (B j Hj). rewrite !get_put, kwhole_length.
    replace (Nat.eqb (half k + i) j) with false by (symmetry; apply Nat.eqb_neq; lia). rewrite kwhole_low, kwhole_high by exact Hj.
    replace (Nat.ltb (half k + i) (2 * half k)) with true by (symmetry; apply Nat.ltb_lt; lia).
    destruct (Nat.eqb (half k + i) (j + half k)) eqn:E; [|exact B]. apply Nat.eqb_eq in E. assert (j = i) by lia. subst. lra.
Qed.
Lemma contains_lower : forall big k i v p, (i < half k)%nat -> kbounded big k p ->
  (contains k (put (kwhole big k) i v) p <-> v <= dot (dir k i) p).
Proof.
  intros big k i v p Hi B. unfold contains. split.
  - intros H. specialize (H i Hi). rewrite !get_put, kwhole_length, Nat.eqb_refl in H. replace (Nat.ltb i (2 * half k)) with true in H by (symmetry; apply Nat.ltb_lt; lia). lra.
  - intros H j Hj. specialize (B j Hj). rewrite !get_put, kwhole_length.
    replace (Nat.eqb i (j + half k)) with false by (symmetry; apply Nat.eqb_neq; lia). rewrite kwhole_low, kwhole_high by exact Hj.
    replace (Nat.ltb i (2 * half k)) with true by (symmetry; apply Nat.ltb_lt; lia).
    destruct (Nat.eqb i j) eqn:E; [|exact B]. apply Nat.eqb_eq in E. subst. lra.
Qed.
Lemma contains_both : forall big k i v p, (i < half k)%nat -> kbounded big k p ->
  (contains k (put (put (kwhole big k) (half k + i) v) i v) p <-> dot (dir k i) p = v).
Proof.
  intros big k i v p Hi B. unfold contains.
  assert (T1 : Nat.ltb i (2 * half k) = true) by (apply Nat.ltb_lt; lia). assert (T2 : Nat.ltb (half k + i) (2 * half k) = true) by (apply Nat.ltb_lt; lia). split.
  - intros H. specialize (H i Hi). rewrite !get_put, put_length, kwhole_length, Nat.eqb_refl, T1, T2 in H.
    replace (Nat.eqb i (i + half k)) with false in H by (symmetry; apply Nat.eqb_neq; pose proof (half_pos k); lia).
    replace (Nat.eqb (half k + i) (i + half k)) with true in H by (symmetry; apply Nat.eqb_eq; lia). lra.
  - intros H j Hj. specialize (B j Hj). rewrite !get_put, put_length, kwhole_length, T1, T2.
    replace (Nat.eqb i (j + half k)) with false by (symmetry; apply Nat.eqb_neq; lia). replace (Nat.eqb (half k + i) j) with false by (symmetry; apply Nat.eqb_neq; lia).
    rewrite kwhole_low, kwhole_high by exact Hj.
    destruct (Nat.eqb i j) eqn:E; destruct (Nat.eqb (half k + i) (j + half k)) eqn:F;
      repeat match goal with H : Nat.eqb _ _ = true |- _ => apply Nat.eqb_eq in H | H : Nat.eqb _ _ = false |- _ => apply Nat.eqb_neq in H end; subst; try lia; lra.
Qed.
Lemma contains_whole : forall big k p, contains k (kwhole big k) p <-> kbounded big k p.
Proof. intros big k p. split; intros H i Hi; specialize (H i Hi); rewrite kwhole_low, kwhole_high in * by exact Hi; exact H. Qed.

(** With a normal that is not one of the two mishandled kinds: exact along the directions of the
    kDOP, everything otherwise. *)
Theorem half_kdop_exact : forall big k s X p, ortho (tf_rot X) -> dot (fn s) (fn s) = 1 -> kbounded big k p ->
  let n := mapply (tf_rot X) (fn s) in ~ diag_xz n -> ~ diag_ppm k n ->
  (contains k (half_kdop big k s X) p <-> (parallel k n -> placed X (in_half s) p)).
Proof.
  intros big k s X p O U B n Nx Np. rewrite <- (proj1 (flat_transform_exact s X p O U)). unfold half_kdop. destruct (transform_form s X O U) as [-> U'].
  fold n. fold n in U'. set (d := fd s + _). clearbody n d. unfold half_kbox, in_half. cbn [fn fd].
  pose proof (slab_spec k n U' Np) as S. destruct (slab k n) as [i|].
  - destruct S as (Hi & N9 & l & Hl & En & Hv & Hs). assert (Pa : parallel k n) by (exists i, l; auto).
    assert (Dn : dot n p = l * dot (dir k i) p) by (rewrite En at 1; apply dot_scale_l). specialize (Hv d).
    assert (Sg : posb (half_sign i n) = posb l).
    { destruct (Nat.eq_dec i 4) as [->|Ni].
      - unfold posb, half_sign. assert (E0 := f_equal c0 En). assert (E1 := f_equal c1 En). assert (E2 := f_equal c2 En). destruct k; cbn in E0, E1, E2.
        all: rewrite E1; destruct (Rlt_dec 0 (l * 0)), (Rlt_dec 0 l); try lra; try reflexivity; exfalso; apply Nx; exists l; (split; [assumption|]); rewrite En; cbn; unfold vscale; cbn; f_equal; ring.
      - specialize (Hs Ni). unfold posb. destruct (Rlt_dec 0 (half_sign i n)), (Rlt_dec 0 l); tauto || reflexivity. }
    rewrite Sg. unfold posb. destruct (Rlt_dec 0 l).
    + rewrite contains_upper by assumption. split; [intros H _|intros H; specialize (H Pa)].
      * rewrite Dn, <- Hv. apply Rmult_le_compat_l; lra.
      * apply Rmult_le_reg_l with l; [assumption|]. rewrite Hv, <- Dn. exact H.
    + rewrite contains_lower by assumption. split; [intros H _|intros H; specialize (H Pa)].
      * rewrite Dn, <- Hv. apply Ropp_le_cancel. rewrite <- !Ropp_mult_distr_l_reverse. apply Rmult_le_compat_l; lra.
      * apply Rmult_le_reg_l with (- l); [lra|]. rewrite !Ropp_mult_distr_l_reverse, Hv, <- Dn. lra.
  - rewrite contains_whole. split; [intros _ Pa; contradiction|intros _; exact B].
Qed.
Print Assumptions half_kdop_exact.

(** A half-space whose normal points along (1, 0, 1): its kDOP has none of the interior points. *)
Theorem half_kdop_xz_refuted : forall big k s p a, 0 < a -> 2 * (a * a) = 1 -> fn s = mk3 a 0 a ->
  contains k (half_kbox big k s) p -> fd s <= dot (fn s) p.
Proof.
  intros big k s p a Ha Ea En H. unfold half_kbox in H. rewrite En in *.
  assert (S : slab k (mk3 a 0 a) = Some 4%nat).
  { unfold slab. cbn [c0 c1 c2]. assert (Za : zb a = false) by (unfold zb; destruct (Req_EM_T a 0); [lra|reflexivity]). assert (Z0 : zb 0 = true) by (unfold zb; destruct (Req_EM_T 0 0); [reflexivity|lra]).
    rewrite Za, Z0. cbn [andb]. replace (eqb a a) with true by (unfold eqb; destruct (Req_EM_T a a); [reflexivity|lra]). reflexivity. }
  rewrite S in H. cbn [half_sign half_value c0 c1] in H. unfold posb in H. destruct (Rlt_dec 0 0); [lra|]. specialize (H 4%nat ltac:(destruct k; cbn; lia)). destruct H as [H _].
  rewrite get_put, kwhole_length in H. replace (Nat.ltb 4 (2 * half k)) with true in H by (destruct k; reflexivity). cbn [Nat.eqb] in H.
  assert (D : dot (dir k 4) p = c0 p + c2 p) by (destruct k; unfold dir; cbn; unfold dot; cbn; ring). rewrite D in H. unfold dot. cbn [c0 c1 c2].
  assert (a * (a * fd s * 2) <= a * (c0 p + c2 p)) by (apply Rmult_le_compat_l; lra). replace (a * (a * fd s * 2)) with (2 * (a * a) * fd s) in * by ring. rewrite Ea in *. lra.
Qed.
Print Assumptions half_kdop_xz_refuted.

(** Normals along (1, -1, -1) bound the direction (1, 1, -1) of a 24-DOP. *)
Theorem half_kdop_ppm_refuted : forall big a d, 0 < a -> 3 * (a * a) = 1 -> 0 <= d ->
  exists p, dot (mk3 a (- a) (- a)) p < d /\ ~ contains K24 (half_kbox big K24 (Flat (mk3 a (- a) (- a)) d)) p.
Proof.
  intros big a d Ha Ea Hd. exists (mk3 0 (a * d * 3 + 1) 0). assert (0 <= a * d * 3) by (apply Rmult_le_pos; [apply Rmult_le_pos; lra|lra]). split; [unfold dot; cbn; nra|].
  unfold half_kbox. cbn [fn fd].
  assert (S : slab K24 (mk3 a (- a) (- a)) = Some 9%nat).
  { unfold slab. cbn [c0 c1 c2]. assert (Za : forall x, x <> 0 -> zb x = false) by (intros x Hx; unfold zb; destruct (Req_EM_T x 0); [lra|reflexivity]). assert (Z0 : forall x, x = 0 -> zb x = true) by (intros x Hx; unfold zb; destruct (Req_EM_T x 0); [reflexivity|lra]).
    rewrite (Za a), (Za (- a)), (Z0 (a + - a)) by lra. reflexivity. }
  rewrite S. cbn [half_sign half_value c0 c1]. unfold posb. destruct (Rlt_dec 0 a); [|lra]. intros Hc. specialize (Hc 9%nat ltac:(cbn; lia)). destruct Hc as [_ Hc].
  rewrite get_put, kwhole_length in Hc. cbn in Hc. unfold dot in Hc. cbn in Hc. lra.
Qed.
Print Assumptions half_kdop_ppm_refuted.

Definition diag_yz (k : kind) (n : v3) : Prop := k = K16 /\ exists a, n = mk3 0 a a.
Theorem plane_kdop_exact : forall big k s X p, ortho (tf_rot X) -> dot (fn s) (fn s) = 1 -> kbounded big k p ->
  let n := mapply (tf_rot X) (fn s) in ~ diag_yz k n -> ~ diag_ppm k n ->
  (contains k (plane_kdop big k s X) p <-> (parallel k n -> placed X (in_plane s) p)).
Proof.
  intros big k s X p O U B n Ny Np. rewrite <- (proj2 (flat_transform_exact s X p O U)). unfold plane_kdop. destruct (transform_form s X O U) as [-> U'].
  fold n. fold n in U'. set (d := fd s + _). clearbody n d. unfold plane_kbox, in_plane. cbn [fn fd].
  pose proof (slab_spec k n U' Np) as S. destruct (slab k n) as [i|].
  - destruct S as (Hi & N9 & l & Hl & En & Hv & Hs). assert (Pa : parallel k n) by (exists i, l; auto).
    assert (Dn : dot n p = l * dot (dir k i) p) by (rewrite En at 1; apply dot_scale_l). specialize (Hv d).
    assert (Pl : plane_low k i = i).
    { destruct k; try reflexivity. cbn. do 5 (destruct i as [|i]; [reflexivity|]). destruct i as [|i]; [|reflexivity]. exfalso. apply Ny. split; [reflexivity|]. exists l. rewrite En. cbn. unfold vscale. cbn. f_equal; ring. }
    cbv zeta. rewrite Pl, contains_both by assumption. split; [intros H _|intros H; specialize (H Pa)].
    + rewrite Dn, H. exact Hv.
    + apply Rmult_eq_reg_l with l; [|exact Hl]. rewrite <- Dn, Hv. exact H.
  - rewrite contains_whole. split; [intros _ Pa; contradiction|intros _; exact B].
Qed.
Print Assumptions plane_kdop_exact.

(** The 16-DOP of a plane with normal along (0, 1, 1) bounds x - y instead of y + z from below. *)
Theorem plane_kdop_refuted : forall big a d, 0 < a -> 2 * (a * a) = 1 ->
  exists p, in_plane (Flat (mk3 0 a a) d) p /\ ~ contains K16 (plane_kbox big K16 (Flat (mk3 0 a a) d)) p.
Proof.
  intros big a d Ha Ea. exists (mk3 (a * d * 2 - 1) 0 (d / a)). split; [unfold in_plane, dot; cbn; field; lra|]. unfold plane_kbox. cbn [fn fd].
  assert (S : slab K16 (mk3 0 a a) = Some 5%nat).
  { unfold slab. cbn [c0 c1 c2]. assert (Za : forall x, x <> 0 -> zb x = false) by (intros x Hx; unfold zb; destruct (Req_EM_T x 0); [lra|reflexivity]). assert (Z0 : forall x, x = 0 -> zb x = true) by (intros x Hx; unfold zb; destruct (Req_EM_T x 0); [reflexivity|lra]).
    rewrite (Za a), (Z0 0) by lra. cbn [andb]. replace (eqb a a) with true by (unfold eqb; destruct (Req_EM_T a a); [reflexivity|lra]). reflexivity. }
  rewrite S. cbv zeta. cbn [plane_low half_value c1]. intros H. specialize (H 6%nat ltac:(cbn; lia)). destruct H as [H _].
  rewrite get_put, put_length, kwhole_length in H. cbn in H. unfold dot in H. cbn in H. lra.
Qed.
Print Assumptions plane_kdop_refuted.
Theorem plane_kdop_ppm_refuted : forall big a d, 0 < a -> 3 * (a * a) = 1 ->
  exists p, in_plane (Flat (mk3 a (- a) (- a)) d) p /\ ~ contains K24 (plane_kbox big K24 (Flat (mk3 a (- a) (- a)) d)) p.
Proof.
  intros big a d Ha Ea. exists (mk3 0 1 (- (d / a) - 1)). split; [unfold in_plane, dot; cbn; field; lra|]. unfold plane_kbox. cbn [fn fd].
  assert (S : slab K24 (mk3 a (- a) (- a)) = Some 9%nat).
  { unfold slab. cbn [c0 c1 c2]. assert (Za : forall x, x <> 0 -> zb x = false) by (intros x Hx; unfold zb; destruct (Req_EM_T x 0); [lra|reflexivity]). assert (Z0 : forall x, x = 0 -> zb x = true) by (intros x Hx; unfold zb; destruct (Req_EM_T x 0); [reflexivity|lra]).
    rewrite (Za a), (Za (- a)), (Z0 (a + - a)) by lra. reflexivity. }
  rewrite S. cbv zeta. cbn [plane_low half_value c0 c1]. intros H. specialize (H 9%nat ltac:(cbn; lia)). destruct H as [H1 H2].
  rewrite !get_put, !put_length, !kwhole_length in *. cbn in H1, H2. unfold dot in H1, H2. cbn in H1, H2.
  assert (E : d / a = a * d * 3). { apply Rmult_eq_reg_l with a; [|lra]. transitivity d; [field; lra|]. transitivity (3 * (a * a) * d); [rewrite Ea; ring|ring]. }
  rewrite E in *. lra.
Qed.
Print Assumptions plane_kdop_ppm_refuted.

(** ** OBB, RSS, kIOS *)
Definition orthogonal_of (uo : v3 -> v3) : Prop := forall v, dot v v = 1 -> dot (uo v) (uo v) = 1 /\ dot v (uo v) = 0.
Lemma normalize_unit : forall v, dot v v = 1 -> normalize v = v.
Proof.
  intros v U. unfold normalize. assert (N : norm2 v = 1) by exact U. destruct (Rlt_dec 0 (norm2 v)); [|lra]. unfold norm. rewrite N, sqrt_1, Rinv_1.
  destruct v. unfold vscale. cbn. f_equal; ring.
Qed.
Lemma coord_system_form : forall uo n, orthogonal_of uo -> dot n n = 1 ->
  coord_system uo n = mkm n (uo n) (cross n (uo n)) /\ ortho (coord_system uo n).
Proof.
  intros uo n Hu U. destruct (Hu n U) as [U1 D]. assert (UC : dot (cross n (uo n)) (cross n (uo n)) = 1).
  { pose proof (lagrange n (uo n)) as L. unfold norm2 in L. rewrite D, U, U1 in L. lra. }
  assert (E : coord_system uo n = mkm n (uo n) (cross n (uo n))) by (unfold coord_system; cbv zeta; rewrite (normalize_unit n U), (normalize_unit _ UC); reflexivity).
  split; [exact E|]. rewrite E. unfold ortho. cbn [VecR.m0 VecR.m1 VecR.m2].
  assert (D1 : dot n (cross n (uo n)) = 0) by apply dot_cross_l.
  assert (D2 : dot (uo n) (cross n (uo n)) = 0) by (generalize (uo n); intros w; destruct n, w; unfold dot, cross; cbn; ring).
  tauto.
Qed.

Theorem half_obb_encloses : forall big p, bounded big p -> inobb (half_obb big) p.
Proof.
  intros big p B. pose proof (B 0%nat ltac:(lia)) as B0. pose proof (B 1%nat ltac:(lia)) as B1. pose proof (B 2%nat ltac:(lia)) as B2. cbn in B0, B1, B2.
  apply inobb_iff; [apply ortho_mid|]. unfold half_obb, dot, vsub, vzero, mid. cbn. lra.
Qed.
Print Assumptions half_obb_encloses.
(** Only the ball of that radius about the origin is sure to be in the RSS. *)
Theorem half_rss_encloses : forall big p, 0 <= big -> norm p <= big -> in_rss (half_rss big) p.
Proof.
  intros big p Hb H. exists 0, 0. split; [lra|split; [lra|]]. unfold half_rss, rect. cbn [To rax rl0 rl1 rr]. unfold dist.
  match goal with |- norm ?v <= _ => replace v with p; [exact H|] end. destruct p. unfold vsub, vadd, vscale, vzero, mid. cbn. f_equal; ring.
Qed.
Print Assumptions half_rss_encloses.

(** The OBB of a plane is the plane within the bounds of the tangents. *)
Theorem plane_obb_exact : forall big uo s X p, orthogonal_of uo -> ortho (tf_rot X) -> dot (fn s) (fn s) = 1 ->
  let b := plane_obb big uo s X in ortho (ax b) /\
  (inobb b p <-> placed X (in_plane s) p /\ - big <= dot (vsub p (oc b)) (m1 (ax b)) <= big /\ - big <= dot (vsub p (oc b)) (m2 (ax b)) <= big).
Proof.
  intros big uo s X p Hu O U b. rewrite <- (proj2 (flat_transform_exact s X p O U)). destruct (transform_form s X O U) as [E U'].
  destruct (coord_system_form uo (mapply (tf_rot X) (fn s)) Hu U') as [F OA].
  assert (Oa : ortho (ax b)) by exact OA. split; [exact Oa|]. rewrite (inobb_iff b p Oa). rewrite E. unfold in_plane. cbn [fn fd].
  assert (M0 : m0 (ax b) = mapply (tf_rot X) (fn s)) by (unfold b, plane_obb; cbn [ax]; rewrite F; reflexivity). rewrite M0.
  assert (D : dot (vsub p (oc b)) (mapply (tf_rot X) (fn s)) = dot (mapply (tf_rot X) (fn s)) p - (fd s + dot (mapply (tf_rot X) (fn s)) (tf_tr X))).
  { rewrite dot_comm, dot_sub_r. f_equal. unfold b, plane_obb, tf_apply. cbn [oc]. rewrite dot_add_r, mapply_dot, dot_scale_r, U by exact O. ring. }
  rewrite D. cbn [b plane_obb ext c0 c1 c2]. intuition lra.
Qed.
Print Assumptions plane_obb_exact.

(** The RSS of a plane stands on it: a line through [To] is all it has of the plane, and only one
    side of it. *)
Theorem plane_rss_refuted : forall big uo s X p, orthogonal_of uo -> ortho (tf_rot X) -> dot (fn s) (fn s) = 1 -> 0 <= big ->
  let b := plane_rss big uo s X in placed X (in_plane s) p -> in_rss b p ->
  exists t, 0 <= t <= 1 /\ p = vadd (To b) (vscale (t * big) (uo (mapply (tf_rot X) (fn s)))).
Proof.
  intros big uo s X p Hu O U Hb b Hp (x & y & Hx & Hy & D). destruct (transform_form s X O U) as [E U'].
  destruct (coord_system_form uo (mapply (tf_rot X) (fn s)) Hu U') as [F OA]. destruct (Hu _ U') as [U1 D1].
  apply (proj2 (flat_transform_exact s X p O U)) in Hp. rewrite E in Hp. unfold in_plane in Hp. cbn [fn fd] in Hp.
  set (n := mapply (tf_rot X) (fn s)) in *. set (T := tf_apply X (vscale (fd s) (fn s))).
  assert (Ep : p = vadd T (vadd (vscale (x * big) n) (vscale (y * big) (uo n)))).
  { assert (Z : dist p (rect b x y) = 0) by (pose proof (dist_nonneg p (rect b x y)); unfold b, plane_rss in *; cbn [rr] in D; lra).
    apply dist_zero in Z. rewrite Z. unfold rect, b, plane_rss. cbn [To rax rl0 rl1]. fold n T. rewrite F. cbn [VecR.m0 VecR.m1]. generalize (uo n); intros w; clear; destruct T, n, w; unfold vadd, vscale; cbn; f_equal; ring. }
  exists y. split; [exact Hy|]. unfold b, plane_rss. cbn [To]. fold T.
  assert (Dn : dot n T = fd s + dot n (tf_tr X)). { unfold T, tf_apply. rewrite dot_add_r. unfold n at 1. rewrite mapply_dot, dot_scale_r, U by exact O. ring. }
  assert (Zx : x * big = 0). { rewrite Ep, !dot_add_r, !dot_scale_r, U', D1, Dn in Hp. lra. }
  rewrite Ep, Zx. generalize (uo n); intros w; clear; destruct T, n, w; unfold vadd, vscale; cbn; f_equal; ring.
Qed.
Print Assumptions plane_rss_refuted.

Theorem kios_encloses : forall big uo s X p, orthogonal_of uo -> ortho (tf_rot X) -> dot (fn s) (fn s) = 1 -> norm p <= big ->
  in_kios1 big (half_obb big) p /\
  let b := plane_obb big uo s X in
  (placed X (in_plane s) p -> - big <= dot (vsub p (oc b)) (m1 (ax b)) <= big -> - big <= dot (vsub p (oc b)) (m2 (ax b)) <= big -> in_kios1 big b p).
Proof.
  intros big uo s X p Hu O U H. assert (D : dist p vzero <= big) by (unfold dist; replace (vsub p vzero) with p by (destruct p; unfold vsub, vzero; cbn; f_equal; ring); exact H).
  split; [split; [exact D|]|].
  - apply half_obb_encloses. intros i Hi. pose proof (comp_le_norm i p). apply Rabs_le_inv. lra.
  - intros b Hp H1 H2. split; [exact D|]. apply (proj2 (plane_obb_exact big uo s X p Hu O U)). auto.
Qed.
Print Assumptions kios_encloses.

(** Non-vacuity: a plane in a general position, and a unit orthogonal function. *)
Example ex_half : let s := Flat (mk3 (3 / 5) 0 (4 / 5)) 2 in dot (fn s) (fn s) = 1 /\ ~ diag_xz (fn s) /\ ~ diag_ppm K24 (fn s) /\ ~ along (fn s) /\ in_half s (mk3 0 7 1).
Proof.
  cbn. split; [unfold dot; cbn; lra|]. split; [intros (a & Ha & E); injection E as E1 E2; lra|]. split; [intros (_ & a & E); injection E as E1 E2 E3; lra|].
  split; [intros (i & l & Hi & E); destruct i as [|[|[|i]]]; [..|lia]; pose proof (f_equal c0 E); pose proof (f_equal c2 E); cbn in *; lra|]. unfold in_half, dot. cbn. lra.
Qed.
Example ex_orthogonal : orthogonal_of (fun v => normalize (if zb (c0 v * c0 v + c1 v * c1 v) then mk3 1 0 0 else mk3 (- c1 v) (c0 v) 0)).
Proof.
  intros v U. destruct (zb _) eqn:Z.
  - apply zb_true in Z. rewrite normalize_unit by (unfold dot; cbn; ring). unfold dot in *. cbn. pose proof (Rle_0_sqr (c0 v)). pose proof (Rle_0_sqr (c1 v)). unfold Rsqr in *. assert (c0 v = 0) by nra. split; [ring|rewrite H1; ring].
  - apply zb_false in Z. set (w := mk3 (- c1 v) (c0 v) 0). assert (Nw : norm2 w = c0 v * c0 v + c1 v * c1 v) by (unfold norm2, dot, w; cbn; ring).
    assert (P : 0 < norm2 w) by (pose proof (Rle_0_sqr (c0 v)); pose proof (Rle_0_sqr (c1 v)); unfold Rsqr in *; lra).
    unfold normalize. destruct (Rlt_dec 0 (norm2 w)); [|lra]. assert (Pn : 0 < norm w) by (apply sqrt_lt_R0, P). split.
    + rewrite dot_scale_l, dot_scale_r. replace (dot w w) with (norm w * norm w) by (rewrite norm_sq; reflexivity). field. lra.
    + rewrite dot_scale_r. unfold dot, w. cbn. ring.
Qed.
