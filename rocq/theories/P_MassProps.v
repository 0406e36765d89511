(** C74: volumes, centers of mass and inertia matrices are the volume integrals. *)
From Coq Require Import Reals Lra Lia List Permutation.
From Coquelicot Require Import Coquelicot.
From Verif Require Import VecR Prim ShapeBV HalfQuery Support P_Support ConvexMesh P_ConvexMesh Integral MassProps.
Import ListNotations.
Open Scope R_scope.

(** ** Meaning *)
(** The (i, j) entry of the inertia matrix of a unit mass at [p], about [c]. *)
Definition point_inertia (c : v3) (i j : nat) (p : v3) : R :=
  if Nat.eqb i j then norm2 (vsub p c) - comp i (vsub p c) * comp i (vsub p c) else - (comp i (vsub p c) * comp j (vsub p c)).
(** [M f x]: the integral of [f] is [x]. Volume, center of mass and inertia about the origin. *)
Definition has_mass (M : (v3 -> R) -> R -> Prop) (V : R) (m : v3) (I : mat3) : Prop :=
  M (fun _ => 1) V /\ (forall i, (i < 3)%nat -> M (comp i) (V * comp i m)) /\
  (forall i j, (i < 3)%nat -> (j < 3)%nat -> M (point_inertia vzero i j) (entry i j I)).
Definition solid (s : shape) : Prop :=
  match s with Tri _ _ _ | Polytope _ | Other => False | _ => sized s end.

(** ** Quadratic integrands *)
Definition q1 : quad := Quad 1 0 0 0 0 0 0 0 0 0.
Definition qx (i : nat) : quad := match i with 0%nat => Quad 0 1 0 0 0 0 0 0 0 0 | 1%nat => Quad 0 0 1 0 0 0 0 0 0 0 | _ => Quad 0 0 0 1 0 0 0 0 0 0 end.
Definition qq (i j : nat) : quad :=
  match i, j with
  | 0, 0 => Quad 0 0 0 0 0 1 1 0 0 0
  | 1, 1 => Quad 0 0 0 0 1 0 1 0 0 0
  | 0, 1 | 1, 0 => Quad 0 0 0 0 0 0 0 (-1) 0 0
  | 0, _ | _, 0 => Quad 0 0 0 0 0 0 0 0 (-1) 0
  | 1, _ | _, 1 => Quad 0 0 0 0 0 0 0 0 0 (-1)
  | _, _ => Quad 0 0 0 0 1 1 0 0 0 0
  end%nat.
Ltac three i := destruct i as [|[|[|i]]]; [| | |exfalso; lia].
Lemma q1_val : forall p, qval q1 p = 1.
Proof. intros p. unfold qval, q1. cbn. ring. Qed.
Lemma qx_val : forall i p, (i < 3)%nat -> qval (qx i) p = comp i p.
Proof. intros i p L. three i; unfold qval, qx; cbn; ring. Qed.
Lemma qq_val : forall i j p, (i < 3)%nat -> (j < 3)%nat -> qval (qq i j) p = point_inertia vzero i j p.
Proof. intros i j p Li Lj. three i; three j; unfold qval, qq, point_inertia, norm2, dot, vsub, vzero; cbn; ring. Qed.
Definition extensional (M : (v3 -> R) -> R -> Prop) : Prop := forall f g x, (forall p, f p = g p) -> M f x -> M g x.
Lemma mass_of_quads : forall M V m I (J : quad -> R), extensional M -> (forall k, M (qval k) (J k)) ->
  J q1 = V -> (forall i, (i < 3)%nat -> J (qx i) = V * comp i m) -> (forall i j, (i < 3)%nat -> (j < 3)%nat -> J (qq i j) = entry i j I) -> has_mass M V m I.
Proof.
  intros M V m I J E H H1 Hx Hq. split; [|split].
  - rewrite <- H1. apply (E (qval q1)); [apply q1_val|apply H].
  - intros i L. rewrite <- Hx by auto. apply (E (qval (qx i))); [intros p; apply qx_val, L|apply H].
  - intros i j Li Lj. rewrite <- Hq by auto. apply (E (qval (qq i j))); [intros p; apply qq_val; auto|apply H].
Qed.
Lemma sym_mass : forall M V z X Y Z, extensional M ->
  (forall k, M (qval k) (V * k0 k + V * z * kz k + X * kxx k + Y * kyy k + Z * kzz k)) ->
  has_mass M V (mk3 0 0 z) (diag (Y + Z) (X + Z) (X + Y)).
Proof.
  intros M V z X Y Z E H. eapply mass_of_quads; [exact E|exact H| | |]; cbn beta.
  - unfold q1. cbn. ring.
  - intros i L. three i; unfold qx; cbn; ring.
  - intros i j Li Lj. three i; three j; unfold qq, entry, diag; cbn; ring.
Qed.
Lemma integral_ext : forall K, extensional (integral3 K).
Proof. intros K f g x E H. eapply integral3_ext; eauto. Qed.

(** ** Shape by shape *)
Lemma box_mass : forall d, sized (Box d) -> has_mass (integral3 (points (Box d))) (volume (Box d)) (com (Box d)) (inertia (Box d)).
Proof.
  intros d (H0 & H1 & H2).
  replace (inertia (Box d)) with (let V := volume (Box d) in diag (V * (c1 d * c1 d) / 12 + V * (c2 d * c2 d) / 12) (V * (c0 d * c0 d) / 12 + V * (c2 d * c2 d) / 12) (V * (c0 d * c0 d) / 12 + V * (c1 d * c1 d) / 12))
    by (unfold inertia, diag; cbn zeta; f_equal; f_equal; field).
  apply sym_mass; [apply integral_ext|]. intros k.
  replace (_ + _) with (8 * (c0 d / 2) * (c1 d / 2) * (c2 d / 2) * (k0 k + (kxx k * (c0 d / 2 * (c0 d / 2)) + kyy k * (c1 d / 2 * (c1 d / 2)) + kzz k * (c2 d / 2 * (c2 d / 2))) / 3)) by (cbn [volume]; field).
  apply box_integral; try lra. intros p. cbn [points]. unfold boxset. split.
  - intros H. pose proof (H 0%nat ltac:(lia)). pose proof (H 1%nat ltac:(lia)). pose proof (H 2%nat ltac:(lia)). cbn [comp] in *. lra.
  - intros (A & B & C) i L. three i; cbn [comp]; lra.
Qed.
Lemma round_mass : forall s a b q V z X Z, a <= b -> (forall t, a <= t <= b -> 0 <= q t) ->
  (forall p, points s p <-> a <= c2 p <= b /\ c0 p * c0 p + c1 p * c1 p <= q (c2 p)) ->
  (forall e0 e1 e2 e3, is_RInt (fun t => q t * (e0 + e1 * t + e2 * (t * t)) + q t * q t / 4 * e3) a b ((V * e0 + V * z * e1 + Z * e2 + X * e3) / PI)) ->
  volume s = V -> com s = mk3 0 0 z -> inertia s = diag (X + Z) (X + Z) (X + X) ->
  has_mass (integral3 (points s)) (volume s) (com s) (inertia s).
Proof.
  intros s a b q V z X Z AB q0 KE H EV EC EI. rewrite EV, EC, EI. apply sym_mass; [apply integral_ext|]. intros k.
  apply (stack_integral (points s) 1 1 a b q k); auto; try lra.
  - intros p. rewrite KE. replace (c0 p / 1 * (c0 p / 1) + c1 p / 1 * (c1 p / 1)) with (c0 p * c0 p + c1 p * c1 p) by field. reflexivity.
  - pose proof PI_RGT_0. replace (V * k0 k + V * z * kz k + X * kxx k + X * kyy k + Z * kzz k) with (PI * ((V * k0 k + V * z * kz k + Z * kzz k + X * (kxx k + kyy k)) / PI)) by (field; lra).
    eapply is_RInt_ext; [|apply (is_RInt_scal (V := R_NormedModule) _ a b PI _ (H (k0 k) (kz k) (kzz k) (kxx k + kyy k)))]. intros t _. change (@eq R (PI * (q t * (k0 k + kz k * t + kzz k * (t * t)) + q t * q t / 4 * (kxx k + kyy k))) (PI * 1 * 1 * (q t * (k0 k + kz k * t + kzz k * (t * t)) + q t * q t / 4 * (kxx k * (1 * 1) + kyy k * (1 * 1))))). ring.
Qed.
Ltac anti F := apply (is_RInt_anti F); [intros ?; cbn beta; auto_derive; solve [repeat split; auto | field; repeat split; auto]|intros ?; apply cont_of; auto_derive; solve [repeat split; auto]|field; auto].
Lemma cylinder_mass : forall r lz, sized (Cylinder r lz) -> has_mass (integral3 (points (Cylinder r lz))) (volume (Cylinder r lz)) (com (Cylinder r lz)) (inertia (Cylinder r lz)).
Proof.
  intros r lz (Hr & Hl). assert (P0 : PI <> 0) by (pose proof PI_RGT_0; lra).
  apply (round_mass _ (- (lz / 2)) (lz / 2) (fun _ => r * r) (PI * r * r * lz) 0 (PI * (r * r) * (r * r) * lz / 4) (PI * (r * r) * (lz * lz * lz) / 12)).
  - lra. - intros. apply Rle_0_sqr. - intros p. reflexivity.
  - intros e0 e1 e2 e3. anti (fun t => r * r * (e0 * t + e1 * (t * t) / 2 + e2 * (t * t * t) / 3) + r * r * (r * r) / 4 * e3 * t).
  - reflexivity. - reflexivity. - unfold inertia, diag; cbn [volume]; f_equal; f_equal; field.
Qed.
Lemma cone_mass : forall r lz, sized (Cone r lz) -> has_mass (integral3 (points (Cone r lz))) (volume (Cone r lz)) (com (Cone r lz)) (inertia (Cone r lz)).
Proof.
  intros r lz (Hr & Hl). assert (P0 : PI <> 0) by (pose proof PI_RGT_0; lra). assert (L0 : lz <> 0) by lra.
  apply (round_mass _ (- (lz / 2)) (lz / 2) (fun z => let u := r * (1 / 2 - z / lz) in u * u) (PI * r * r * lz / 3) (- (25 / 100) * lz) (PI * (r * r) * (r * r) * lz / 20) (PI * (r * r) * (lz * lz * lz) / 30)).
  - lra. - intros. apply Rle_0_sqr.
  - intros p. cbn [points]. unfold coneset. split.
    + intros (t & Ht & E & H). rewrite E at 1 2. pose proof (Rmult_le_pos t lz). pose proof (Rmult_le_pos (1 - t) lz). split; [lra|]. rewrite E. replace (r * (1 / 2 - (lz / 2 - t * lz) / lz)) with (t * r) by (field; auto). exact H.
    + intros (Hz & H). exists (1 / 2 - c2 p / lz). assert (E : c2 p = (c2 p / lz) * lz) by (field; auto). split; [|split].
      * assert (- (1 / 2) <= c2 p / lz <= 1 / 2); [|lra]. split; apply Rmult_le_reg_r with lz; lra.
      * field. auto.
      * replace ((1 / 2 - c2 p / lz) * r) with (r * (1 / 2 - c2 p / lz)) by ring. exact H.
  - intros e0 e1 e2 e3. cbn zeta.
    anti (fun t => r * r * (e0 * (t / 4 - t * t / (2 * lz) + t * t * t / (3 * (lz * lz))) + e1 * (t * t / 8 - t * t * t / (3 * lz) + t * t * t * t / (4 * (lz * lz))) + e2 * (t * t * t / 12 - t * t * t * t / (4 * lz) + t * t * t * t * t / (5 * (lz * lz))))
      + r * r * (r * r) / 4 * e3 * (t / 16 - t * t / (4 * lz) + t * t * t / (2 * (lz * lz)) - t * t * t * t / (2 * (lz * lz * lz)) + t * t * t * t * t / (5 * (lz * lz * lz * lz)))).
  - reflexivity. - reflexivity. - unfold inertia, diag; cbn [volume]; f_equal; f_equal; field.
Qed.
Lemma dist_le : forall p o r, 0 <= r -> (dist p o <= r <-> norm2 (vsub p o) <= r * r).
Proof.
  intros p o r Hr. unfold dist, norm. set (x := norm2 (vsub p o)). assert (0 <= x) by apply norm2_nonneg. split; intros H1.
  - rewrite <- (sqrt_sqrt x) by auto. apply Rmult_le_compat; auto using sqrt_pos.
  - rewrite <- (sqrt_square r) by auto. apply sqrt_le_1_alt, H1.
Qed.
Lemma sphere_mass : forall r, sized (Sphere r) -> has_mass (integral3 (points (Sphere r))) (volume (Sphere r)) (com (Sphere r)) (inertia (Sphere r)).
Proof.
  intros r Hr. cbn [sized] in Hr. assert (P0 : PI <> 0) by (pose proof PI_RGT_0; lra).
  apply (round_mass _ (- r) r (fun z => r * r - z * z) (4 * PI * r * r * r / 3) 0 (4 * PI * (r * r) * (r * r) * r / 15) (4 * PI * (r * r) * (r * r) * r / 15)).
  - lra.
  - intros t Ht. pose proof (Rmult_le_pos (r - t) (r + t)). lra.
  - intros p. cbn [points]. unfold ball. rewrite dist_le by auto. unfold norm2, dot, vsub, vzero. cbn [c0 c1 c2].
    pose proof (Rle_0_sqr (c0 p)). pose proof (Rle_0_sqr (c1 p)). unfold Rsqr in *. split; [|intros; lra]. intros H1. split; [|lra].
    apply Rabs_le_between. rewrite <- (Rabs_pos_eq r) by auto. apply Rsqr_le_abs_0. unfold Rsqr. lra.
  - intros e0 e1 e2 e3. anti (fun t => e0 * (r * r * t - t * t * t / 3) + e1 * (r * r * (t * t) / 2 - t * t * t * t / 4) + e2 * (r * r * (t * t * t) / 3 - t * t * t * t * t / 5)
      + e3 / 4 * (r * r * (r * r) * t - 2 * (r * r) * (t * t * t) / 3 + t * t * t * t * t / 5)).
  - reflexivity. - reflexivity. - unfold inertia, diag; cbn [volume]; f_equal; f_equal; field.
Qed.
Lemma ellipsoid_mass : forall d, sized (Ellipsoid d) -> has_mass (integral3 (points (Ellipsoid d))) (volume (Ellipsoid d)) (com (Ellipsoid d)) (inertia (Ellipsoid d)).
Proof.
  intros d (H0 & H1 & H2). set (A := c0 d) in *. set (B := c1 d) in *. set (C := c2 d) in *. assert (C <> 0) by lra. assert (A <> 0) by lra. assert (B <> 0) by lra.
  replace (inertia (Ellipsoid d)) with (let V := volume (Ellipsoid d) in diag (V * (B * B) / 5 + V * (C * C) / 5) (V * (A * A) / 5 + V * (C * C) / 5) (V * (A * A) / 5 + V * (B * B) / 5))
    by (unfold inertia, diag; cbn zeta; fold A B C; f_equal; f_equal; field).
  apply sym_mass; [apply integral_ext|]. intros k. cbn [volume]. fold A B C.
  apply (stack_integral _ A B (- C) C (fun z => 1 - (z / C) * (z / C)) k); auto; try lra.
  - intros z Hz. assert (- 1 <= z / C <= 1) by (assert (z = z / C * C) by (field; auto); split; apply Rmult_le_reg_r with C; lra). pose proof (Rmult_le_pos (1 - z / C) (1 + z / C)). lra.
  - intros p. cbn [points]. unfold ellset. fold A B C. split.
    + intros (w & Hw & ->). unfold norm2, dot in Hw. cbn [c0 c1 c2]. replace (A * c0 w / A) with (c0 w) by (field; auto). replace (B * c1 w / B) with (c1 w) by (field; auto). replace (C * c2 w / C) with (c2 w) by (field; auto).
      pose proof (Rle_0_sqr (c0 w)). pose proof (Rle_0_sqr (c1 w)). unfold Rsqr in *. split; [|lra].
      assert (- 1 <= c2 w <= 1) by (apply Rabs_le_between; rewrite <- Rabs_R1; apply Rsqr_le_abs_0; unfold Rsqr; lra).
      pose proof (Rmult_le_pos C (1 - c2 w)). pose proof (Rmult_le_pos C (1 + c2 w)). lra.
    + intros (Hz & H5). exists (mk3 (c0 p / A) (c1 p / B) (c2 p / C)). split; [unfold norm2, dot; cbn [c0 c1 c2]; lra|]. apply v3_ext; cbn [c0 c1 c2]; field; auto.
  - anti (fun t => PI * A * B * (k0 k * (t - t * t * t / (3 * (C * C))) + kz k * (t * t / 2 - t * t * t * t / (4 * (C * C))) + kzz k * (t * t * t / 3 - t * t * t * t * t / (5 * (C * C)))
      + (t - 2 * (t * t * t) / (3 * (C * C)) + t * t * t * t * t / (5 * (C * C * (C * C)))) / 4 * (kxx k * (A * A) + kyy k * (B * B)))).
Qed.
Definition cap_q (r h z : R) : R := r * r - Rmax 0 (Rabs z - h) * Rmax 0 (Rabs z - h).
Lemma capsule_mass : forall r lz, sized (Capsule r lz) -> has_mass (integral3 (points (Capsule r lz))) (volume (Capsule r lz)) (com (Capsule r lz)) (inertia (Capsule r lz)).
Proof.
  intros r lz (Hr & Hl). assert (P0 : PI <> 0) by (pose proof PI_RGT_0; lra). set (h := lz / 2). assert (Hh : 0 <= h) by (unfold h; lra). assert (EL : lz = 2 * h) by (unfold h; field).
  assert (QM : forall z, - h <= z <= h -> cap_q r h z = r * r).
  { intros z Hz. unfold cap_q. rewrite Rmax_left; [ring|]. assert (Rabs z <= h) by (apply Rabs_le_between; lra). lra. }
  assert (QU : forall z, h <= z -> cap_q r h z = r * r - (z - h) * (z - h)).
  { intros z Hz. unfold cap_q. rewrite Rabs_pos_eq, Rmax_right by lra. ring. }
  assert (QL : forall z, z <= - h -> cap_q r h z = r * r - (z + h) * (z + h)).
  { intros z Hz. unfold cap_q. rewrite Rabs_left1, Rmax_right by lra. ring. }
  apply (round_mass _ (- (h + r)) (h + r) (cap_q r h) (PI * r * r * (lz + r * 4 / 3)) 0 (PI * (r * r) * (r * r) * (h / 2 + 4 * r / 15))
     (PI * (r * r) * (2 * (h * h * h) / 3 + 4 * (h * h) * r / 3 + h * (r * r) + 4 * (r * r * r) / 15))).
  - lra.
  - intros t Ht. unfold cap_q. assert (0 <= Rmax 0 (Rabs t - h) <= r).
    { split; [apply Rmax_l|]. apply Rmax_lub; auto. assert (Rabs t <= h + r) by (apply Rabs_le_between; lra). lra. }
    pose proof (Rmult_le_pos (r - Rmax 0 (Rabs t - h)) (r + Rmax 0 (Rabs t - h))). lra.
  - intros p. cbn [points]. unfold capset. fold h. pose proof (Rle_0_sqr (c0 p)) as X0. pose proof (Rle_0_sqr (c1 p)) as X1. unfold Rsqr in X0, X1. split.
    + intros (z & Hz & Hd). apply dist_le in Hd; auto. unfold norm2, dot, vsub in Hd. cbn [c0 c1 c2] in Hd.
      assert (W : - r <= c2 p - z <= r) by (apply Rabs_le_between; rewrite <- (Rabs_pos_eq r) by auto; apply Rsqr_le_abs_0; unfold Rsqr; lra). split; [lra|].
      destruct (Rle_dec (c2 p) (- h)) as [A|A]; [|destruct (Rle_dec h (c2 p)) as [B|B]].
      * rewrite QL by auto. assert ((c2 p + h) * (c2 p + h) <= (c2 p - z) * (c2 p - z)); [|lra]. pose proof (Rmult_le_pos (z + h) (z - h - 2 * c2 p)). lra.
      * rewrite QU by auto. assert ((c2 p - h) * (c2 p - h) <= (c2 p - z) * (c2 p - z)); [|lra]. pose proof (Rmult_le_pos (h - z) (2 * c2 p - z - h)). lra.
      * rewrite QM by lra. pose proof (Rle_0_sqr (c2 p - z)). unfold Rsqr in *. lra.
    + intros (Hz & H). destruct (Rle_dec (c2 p) (- h)) as [A|A]; [|destruct (Rle_dec h (c2 p)) as [B|B]].
      * exists (- h). split; [lra|]. apply dist_le; auto. unfold norm2, dot, vsub. cbn [c0 c1 c2]. rewrite QL in H by auto. replace (c2 p - - h) with (c2 p + h) by ring. lra.
      * exists h. split; [lra|]. apply dist_le; auto. unfold norm2, dot, vsub. cbn [c0 c1 c2]. rewrite QU in H by auto. lra.
      * exists (c2 p). split; [lra|]. apply dist_le; auto. unfold norm2, dot, vsub. cbn [c0 c1 c2]. rewrite QM in H by lra. lra.
  - intros e0 e1 e2 e3.
    pose (f := fun t => cap_q r h t * (e0 + e1 * t + e2 * (t * t)) + cap_q r h t * cap_q r h t / 4 * e3). fold f.
    pose (P := fun u s => (* integral of (r^2 - w^2)(e0 + e1 (w+s) + e2 (w+s)^2) + (r^2-w^2)^2/4 e3 over w *)
       e0 * (r * r * u - u * u * u / 3) + e1 * (r * r * (u * u) / 2 - u * u * u * u / 4 + s * (r * r * u - u * u * u / 3)) +
       e2 * (r * r * (u * u * u) / 3 - u * u * u * u * u / 5 + 2 * s * (r * r * (u * u) / 2 - u * u * u * u / 4) + s * s * (r * r * u - u * u * u / 3)) +
       e3 / 4 * (r * r * (r * r) * u - 2 * (r * r) * (u * u * u) / 3 + u * u * u * u * u / 5)).
    assert (LO : is_RInt f (- (h + r)) (- h) (P 0 (- h) - P (- r) (- h))).
    { eapply is_RInt_ext; [|apply (is_RInt_anti (fun t => P (t + h) (- h)) (fun t => (r * r - (t + h) * (t + h)) * (e0 + e1 * t + e2 * (t * t)) + (r * r - (t + h) * (t + h)) * (r * r - (t + h) * (t + h)) / 4 * e3))].
      - intros t Ht. rewrite Rmin_left, Rmax_right in Ht by lra. unfold f. rewrite QL by lra. reflexivity.
      - intros t. unfold P. auto_derive; auto. field. - intros t. apply cont_of. auto_derive. auto. - replace (- h + h) with 0 by ring. replace (- (h + r) + h) with (- r) by ring. reflexivity. }
    assert (HI : is_RInt f h (h + r) (P r h - P 0 h)).
    { eapply is_RInt_ext; [|apply (is_RInt_anti (fun t => P (t - h) h) (fun t => (r * r - (t - h) * (t - h)) * (e0 + e1 * t + e2 * (t * t)) + (r * r - (t - h) * (t - h)) * (r * r - (t - h) * (t - h)) / 4 * e3))].
      - intros t Ht. rewrite Rmin_left, Rmax_right in Ht by lra. unfold f. rewrite QU by lra. reflexivity.
      - intros t. unfold P. auto_derive; auto. field. - intros t. apply cont_of. auto_derive. auto. - replace (h - h) with 0 by ring. replace (h + r - h) with r by ring. reflexivity. }
    assert (MI : is_RInt f (- h) h (r * r * (2 * h * e0 + 2 * (h * h * h) / 3 * e2) + r * r * (r * r) / 4 * e3 * (2 * h))).
    { eapply is_RInt_ext; [|apply (is_RInt_anti (fun t => r * r * (e0 * t + e1 * (t * t) / 2 + e2 * (t * t * t) / 3) + r * r * (r * r) / 4 * e3 * t) (fun t => r * r * (e0 + e1 * t + e2 * (t * t)) + r * r * (r * r) / 4 * e3))].
      - intros t Ht. rewrite Rmin_left, Rmax_right in Ht by lra. unfold f. rewrite QM by lra. reflexivity.
      - intros t. auto_derive; auto. field. - intros t. apply cont_of. auto_derive. auto. - field. }
    pose proof (is_RInt_Chasles (V := R_NormedModule) f _ _ _ _ _ (is_RInt_Chasles (V := R_NormedModule) f _ _ _ _ _ LO MI) HI) as T.
    match type of T with is_RInt _ _ _ ?v => replace v with ((PI * r * r * (lz + r * 4 / 3) * e0 + PI * r * r * (lz + r * 4 / 3) * 0 * e1 +
      PI * (r * r) * (2 * (h * h * h) / 3 + 4 * (h * h) * r / 3 + h * (r * r) + 4 * (r * r * r) / 15) * e2 + PI * (r * r) * (r * r) * (h / 2 + 4 * r / 15) * e3) / PI) in T; [exact T|] end.
    unfold plus. cbn. change (@eq R ((PI * r * r * (lz + r * 4 / 3) * e0 + PI * r * r * (lz + r * 4 / 3) * 0 * e1 +
      PI * (r * r) * (2 * (h * h * h) / 3 + 4 * (h * h) * r / 3 + h * (r * r) + 4 * (r * r * r) / 15) * e2 + PI * (r * r) * (r * r) * (h / 2 + 4 * r / 15) * e3) / PI)
      ((P 0 (- h) - P (- r) (- h)) + (r * r * (2 * h * e0 + 2 * (h * h * h) / 3 * e2) + r * r * (r * r) / 4 * e3 * (2 * h)) + (P r h - P 0 h))).
    unfold P. rewrite EL. field. auto.
  - reflexivity. - reflexivity. - unfold inertia, diag; cbn [volume]; rewrite EL; f_equal; f_equal; field.
Qed.
(** The volume, center of mass and inertia of every solid shape are the integrals over its points. *)
Theorem shape_mass : forall s, solid s -> has_mass (integral3 (points s)) (volume s) (com s) (inertia s).
Proof.
  intros [a b c|d|r|d|r lz|r lz|r lz|vs|] H; try contradiction; cbn [solid] in H;
    [apply box_mass|apply sphere_mass|apply ellipsoid_mass|apply capsule_mass|apply cone_mass|apply cylinder_mass]; exact H.
Qed.
Print Assumptions shape_mass.
Example ex_cone_mass : has_mass (integral3 (points (Cone 1 4))) (4 * PI / 3) (mk3 0 0 (- 1)) (diag (7 * PI / 3) (7 * PI / 3) (2 * PI / 5)).
Proof.
  replace (4 * PI / 3) with (volume (Cone 1 4)) by (cbn; field). replace (mk3 0 0 (- 1)) with (com (Cone 1 4)) by (cbn; f_equal; field).
  replace (diag (7 * PI / 3) (7 * PI / 3) (2 * PI / 5)) with (inertia (Cone 1 4)) by (unfold inertia, diag; cbn; f_equal; f_equal; field).
  apply shape_mass. cbn. lra.
Qed.

(** ** The inertia about the center of mass *)
Definition linear (M : (v3 -> R) -> R -> Prop) : Prop :=
  extensional M /\ forall f g x y u v, M f x -> M g y -> M (fun p => u * f p + v * g p) (u * x + v * y).
Lemma integral_linear : forall K, linear (integral3 K).
Proof. intros K. split; [apply integral_ext|]. intros. apply integral3_lin; auto. Qed.
Lemma point_inertia_shift : forall c i j p, (i < 3)%nat -> (j < 3)%nat ->
  point_inertia c i j p = 1 * point_inertia vzero i j p + 1 *
    (1 * ((if Nat.eqb i j then norm2 c - comp i c * comp i c else - (comp i c * comp j c)) * 1 + 0 * 1) + 1 *
      (1 * ((if Nat.eqb i j then - 2 * c0 c else 0) * comp 0 p + (if Nat.eqb i j then - 2 * c1 c else 0) * comp 1 p) +
       1 * (1 * ((if Nat.eqb i j then - 2 * c2 c else 0) * comp 2 p + (if Nat.eqb i j then 2 * comp i c else comp j c) * comp i p) + 1 * ((if Nat.eqb i j then 0 else comp i c) * comp j p + 0 * comp j p)))).
Proof. intros c i j p Li Lj. three i; three j; unfold point_inertia, norm2, dot, vsub, vzero; cbn [Nat.eqb comp c0 c1 c2]; ring. Qed.
(** computeMomentofInertiaRelatedToCOM is the inertia about the center of mass, whatever the object,
    when the three virtual functions return its volume, center of mass and inertia. *)
Theorem rel_com_correct : forall M V m I, linear M -> has_mass M V m I ->
  forall i j, (i < 3)%nat -> (j < 3)%nat -> M (point_inertia m i j) (entry i j (rel_com I m V)).
Proof.
  intros M V m I (E & L) (HV & HC & HI) i j Li Lj.
  eapply E; [intros p; symmetry; apply point_inertia_shift; assumption|].
  match goal with |- M _ ?v => replace v with (1 * entry i j I + 1 *
    (1 * ((if Nat.eqb i j then norm2 m - comp i m * comp i m else - (comp i m * comp j m)) * V + 0 * V) + 1 *
      (1 * ((if Nat.eqb i j then - 2 * c0 m else 0) * (V * comp 0 m) + (if Nat.eqb i j then - 2 * c1 m else 0) * (V * comp 1 m)) +
       1 * (1 * ((if Nat.eqb i j then - 2 * c2 m else 0) * (V * comp 2 m) + (if Nat.eqb i j then 2 * comp i m else comp j m) * (V * comp i m)) + 1 * ((if Nat.eqb i j then 0 else comp i m) * (V * comp j m) + 0 * (V * comp j m)))))) end.
  - apply L; [apply HI; auto|]. apply L; [apply (L (fun _ => 1) (fun _ => 1)); auto|]. apply L; [apply L; apply HC; lia|]. apply L; apply L; apply HC; auto.
  - three i; three j; unfold rel_com, entry, norm2, dot; cbn [Nat.eqb comp col m0 m1 m2 c0 c1 c2]; ring.
Qed.
Print Assumptions rel_com_correct.
Theorem shape_rel_com : forall s, solid s -> forall i j, (i < 3)%nat -> (j < 3)%nat ->
  integral3 (points s) (point_inertia (com s) i j) (entry i j (rel_com (inertia s) (com s) (volume s))).
Proof. intros s H. apply rel_com_correct; [apply integral_linear|apply shape_mass, H]. Qed.
Print Assumptions shape_rel_com.
Example ex_cone_rel : integral3 (points (Cone 1 4)) (point_inertia (mk3 0 0 (- 1)) 0 0) PI.
Proof.
  replace (mk3 0 0 (- 1)) with (com (Cone 1 4)) by (cbn; f_equal; field). replace PI with (entry 0 0 (rel_com (inertia (Cone 1 4)) (com (Cone 1 4)) (volume (Cone 1 4)))) at 1.
  - apply shape_rel_com; [cbn; lra|lia|lia]. - unfold rel_com, entry, inertia, diag. cbn. field.
Qed.

(** ** Meshes: meaning *)
(** The integral over the tetrahedron [q], [a], [b], [c], with the sign of its orientation: the
    determinant of its sides times the integral over the reference simplex [u, t, s >= 0, u + t + s <= 1]. *)
Definition in_tet (q : v3) (t : tri3) (p : v3) : v3 :=
  let '(a, b, c) := t in vadd (vadd (vadd q (vscale (c0 p) (vsub a q))) (vscale (c1 p) (vsub b q))) (vscale (c2 p) (vsub c q)).
Definition orient (q : v3) (t : tri3) : R := let '(a, b, c) := t in det (mkm (vsub a q) (vsub b q) (vsub c q)).
Definition tet_integral (q : v3) (f : v3 -> R) (t : tri3) (x : R) : Prop :=
  exists y, iterated (fun p => f (in_tet q t p)) 0 1 (fun _ => 0) (fun z => 1 - z) (fun _ _ => 0) (fun z y => 1 - z - y) y /\ x = orient q t * y.
(** The integral over what a soup of triangles encloses: the tetrahedra spanned with [q], added up. *)
Definition total (l : list R) : R := fold_right Rplus 0 l.
Definition enclosed (q : v3) (ts : list tri3) (f : v3 -> R) (x : R) : Prop := exists xs, Forall2 (tet_integral q f) ts xs /\ x = total xs.
(** Every side is passed as often in one direction as in the other. *)
Definition sides3 (t : tri3) : list (v3 * v3) := let '(a, b, c) := t in [(a, b); (b, c); (c, a)].
Definition swap (e : v3 * v3) : v3 * v3 := (snd e, fst e).
Definition closed (es : list (v3 * v3)) : Prop := Permutation es (map swap es).

(** ** Meshes: proofs *)
Lemma enclosed_linear : forall q ts, linear (enclosed q ts).
Proof.
  intros q ts. split.
  - intros f g x E (xs & H & ->). exists xs. split; auto. induction H as [|t y ts xs (z & Hz & ->) H IH]; constructor; auto. exists z. split; auto. eapply iterated_ext; [|exact Hz]. intros p. cbn. apply E.
  - intros f g x y u v (xs & H & ->) (ys & H' & ->). revert ys H'. induction H as [|t x ts xs Ht H IH]; intros ys H'; inversion H' as [|t' y ts' ys' Ht' H'' E1 E2]; subst.
    + exists []. split; [constructor|cbn; ring].
    + destruct (IH _ H'') as (zs & Hz & E). exists (u * x + v * y :: zs). split.
      * constructor; auto. destruct Ht as (x0 & Hx & ->). destruct Ht' as (y0 & Hy & ->). exists (u * x0 + v * y0). split; [apply (iterated_lin (fun p => f (in_tet q t p)) (fun p => g (in_tet q t p))); auto|ring].
      * cbn [total fold_right] in *. unfold total in E. lra.
Qed.
(** mean of a quadratic function over a tetrahedron *)
Definition mean4 (k : quad) (a b c d : v3) : R :=
  let s i := comp i a + comp i b + comp i c + comp i d in
  let p i j := comp i a * comp j a + comp i b * comp j b + comp i c * comp j c + comp i d * comp j d + s i * s j in
  k0 k + (kx k * s 0%nat + ky k * s 1%nat + kz k * s 2%nat) / 4 +
  (kxx k * p 0%nat 0%nat + kyy k * p 1%nat 1%nat + kzz k * p 2%nat 2%nat + kxy k * p 0%nat 1%nat + kxz k * p 0%nat 2%nat + kyz k * p 1%nat 2%nat) / 20.
Definition vol4 (a b c d : v3) : R := det (mkm (vsub b a) (vsub c a) (vsub d a)).
Definition mom (k : quad) (a b c d : v3) : R := vol4 a b c d / 6 * mean4 k a b c d.
Definition pull (k : quad) (q u v w : v3) : quad :=
  let L (x : v3) := kx k * c0 x + ky k * c1 x + kz k * c2 x + 2 * (kxx k * c0 q * c0 x + kyy k * c1 q * c1 x + kzz k * c2 q * c2 x) +
     kxy k * (c0 q * c1 x + c1 q * c0 x) + kxz k * (c0 q * c2 x + c2 q * c0 x) + kyz k * (c1 q * c2 x + c2 q * c1 x) in
  let B (x y : v3) := 2 * (kxx k * c0 x * c0 y + kyy k * c1 x * c1 y + kzz k * c2 x * c2 y) +
     kxy k * (c0 x * c1 y + c1 x * c0 y) + kxz k * (c0 x * c2 y + c2 x * c0 y) + kyz k * (c1 x * c2 y + c2 x * c1 y) in
  Quad (qval k q) (L u) (L v) (L w) (B u u / 2) (B v v / 2) (B w w / 2) (B u v) (B u w) (B v w).
Lemma pull_val : forall k q a b c p, qval k (in_tet q (a, b, c) p) = qval (pull k q (vsub a q) (vsub b q) (vsub c q)) p.
Proof. intros k q a b c p. unfold in_tet, pull, qval. cbn [k0 kx ky kz kxx kyy kzz kxy kxz kyz]. unfold vadd, vscale, vsub. cbn [c0 c1 c2]. field. Qed.
Lemma tet_quad : forall k q a b c, tet_integral q (qval k) (a, b, c) (mom k q a b c).
Proof.
  intros k q a b c. eexists. split; [eapply iterated_ext; [intros p; symmetry; apply pull_val|apply simplex_integral]|].
  unfold mom, vol4, orient. unfold Rdiv at 1. rewrite Rmult_assoc. f_equal. unfold pull, mean4, qval. cbn [k0 kx ky kz kxx kyy kzz kxy kxz kyz comp]. unfold vsub. cbn [c0 c1 c2]. field.
Qed.
Lemma enclosed_quad : forall k q ts, enclosed q ts (qval k) (total (map (fun t => let '(a, b, c) := t in mom k q a b c) ts)).
Proof.
  intros k q ts. eexists. split; [|reflexivity]. induction ts as [|[[a b] c] ts IH]; cbn [map]; constructor; auto. apply tet_quad.
Qed.
Ltac coords := unfold vol4, det, dot, cross, vsub; cbn [c0 c1 c2 m0 m1 m2 comp]; ring.
Lemma vol4_chain : forall q o a b c, vol4 o a b c - vol4 q a b c + vol4 q o b c - vol4 q o a c + vol4 q o a b = 0.
Proof. intros. coords. Qed.
Lemma vol4_chain_w : forall i q o a b c, vol4 o a b c * comp i q - vol4 q a b c * comp i o + vol4 q o b c * comp i a - vol4 q o a c * comp i b + vol4 q o a b * comp i c = 0.
Proof. intros i q o a b c. destruct i as [|[|i]]; coords. Qed.
(** What a triangle encloses with [q], up to terms that belong to its sides, does not depend on [q]. *)
Lemma mom_chain : forall k q o a b c, mom k q a b c = mom k o a b c + (mom k q o a b + mom k q o b c + mom k q o c a).
Proof.
  intros k q o a b c. pose proof (vol4_chain q o a b c) as H.
  pose proof (vol4_chain_w 0 q o a b c) as H0. pose proof (vol4_chain_w 1 q o a b c) as H1. pose proof (vol4_chain_w 2 q o a b c) as H2. cbn [comp] in *.
  assert (A : vol4 q o c a = - vol4 q o a c) by coords.
  unfold mom. rewrite A. revert H H0 H1 H2. clear A.
  generalize (vol4 q a b c) (vol4 o a b c) (vol4 q o a b) (vol4 q o b c) (vol4 q o a c). intros D1 D0 D4 D2 D3 H H0 H1 H2.
  unfold mean4. cbn [comp]. pose (S0 := c0 q + c0 o + c0 a + c0 b + c0 c). pose (S1 := c1 q + c1 o + c1 a + c1 b + c1 c). pose (S2 := c2 q + c2 o + c2 a + c2 b + c2 c).
  pose (P := fun i j => comp i q * comp j q + comp i o * comp j o + comp i a * comp j a + comp i b * comp j b + comp i c * comp j c).
  apply Rminus_diag_uniq.
  match goal with |- ?L = 0 => assert (E : L = - (1 / 6) * (
     (k0 k + (kx k * S0 + ky k * S1 + kz k * S2) / 4 + (kxx k * (P 0%nat 0%nat + S0 * S0) + kyy k * (P 1%nat 1%nat + S1 * S1) + kzz k * (P 2%nat 2%nat + S2 * S2) +
        kxy k * (P 0%nat 1%nat + S0 * S1) + kxz k * (P 0%nat 2%nat + S0 * S2) + kyz k * (P 1%nat 2%nat + S1 * S2)) / 20) * (D0 - D1 + D2 - D3 + D4)
     - (kx k / 4 + (2 * kxx k * S0 + kxy k * S1 + kxz k * S2) / 20) * (D0 * c0 q - D1 * c0 o + D2 * c0 a - D3 * c0 b + D4 * c0 c)
     - (ky k / 4 + (2 * kyy k * S1 + kxy k * S0 + kyz k * S2) / 20) * (D0 * c1 q - D1 * c1 o + D2 * c1 a - D3 * c1 b + D4 * c1 c)
     - (kz k / 4 + (2 * kzz k * S2 + kxz k * S0 + kyz k * S1) / 20) * (D0 * c2 q - D1 * c2 o + D2 * c2 a - D3 * c2 b + D4 * c2 c)))
   by (unfold P, S0, S1, S2; cbn [comp]; field) end.
  rewrite E, H, H0, H1, H2. ring.
Qed.
Lemma mom_swap : forall k q o a b, mom k q o a b = - mom k q o b a.
Proof. intros k q o a b. unfold mom. replace (mean4 k q o b a) with (mean4 k q o a b) by (unfold mean4; cbn [comp]; field). replace (vol4 q o b a) with (- vol4 q o a b) by coords. unfold Rdiv. ring. Qed.
Lemma total_app : forall l l', total (l ++ l') = total l + total l'.
Proof. intros l l'. unfold total. induction l as [|x l IH]; cbn [fold_right app]; [ring|]. rewrite IH. ring. Qed.
Lemma total_perm : forall l l', Permutation l l' -> total l = total l'.
Proof. unfold total. induction 1; cbn [fold_right]; lra. Qed.
Lemma total_neg : forall A (f g : A -> R) l, (forall x, f x = - g x) -> total (map f l) = - total (map g l).
Proof. intros A f g l E. unfold total. induction l as [|x l IH]; cbn; [ring|]. rewrite IH, E. ring. Qed.
Lemma closed_total : forall (g : v3 * v3 -> R) es, closed es -> (forall e, g e = - g (swap e)) -> total (map g es) = 0.
Proof.
  intros g es C A. pose proof (total_perm _ _ (Permutation_map g C)) as H. rewrite map_map in H. rewrite (total_neg _ (fun e => g (swap e)) g) in H; [lra|]. intros e. rewrite (A e). ring.
Qed.
Definition moms (k : quad) (q : v3) (ts : list tri3) : R := total (map (fun t => let '(a, b, c) := t in mom k q a b c) ts).
Lemma moms_apex : forall k q o ts, closed (flat_map sides3 ts) -> moms k q ts = moms k o ts.
Proof.
  intros k q o ts C. pose (g := fun e : v3 * v3 => mom k q o (fst e) (snd e)).
  assert (E : moms k q ts = moms k o ts + total (map g (flat_map sides3 ts))).
  { clear C. induction ts as [|[[a b] c] ts IH]; [cbn; ring|]. unfold moms in *. cbn [map flat_map sides3]. rewrite map_app, total_app. cbn [total fold_right map] in *. unfold total in *. rewrite IH. rewrite (mom_chain k q o a b c). unfold g. cbn [fst snd]. ring. }
  rewrite E, closed_total; [ring|exact C|]. intros [x y]. unfold g, swap. cbn [fst snd]. apply mom_swap.
Qed.
(** What a closed soup encloses does not depend on the apex. *)
Lemma tet_unique : forall q f t x y, tet_integral q f t x -> tet_integral q f t y -> x = y.
Proof.
  intros q f t x y (u & Hu & ->) (v & Hv & ->). f_equal. eapply iterated_unique; [| |exact Hu|exact Hv]; [lra|]. intros z Hz. lra.
Qed.
Lemma enclosed_unique : forall q ts f x y, enclosed q ts f x -> enclosed q ts f y -> x = y.
Proof.
  intros q ts f x y (xs & H & ->) (ys & H' & ->). f_equal. revert ys H'. induction H as [|t a ts xs Ht H IH]; intros ys H'; inversion H' as [|t' b ts' ys' Ht' H'' E1 E2]; subst; [reflexivity|].
  f_equal; [eapply tet_unique; eauto|auto].
Qed.
Theorem enclosed_apex : forall k q o ts x, closed (flat_map sides3 ts) -> enclosed q ts (qval k) x -> enclosed o ts (qval k) x.
Proof.
  intros k q o ts x C H. pose proof (enclosed_unique _ _ _ _ _ H (enclosed_quad k q ts)) as ->. fold (moms k q ts). rewrite (moms_apex k q o ts C). apply enclosed_quad.
Qed.
Print Assumptions enclosed_apex.
(** ** The sums of the code *)
Lemma fold_total : forall A (f : A -> R) l x, fold_left (fun v t => v + f t) l x = x + total (map f l).
Proof. intros A f l. unfold total. induction l as [|a l IH]; intros x; cbn [fold_left map fold_right]; [ring|]. rewrite IH. ring. Qed.
Lemma six_vol4 : forall a b c, six_vol (a, b, c) = vol4 vzero a b c.
Proof. intros. unfold six_vol, vzero. coords. Qed.
Lemma sum_vol : forall ts, mesh_volume ts = moms q1 vzero ts.
Proof.
  intros ts. unfold mesh_volume, sum_six_vol, moms. rewrite fold_total. induction ts as [|[[a b] c] ts IH]; [cbn; field|]. cbn [map total fold_right] in *. unfold total in *. rewrite <- IH. rewrite six_vol4. unfold mom, mean4, q1. cbn [k0 kx ky kz kxx kyy kzz kxy kxz kyz]. field.
Qed.
Definition com_acc (m : v3) (t : tri3) : v3 := let '(a, b, c) := t in vadd m (vscale (six_vol t) (vadd (vadd a b) c)).
Lemma sum_com : forall i ts m, (i < 3)%nat -> comp i (fold_left com_acc ts m) = comp i m + 24 * moms (qx i) vzero ts.
Proof.
  intros i ts m L. revert m. induction ts as [|[[a b] c] ts IH]; intros m; [cbn; unfold moms; cbn; ring|]. cbn [fold_left]. rewrite IH. unfold moms. cbn [map total fold_right]. unfold com_acc. rewrite six_vol4. unfold mom, mean4, qx, vzero.
  three i; cbn [k0 kx ky kz kxx kyy kzz kxy kxz kyz comp]; unfold vadd, vscale; cbn [c0 c1 c2]; unfold total; field.
Qed.
Lemma mesh_com_eq : forall i ts, (i < 3)%nat -> mesh_volume ts <> 0 -> mesh_volume ts * comp i (mesh_com ts) = moms (qx i) vzero ts.
Proof.
  intros i ts L NZ. unfold mesh_com. change (fold_left _ ts vzero) with (fold_left com_acc ts vzero). assert (E : comp i (vscale (/ (sum_six_vol ts * 4)) (fold_left com_acc ts vzero)) = / (sum_six_vol ts * 4) * comp i (fold_left com_acc ts vzero)) by (three i; reflexivity).
  rewrite E, sum_com by auto. replace (comp i vzero) with 0 by (three i; reflexivity). unfold mesh_volume in *. assert (sum_six_vol ts <> 0) by (intros Z; apply NZ; rewrite Z; field). field. auto.
Qed.
(** the integrand x_i x_j *)
Definition qp (i j : nat) : quad :=
  match i, j with
  | 0, 0 => Quad 0 0 0 0 1 0 0 0 0 0 | 1, 1 => Quad 0 0 0 0 0 1 0 0 0 0
  | 0, 1 | 1, 0 => Quad 0 0 0 0 0 0 0 1 0 0
  | 0, _ | _, 0 => Quad 0 0 0 0 0 0 0 0 1 0 | 1, _ | _, 1 => Quad 0 0 0 0 0 0 0 0 0 1
  | _, _ => Quad 0 0 0 0 0 0 1 0 0 0
  end%nat.
Lemma entry_madd : forall i j A B, entry i j (madd A B) = entry i j A + entry i j B.
Proof. intros i j A B. unfold entry, madd. destruct i as [|[|i]], j as [|[|j]]; reflexivity. Qed.
Lemma sum_cov_eq : forall i j ts C, (i < 3)%nat -> (j < 3)%nat -> entry i j (fold_left (fun C t => madd C (tri_cov t)) ts C) = entry i j C + moms (qp i j) vzero ts.
Proof.
  intros i j ts C Li Lj. revert C. induction ts as [|[[a b] c] ts IH]; intros C; [unfold moms; cbn; ring|]. cbn [fold_left]. rewrite IH, entry_madd. unfold moms. cbn [map total fold_right]. unfold total. rewrite Rplus_assoc. f_equal. f_equal.
  unfold tri_cov. rewrite six_vol4. unfold mom. generalize (vol4 vzero a b c). intros D. unfold mean4, vzero.
  three i; three j; unfold entry, mscale, mmul, mtrans, c_canonical, mapply, qp; cbn [col comp m0 m1 m2 c0 c1 c2]; unfold vadd, vscale; cbn [c0 c1 c2 k0 kx ky kz kxx kyy kzz kxy kxz kyz]; field.
Qed.
Lemma moms_lin : forall k k1 k2 u q ts, (forall a b c d, mean4 k a b c d = mean4 k1 a b c d + u * mean4 k2 a b c d) -> moms k q ts = moms k1 q ts + u * moms k2 q ts.
Proof.
  intros k k1 k2 u q ts E. unfold moms, total. induction ts as [|[[a b] c] ts IH]; cbn [map fold_right]; [ring|]. rewrite IH. unfold mom. rewrite E. ring.
Qed.
Lemma mesh_inertia_eq : forall i j ts, (i < 3)%nat -> (j < 3)%nat -> entry i j (mesh_inertia ts) = moms (qq i j) vzero ts.
Proof.
  intros i j ts Li Lj. unfold mesh_inertia, sum_cov. set (C := fold_left _ ts mzero).
  assert (E : forall i j, (i < 3)%nat -> (j < 3)%nat -> entry i j C = moms (qp i j) vzero ts).
  { intros i' j' L L'. unfold C. rewrite sum_cov_eq by auto. replace (entry i' j' mzero) with 0 by (three i'; three j'; reflexivity). ring. }
  assert (N : forall i j, (i < 3)%nat -> (j < 3)%nat -> i <> j -> moms (qq i j) vzero ts = - moms (qp i j) vzero ts).
  { intros i' j' L L' D. rewrite (moms_lin _ (qp i' j') (qp i' j') (-2)); [ring|].
    intros. three i'; three j'; try congruence; unfold mean4, qq, qp; cbn [k0 kx ky kz kxx kyy kzz kxy kxz kyz]; field. }
  assert (DG : forall i a b, (i = 0 /\ a = 1 /\ b = 2)%nat \/ (i = 1 /\ a = 0 /\ b = 2)%nat \/ (i = 2 /\ a = 0 /\ b = 1)%nat -> moms (qq i i) vzero ts = moms (qp a a) vzero ts + 1 * moms (qp b b) vzero ts).
  { intros i' a b H. apply moms_lin. intros. destruct H as [(-> & -> & ->)|[(-> & -> & ->)|(-> & -> & ->)]]; unfold mean4, qq, qp; cbn [k0 kx ky kz kxx kyy kzz kxy kxz kyz]; field. }
  destruct (Nat.eq_dec i j) as [->|D].
  - three j; unfold from_cov, entry; cbn [col comp m0 m1 m2 c0 c1 c2]; fold (entry 0 0 C) (entry 1 1 C) (entry 2 2 C).
    + rewrite (DG 0 1 2)%nat by auto. change (c0 (m0 C)) with (entry 0 0 C). change (c1 (m1 C)) with (entry 1 1 C). change (c2 (m2 C)) with (entry 2 2 C). rewrite !E by lia. ring.
    + rewrite (DG 1 0 2)%nat by auto. change (c0 (m0 C)) with (entry 0 0 C). change (c1 (m1 C)) with (entry 1 1 C). change (c2 (m2 C)) with (entry 2 2 C). rewrite !E by lia. ring.
    + rewrite (DG 2 0 1)%nat by auto. change (c0 (m0 C)) with (entry 0 0 C). change (c1 (m1 C)) with (entry 1 1 C). change (c2 (m2 C)) with (entry 2 2 C). rewrite !E by lia. ring.
  - rewrite N, <- E by auto. three i; three j; try congruence; reflexivity.
Qed.

(** ** Meshes: theorems *)
(** The volume, center of mass and inertia of a mesh are the integrals over what it encloses, from
    whatever point the tetrahedra are spanned, when the mesh is closed. *)
Theorem mesh_mass : forall ts q, closed (flat_map sides3 ts) -> mesh_volume ts <> 0 ->
  has_mass (enclosed q ts) (mesh_volume ts) (mesh_com ts) (mesh_inertia ts).
Proof.
  intros ts q C NZ. apply (mass_of_quads _ _ _ _ (fun k => moms k q ts)).
  - apply enclosed_linear.
  - intros k. apply enclosed_quad.
  - rewrite sum_vol. apply moms_apex, C.
  - intros i L. rewrite mesh_com_eq by auto. apply moms_apex, C.
  - intros i j Li Lj. rewrite mesh_inertia_eq by auto. apply moms_apex, C.
Qed.
Print Assumptions mesh_mass.
(** Closed or not, they are the integrals over the tetrahedra spanned with the origin of the frame. *)
Theorem open_mesh_mass : forall ts, mesh_volume ts <> 0 -> has_mass (enclosed vzero ts) (mesh_volume ts) (mesh_com ts) (mesh_inertia ts).
Proof.
  intros ts NZ. apply (mass_of_quads _ _ _ _ (fun k => moms k vzero ts)).
  - apply enclosed_linear. - intros k. apply enclosed_quad. - rewrite sum_vol. reflexivity.
  - intros i L. rewrite mesh_com_eq by auto. reflexivity. - intros i j Li Lj. rewrite mesh_inertia_eq by auto. reflexivity.
Qed.
Print Assumptions open_mesh_mass.
Theorem mesh_rel_com : forall ts q, closed (flat_map sides3 ts) -> mesh_volume ts <> 0 -> forall i j, (i < 3)%nat -> (j < 3)%nat ->
  enclosed q ts (point_inertia (mesh_com ts) i j) (entry i j (rel_com (mesh_inertia ts) (mesh_com ts) (mesh_volume ts))).
Proof. intros ts q C NZ. apply rel_com_correct; [apply enclosed_linear|apply mesh_mass; auto]. Qed.
Print Assumptions mesh_rel_com.
(** Moving a closed mesh keeps the volume and moves the center of mass along. *)
Definition move (d : v3) (t : tri3) : tri3 := let '(a, b, c) := t in (vadd a d, vadd b d, vadd c d).
Lemma vol4_move : forall d a b c, vol4 vzero (vadd a d) (vadd b d) (vadd c d) = vol4 (vneg d) a b c.
Proof. intros. unfold vzero, vneg, vadd. coords. Qed.
Theorem mesh_move : forall ts d, closed (flat_map sides3 ts) -> mesh_volume ts <> 0 ->
  mesh_volume (map (move d) ts) = mesh_volume ts /\ mesh_com (map (move d) ts) = vadd (mesh_com ts) d.
Proof.
  intros ts d C NZ.
  assert (V : mesh_volume (map (move d) ts) = mesh_volume ts).
  { rewrite !sum_vol, <- (moms_apex q1 (vneg d) vzero ts C). unfold moms, total. clear. induction ts as [|[[a b] c] ts IH]; [reflexivity|]. cbn [map fold_right move]. f_equal; [|exact IH].
    unfold mom. rewrite vol4_move. unfold mean4, q1. cbn [k0 kx ky kz kxx kyy kzz kxy kxz kyz]. field. }
  split; auto.
  assert (K : forall i, (i < 3)%nat -> comp i (mesh_com (map (move d) ts)) = comp i (mesh_com ts) + comp i d).
  { intros i L. apply Rmult_eq_reg_l with (mesh_volume ts); auto. rewrite Rmult_plus_distr_l, mesh_com_eq by auto. rewrite <- V at 1. rewrite mesh_com_eq by (auto; rewrite V; auto).
    rewrite sum_vol, <- (moms_apex q1 (vneg d) vzero ts C), <- (moms_apex (qx i) (vneg d) vzero ts C). clear - L.
    unfold moms, total. induction ts as [|[[a b] c] ts IH]; [cbn; ring|]. cbn [map fold_right move]. rewrite IH. unfold mom. rewrite vol4_move. generalize (vol4 (vneg d) a b c). intros D.
    three i; unfold mean4, qx, q1, vneg, vadd, vzero; cbn [k0 kx ky kz kxx kyy kzz kxy kxz kyz comp c0 c1 c2]; field. }
  apply v3_ext; [apply (K 0%nat)|apply (K 1%nat)|apply (K 2%nat)]; lia.
Qed.
Print Assumptions mesh_move.
(** When some point sees all triangles from behind, the volume is positive and the center of mass in
    the convex hull of the corners and that point. *)
Definition corners (ts : list tri3) : list v3 := flat_map (fun t => let '(a, b, c) := t in [a; b; c]) ts.
Theorem mesh_com_inside : forall ts q, closed (flat_map sides3 ts) -> mesh_volume ts <> 0 -> (forall t, In t ts -> 0 <= orient q t) ->
  0 < mesh_volume ts /\ hull (q :: corners ts) (mesh_com ts).
Proof.
  intros ts q C NZ P.
  assert (V : 0 <= mesh_volume ts).
  { rewrite sum_vol, <- (moms_apex q1 q vzero ts C). unfold moms, total. clear - P. induction ts as [|[[a b] c] ts IH]; cbn [map fold_right]; [lra|].
    pose proof (P (a, b, c) (or_introl eq_refl)) as O. cbn [orient] in O. fold (vol4 q a b c) in O. assert (0 <= mom q1 q a b c); [|specialize (IH (fun t H => P t (or_intror H))); lra].
    unfold mom. replace (mean4 q1 q a b c) with 1 by (unfold mean4, q1; cbn [k0 kx ky kz kxx kyy kzz kxy kxz kyz]; field). lra. }
  split; [lra|]. intros u h H. apply Rmult_le_reg_l with (mesh_volume ts); [lra|].
  replace (mesh_volume ts * dot u (mesh_com ts)) with (c0 u * (mesh_volume ts * comp 0 (mesh_com ts)) + c1 u * (mesh_volume ts * comp 1 (mesh_com ts)) + c2 u * (mesh_volume ts * comp 2 (mesh_com ts))) by (unfold dot; cbn [comp]; ring).
  rewrite !mesh_com_eq, sum_vol by (auto; lia). rewrite <- (moms_apex q1 q vzero ts C), <- (moms_apex (qx 0) q vzero ts C), <- (moms_apex (qx 1) q vzero ts C), <- (moms_apex (qx 2) q vzero ts C).
  assert (Hq := H q (or_introl eq_refl)). assert (Hc : forall v, In v (corners ts) -> dot u v <= h) by (intros v I; apply H; right; exact I). clear - P Hq Hc.
  unfold moms, total. induction ts as [|[[a b] c] ts IH]; cbn [map fold_right]; [lra|].
  pose proof (P (a, b, c) (or_introl eq_refl)) as O. cbn [orient] in O. fold (vol4 q a b c) in O.
  specialize (IH (fun t H => P t (or_intror H)) (fun v I => Hc v (in_or_app [a; b; c] _ v (or_intror I)))).
  assert (Ha := Hc a (or_introl eq_refl)). assert (Hb := Hc b (or_intror (or_introl eq_refl))). assert (Hd := Hc c (or_intror (or_intror (or_introl eq_refl)))).
  assert (c0 u * mom (qx 0) q a b c + c1 u * mom (qx 1) q a b c + c2 u * mom (qx 2) q a b c <= mom q1 q a b c * h); [|lra].
  replace (c0 u * mom (qx 0) q a b c + c1 u * mom (qx 1) q a b c + c2 u * mom (qx 2) q a b c) with (vol4 q a b c / 24 * (dot u q + dot u a + dot u b + dot u c)) by (unfold mom, mean4, qx, dot; cbn [k0 kx ky kz kxx kyy kzz kxy kxz kyz comp]; field).
  replace (mom q1 q a b c * h) with (vol4 q a b c / 24 * (4 * h)) by (unfold mom, mean4, q1; cbn [k0 kx ky kz kxx kyy kzz kxy kxz kyz]; field).
  apply Rmult_le_compat_l; lra.
Qed.
Print Assumptions mesh_com_inside.

(** ** Convex *)
Lemma fetch_length : forall vs f l, fetch vs f = Some l -> length l = length f.
Proof. induction f as [|i f IH]; intros l H; cbn in H; [injection H as <-; reflexivity|]. destruct (nth_error vs i); [|discriminate]. destruct (fetch vs f); [|discriminate]. injection H as <-. cbn. f_equal. auto. Qed.
Lemma combine_fst : forall A (l l' : list A), length l = length l' -> map fst (combine l l') = l.
Proof. induction l as [|a l IH]; intros [|b l'] E; cbn in *; try congruence. f_equal. auto. Qed.
Lemma combine_snd : forall A (l l' : list A), length l = length l' -> map snd (combine l l') = l'.
Proof. induction l as [|a l IH]; intros [|b l'] E; cbn in *; try congruence. f_equal. auto. Qed.
Lemma turns_fst : forall A (f : list A), map fst (turns f) = f.
Proof. intros A [|x l]; [reflexivity|]. unfold turns. apply combine_fst. rewrite app_length. cbn. lia. Qed.
Lemma turns_snd : forall A (f : list A), Permutation (map snd (turns f)) f.
Proof. intros A [|x l]; [constructor|]. unfold turns. rewrite combine_snd by (rewrite app_length; cbn; lia). symmetry. apply Permutation_cons_append. Qed.
Lemma fan_sides : forall f, Permutation (flat_map sides3 (fan f)) (turns f ++ map (fun v => (v, face_center f)) f ++ map (fun v => (face_center f, v)) f).
Proof.
  intros f. unfold fan. set (c := face_center f).
  assert (G : forall es : list (v3 * v3), Permutation (flat_map sides3 (map (fun e => (fst e, snd e, c)) es)) (es ++ map (fun v => (v, c)) (map snd es) ++ map (fun v => (c, v)) (map fst es))).
  { induction es as [|[a b] es IH]; [constructor|]. cbn [map flat_map sides3 fst snd app]. apply perm_skip. etransitivity; [apply perm_skip, perm_skip, IH|].
    change (Permutation ([(b, c)] ++ [(c, a)] ++ es ++ map (fun v => (v, c)) (map snd es) ++ map (fun v => (c, v)) (map fst es)) (es ++ ([(b, c)] ++ map (fun v => (v, c)) (map snd es)) ++ ([(c, a)] ++ map (fun v => (c, v)) (map fst es)))).
    set (X := map (fun v => (v, c)) (map snd es)). set (Y := map (fun v => (c, v)) (map fst es)).
    etransitivity; [apply Permutation_app_swap_app|]. etransitivity; [apply Permutation_app_head; apply Permutation_app_swap_app|]. etransitivity; [apply Permutation_app_swap_app|]. apply Permutation_app_head.
    etransitivity; [apply Permutation_app_swap_app|]. rewrite <- app_assoc. apply Permutation_app_head. apply Permutation_app_swap_app. }
  etransitivity; [apply G|]. apply Permutation_app_head. rewrite turns_fst. apply Permutation_app_tail. apply Permutation_map, turns_snd.
Qed.
Lemma map_swap_fan : forall f c, map swap (turns f ++ map (fun v => (v, c)) f ++ map (fun v => (c, v)) f) = map swap (turns f) ++ map (fun v => (c, v)) f ++ map (fun v => (v, c)) f.
Proof. intros f c. rewrite !map_app, !map_map. reflexivity. Qed.
(** When the sides of the faces cancel, so do those of the triangles the loops visit. *)
Lemma fans_closed : forall fs, closed (flat_map turns fs) -> closed (flat_map sides3 (flat_map fan fs)).
Proof.
  intros fs C.
  assert (G : exists S, Permutation (flat_map sides3 (flat_map fan fs)) (flat_map turns fs ++ S) /\ closed S).
  { clear C. induction fs as [|f fs (S & P & Q)]; [exists []; split; constructor|]. cbn [flat_map]. rewrite flat_map_app. set (c := face_center f). set (X := map (fun v => (v, c)) f). set (Y := map (fun v => (c, v)) f).
    exists ((X ++ Y) ++ S). split.
    - etransitivity; [apply Permutation_app; [apply fan_sides|exact P]|]. fold c X Y. rewrite <- !app_assoc. apply Permutation_app_head. rewrite !app_assoc. etransitivity; [apply Permutation_app_tail; apply Permutation_app_comm|]. rewrite <- !app_assoc. reflexivity.
    - unfold closed. rewrite map_app. apply Permutation_app; [|exact Q]. unfold X, Y. rewrite map_app, !map_map. apply Permutation_app_comm. }
  destruct G as (S & P & Q). unfold closed in *. etransitivity; [exact P|]. etransitivity; [|symmetry; apply Permutation_map, P]. rewrite map_app. apply Permutation_app; auto.
Qed.
Lemma entry_mscale : forall i j s A, entry i j (mscale s A) = s * entry i j A.
Proof. intros i j s A. unfold entry, mscale. destruct i as [|[|i]], j as [|[|j]]; reflexivity. Qed.
(** Volume and center of mass of Convex are the integrals; its inertia is the integral divided by
    the volume. *)
Theorem convex_mass : forall vs fs l q, fetch_all vs fs = Some l -> closed (flat_map turns l) ->
  exists ts, convex_tris vs (length fs) (encode fs) = Some ts /\
    (convex_volume ts <> 0 -> has_mass (enclosed q ts) (convex_volume ts) (convex_com ts) (mscale (convex_volume ts) (convex_inertia ts))).
Proof.
  intros vs fs l q F C. exists (flat_map fan l). split; [unfold convex_tris; rewrite decode_encode, F; reflexivity|]. intros NZ.
  set (ts := flat_map fan l) in *. destruct (mesh_mass ts q (fans_closed _ C) NZ) as (A & B & D). split; [exact A|split; [exact B|]].
  intros i j Li Lj. rewrite entry_mscale. unfold convex_inertia. rewrite entry_mscale. replace (convex_volume ts * (6 / sum_six_vol ts * entry i j (from_cov (sum_cov ts)))) with (entry i j (mesh_inertia ts)); [apply D; auto|].
  unfold mesh_inertia. unfold convex_volume, mesh_volume in *. assert (sum_six_vol ts <> 0) by (intros Z; apply NZ; rewrite Z; field). field. auto.
Qed.
Print Assumptions convex_mass.
(** So unless the volume is 1 it is not the inertia, *)
Theorem convex_inertia_refuted : forall vs fs l q ts, fetch_all vs fs = Some l -> closed (flat_map turns l) ->
  convex_tris vs (length fs) (encode fs) = Some ts -> convex_volume ts <> 0 -> convex_volume ts <> 1 ->
  has_mass (enclosed q ts) (convex_volume ts) (convex_com ts) (convex_inertia ts) ->
  forall i j, (i < 3)%nat -> (j < 3)%nat -> enclosed q ts (point_inertia vzero i j) 0.
Proof.
  intros vs fs l q ts F C E NZ N1 (_ & _ & H) i j Li Lj. destruct (convex_mass vs fs l q F C) as (ts' & E' & K). rewrite E in E'. injection E' as <-. destruct (K NZ) as (_ & _ & D).
  pose proof (enclosed_unique _ _ _ _ _ (H i j Li Lj) (D i j Li Lj)) as U. rewrite entry_mscale in U.
  replace 0 with (entry i j (convex_inertia ts)); [apply H; auto|]. apply Rmult_eq_reg_l with (convex_volume ts - 1); lra.
Qed.
Print Assumptions convex_inertia_refuted.
(** as for the tetrahedron between the axes: its inertia about the first is 1/30, Convex says 1/5. *)
Definition tet_vs : list v3 := [vzero; mk3 1 0 0; mk3 0 1 0; mk3 0 0 1].
Definition tet_fs : list (list nat) := [[0; 2; 1]; [0; 1; 3]; [0; 3; 2]; [1; 2; 3]]%nat.
Definition tet_l : list (list v3) := map (map (fun i => nth i tet_vs vzero)) tet_fs.
Lemma tet_fetch : fetch_all tet_vs tet_fs = Some tet_l. Proof. reflexivity. Qed.
Lemma tet_closed : closed (flat_map turns tet_l).
Proof.
  assert (P : Permutation (flat_map turns tet_fs) (map (fun e => (snd e, fst e)) (flat_map turns tet_fs))).
  { apply NoDup_Permutation.
    - cbn. repeat (constructor; [cbn; intuition congruence|]). constructor.
    - cbn. repeat (constructor; [cbn; intuition congruence|]). constructor.
    - intros [a b]. cbn. intuition congruence. }
  exact (Permutation_map (fun e => (nth (fst e) tet_vs vzero, nth (snd e) tet_vs vzero)) P).
Qed.
Definition tet_ts : list tri3 := flat_map fan tet_l.
Lemma tet_six_vol : sum_six_vol tet_ts = 1.
Proof. unfold sum_six_vol, tet_ts, tet_l, tet_fs, tet_vs, fan, turns, face_center. cbn [flat_map map combine app fst snd nth fold_left length INR]. unfold six_vol, dot, cross, vscale, vadd, vzero. cbn [c0 c1 c2]. field. Qed.
Lemma tet_entry : entry 0 0 (mesh_inertia tet_ts) = 1 / 30.
Proof.
  rewrite mesh_inertia_eq by lia. unfold moms, total, tet_ts, tet_l, tet_fs, tet_vs, fan, turns, face_center. cbn [flat_map map combine app fst snd nth fold_left length INR fold_right]. unfold mom, mean4, vol4, qq, det, dot, cross, vsub, vscale, vadd, vzero. cbn [c0 c1 c2 m0 m1 m2 comp k0 kx ky kz kxx kyy kzz kxy kxz kyz]. field.
Qed.
Example ex_tet : convex_tris tet_vs 4 (encode tet_fs) = Some tet_ts /\ convex_volume tet_ts = 1 / 6 /\
  (forall q, enclosed q tet_ts (point_inertia vzero 0 0) (1 / 30)) /\ entry 0 0 (convex_inertia tet_ts) = 1 / 5.
Proof.
  assert (NZ : mesh_volume tet_ts <> 0) by (unfold mesh_volume; rewrite tet_six_vol; lra).
  split; [change 4%nat with (length tet_fs); unfold convex_tris; rewrite decode_encode, tet_fetch; reflexivity|]. split; [unfold convex_volume, mesh_volume; rewrite tet_six_vol; field|]. split.
  - intros q. rewrite <- tet_entry. destruct (mesh_mass tet_ts q (fans_closed _ tet_closed) NZ) as (_ & _ & H). apply H; lia.
  - unfold convex_inertia. rewrite entry_mscale, tet_six_vol. fold (mesh_inertia tet_ts). rewrite tet_entry. field.
Qed.
(** The inertia of Convex about the center of mass, by the common function, is no inertia: about the
    center of mass of the tetrahedron it is 1/80, the function says 43/240. *)
Example ex_tet_rel : (forall q, enclosed q tet_ts (point_inertia (convex_com tet_ts) 0 0) (1 / 80)) /\
  entry 0 0 (rel_com (convex_inertia tet_ts) (convex_com tet_ts) (convex_volume tet_ts)) = 43 / 240.
Proof.
  assert (NZ : mesh_volume tet_ts <> 0) by (unfold mesh_volume; rewrite tet_six_vol; lra).
  assert (E : convex_com tet_ts = mk3 (1 / 4) (1 / 4) (1 / 4)).
  { assert (K : forall i, (i < 3)%nat -> comp i (mesh_com tet_ts) = 1 / 4).
    { intros i L. apply Rmult_eq_reg_l with (mesh_volume tet_ts); auto. rewrite mesh_com_eq by auto. unfold mesh_volume. rewrite tet_six_vol. clear - L.
      unfold moms, total, tet_ts, tet_l, tet_fs, tet_vs, fan, turns, face_center. cbn [flat_map map combine app fst snd nth fold_left length INR fold_right]. unfold mom, mean4, vol4, det, dot, cross, vsub, vscale, vadd, vzero. cbn [c0 c1 c2 m0 m1 m2 comp].
      three i; unfold qx; cbn [k0 kx ky kz kxx kyy kzz kxy kxz kyz]; field. }
    unfold convex_com. apply v3_ext; [apply (K 0%nat)|apply (K 1%nat)|apply (K 2%nat)]; lia. }
  split.
  - intros q. pose proof (mesh_rel_com tet_ts q (fans_closed _ tet_closed) NZ 0 0 ltac:(lia) ltac:(lia)) as H.
    replace (1 / 80) with (entry 0 0 (rel_com (mesh_inertia tet_ts) (mesh_com tet_ts) (mesh_volume tet_ts))); [exact H|]. fold convex_com. rewrite E.
    replace (entry 0 0 (rel_com (mesh_inertia tet_ts) (mk3 (1 / 4) (1 / 4) (1 / 4)) (mesh_volume tet_ts))) with (entry 0 0 (mesh_inertia tet_ts) - mesh_volume tet_ts * (1 / 4 * (1 / 4) + 1 / 4 * (1 / 4))) by reflexivity.
    rewrite tet_entry. unfold mesh_volume. rewrite tet_six_vol. field.
  - rewrite E. replace (entry 0 0 (rel_com (convex_inertia tet_ts) (mk3 (1 / 4) (1 / 4) (1 / 4)) (convex_volume tet_ts))) with (entry 0 0 (convex_inertia tet_ts) - mesh_volume tet_ts * (1 / 4 * (1 / 4) + 1 / 4 * (1 / 4))) by reflexivity.
    destruct ex_tet as (_ & _ & _ & ->). unfold mesh_volume. rewrite tet_six_vol. field.
Qed.
(** The center of mass of the tetrahedron is in it. *)
Example ex_tet_com : hull (mk3 (1 / 4) (1 / 4) (1 / 4) :: corners tet_ts) (mesh_com tet_ts).
Proof.
  apply mesh_com_inside; [apply fans_closed, tet_closed|unfold mesh_volume; rewrite tet_six_vol; lra|].
  intros t Ht. unfold tet_ts, tet_l, tet_fs, tet_vs, fan, turns, face_center in Ht. cbn [flat_map map combine app fst snd nth fold_left length INR In] in Ht.
  repeat destruct Ht as [<-|Ht]; try contradiction; unfold orient, det, dot, cross, vsub, vscale, vadd, vzero; cbn [c0 c1 c2 m0 m1 m2]; lra.
Qed.
