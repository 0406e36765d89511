(** C24: Morton codes. *)
From Coq Require Import ZArith List Bool Lia Reals R_Ifp Lra.
From Verif Require Import VecR Morton.
Import ListNotations.
Local Open Scope Z_scope.

(** Bit i of x, y, z is bit 3 i, 3 i + 1, 3 i + 2 of the code, and the code has no other bits. *)
Theorem morton_code_bits : forall x y z i, 0 <= x < 1024 -> 0 <= y < 1024 -> 0 <= z < 1024 -> 0 <= i ->
  Z.testbit (morton_code x y z) (3 * i) = Z.testbit x i /\
  Z.testbit (morton_code x y z) (3 * i + 1) = Z.testbit y i /\
  Z.testbit (morton_code x y z) (3 * i + 2) = Z.testbit z i /\
  0 <= morton_code x y z < 2 ^ 30.
Proof.
  intros x y z i Hx Hy Hz Hi. rewrite morton_code_spec by auto.
  destruct (interleave_bits 10 x y z i) as (A & B & C); auto. repeat split; auto; apply (interleave_range 10).
Qed.
Print Assumptions morton_code_bits.

Theorem morton_code60_bits : forall x y z i, 0 <= x < 2 ^ 20 -> 0 <= y < 2 ^ 20 -> 0 <= z < 2 ^ 20 -> 0 <= i ->
  Z.testbit (morton_code60 x y z) (3 * i) = Z.testbit x i /\
  Z.testbit (morton_code60 x y z) (3 * i + 1) = Z.testbit y i /\
  Z.testbit (morton_code60 x y z) (3 * i + 2) = Z.testbit z i /\
  0 <= morton_code60 x y z < 2 ^ 60.
Proof.
  intros x y z i Hx Hy Hz Hi. rewrite morton_code60_spec by auto.
  destruct (interleave_bits 20 x y z i) as (A & B & C); auto. repeat split; auto; apply (interleave_range 20).
Qed.
Print Assumptions morton_code60_bits.

(** Codes are injective and monotone in each coordinate. *)
Theorem morton_code_injective : forall x y z x' y' z',
  0 <= x < 1024 -> 0 <= y < 1024 -> 0 <= z < 1024 -> 0 <= x' < 1024 -> 0 <= y' < 1024 -> 0 <= z' < 1024 ->
  morton_code x y z = morton_code x' y' z' -> x = x' /\ y = y' /\ z = z'.
Proof. intros x y z x' y' z' ? ? ? ? ? ?. rewrite !morton_code_spec by auto. apply (interleave_inj 10); auto. Qed.
Print Assumptions morton_code_injective.
Theorem morton_code60_injective : forall x y z x' y' z',
  0 <= x < 2 ^ 20 -> 0 <= y < 2 ^ 20 -> 0 <= z < 2 ^ 20 -> 0 <= x' < 2 ^ 20 -> 0 <= y' < 2 ^ 20 -> 0 <= z' < 2 ^ 20 ->
  morton_code60 x y z = morton_code60 x' y' z' -> x = x' /\ y = y' /\ z = z'.
Proof. intros x y z x' y' z' ? ? ? ? ? ?. rewrite !morton_code60_spec by auto. apply (interleave_inj 20); auto. Qed.
Print Assumptions morton_code60_injective.
Theorem morton_code_monotone : forall x y z x' y' z',
  0 <= x <= x' -> 0 <= y <= y' -> 0 <= z <= z' -> x' < 1024 -> y' < 1024 -> z' < 1024 ->
  morton_code x y z <= morton_code x' y' z'.
Proof.
  intros x y z x' y' z' ? ? ? ? ? ?. rewrite !morton_code_spec by lia.
  apply (interleave_mono 10); change (2 ^ Z.of_nat 10) with 1024; lia.
Qed.
Print Assumptions morton_code_monotone.
Theorem morton_code60_monotone : forall x y z x' y' z',
  0 <= x <= x' -> 0 <= y <= y' -> 0 <= z <= z' -> x' < 2 ^ 20 -> y' < 2 ^ 20 -> z' < 2 ^ 20 ->
  morton_code60 x y z <= morton_code60 x' y' z'.
Proof.
  intros x y z x' y' z' ? ? ? ? ? ?. rewrite !morton_code60_spec by lia.
  apply (interleave_mono 20); change (2 ^ Z.of_nat 20) with (2 ^ 20); lia.
Qed.
Print Assumptions morton_code60_monotone.

(** quantize maps [0,1] monotonically into 0 .. n-1, cutting it into n cells of equal length. *)
Theorem quantize_cells : forall x n, (0 <= x <= 1)%R -> 0 < n < 2 ^ 32 ->
  exists q, quantize x n = Some q /\ 0 <= q <= n - 1 /\
    (IZR q <= x * IZR n)%R /\ (x < 1 -> x * IZR n < IZR q + 1)%R /\ (x = 1%R -> q = n - 1).
Proof.
  intros x n Hx Hn. assert (Pn : (0 < IZR n)%R) by (apply IZR_lt; lia). rewrite quantize_unit by auto.
  eexists. split; [reflexivity|]. destruct (Int_part_bounds (x * IZR n)) as [A B].
  assert (0 <= Int_part (x * IZR n)) by (apply Int_part_nonneg, Rmult_le_pos; lra).
  split; [lia|]. split; [|split].
  - destruct (Z.min_spec (Int_part (x * IZR n)) (n - 1)) as [[_ ->]|[L ->]]; auto. apply IZR_le in L. lra.
  - intros Hx1. assert (x * IZR n < IZR n)%R by (rewrite <- (Rmult_1_l (IZR n)) at 2; apply Rmult_lt_compat_r; lra).
    assert (Int_part (x * IZR n) < n) by (apply lt_IZR; lra). rewrite Z.min_l by lia. auto.
  - intros ->. rewrite Rmult_1_l in *. rewrite (Int_part_unique (IZR n) n) by lra. lia.
Qed.
Print Assumptions quantize_cells.
Theorem quantize_monotone : forall x x' n, (0 <= x <= x')%R -> (x' <= 1)%R -> 0 < n < 2 ^ 32 ->
  exists q q', quantize x n = Some q /\ quantize x' n = Some q' /\ q <= q'.
Proof.
  intros x x' n Hx Hx' Hn. assert (Pn : (0 < IZR n)%R) by (apply IZR_lt; lia).
  rewrite !quantize_unit by (auto; lra). eexists _, _. split; [reflexivity|]. split; [reflexivity|].
  assert (Int_part (x * IZR n) <= Int_part (x' * IZR n)); [|lia]. apply Int_part_mono, Rmult_le_compat_r; lra.
Qed.
Print Assumptions quantize_monotone.

(** Outside [0,1] the guard max(..., 0) comes too late: the conversion to uint32 has already
    happened, and is undefined for values of -1/n and below. *)
Theorem quantize_negative_refuted : forall x n, 0 < n -> (x <= - / IZR n)%R -> quantize x n = None.
Proof.
  intros x n Hn Hx. assert (Pn : (0 < IZR n)%R) by (apply IZR_lt; lia). unfold quantize, to_uint32.
  assert (x * IZR n <= -1)%R.
  { replace (-1)%R with (- / IZR n * IZR n)%R by (field; lra). apply Rmult_le_compat_r; lra. }
  destruct (Rlt_dec (-1) (x * IZR n)) as [L|_]; [lra|]. reflexivity.
Qed.
Print Assumptions quantize_negative_refuted.

(** ** The functors *)

Definition inside (lo hi p : v3) : Prop :=
  (c0 lo <= c0 p <= c0 hi /\ c1 lo <= c1 p <= c1 hi /\ c2 lo <= c2 p <= c2 hi)%R.
Definition solid (lo hi : v3) : Prop := (c0 lo < c0 hi /\ c1 lo < c1 hi /\ c2 lo < c2 hi)%R.

Lemma unit_coord_spec lo hi p : (lo < hi)%R -> (lo <= p <= hi)%R ->
  exists u, unit_coord lo hi p = Some u /\ u = ((p - lo) / (hi - lo))%R /\ (0 <= u <= 1)%R.
Proof.
  intros L H. unfold unit_coord. destruct (Req_EM_T (hi - lo) 0) as [E|_]; [lra|]. eexists. split; [reflexivity|].
  split; [field; lra|]. assert (P : (0 < / (hi - lo))%R) by (apply Rinv_0_lt_compat; lra).
  replace (1 / (hi - lo))%R with (/ (hi - lo))%R by (field; lra). split; [apply Rmult_le_pos; lra|].
  rewrite <- (Rinv_r (hi - lo)) by lra. apply Rmult_le_compat_r; lra.
Qed.
Lemma unit_coord_mono lo hi p p' u u' : (lo < hi)%R -> unit_coord lo hi p = Some u -> unit_coord lo hi p' = Some u' ->
  (p <= p')%R -> (u <= u')%R.
Proof.
  intros L. unfold unit_coord. destruct (Req_EM_T (hi - lo) 0) as [E|_]; [lra|]. intros E1 E2 H. injection E1 as <-. injection E2 as <-.
  assert (P : (0 < / (hi - lo))%R) by (apply Rinv_0_lt_compat; lra).
  replace (1 / (hi - lo))%R with (/ (hi - lo))%R by (field; lra). apply Rmult_le_compat_r; lra.
Qed.

Lemma coded_unit n code lo hi p : 0 < n < 2 ^ 32 -> solid lo hi -> inside lo hi p ->
  exists ux uy uz qx qy qz,
    unit_coord (c0 lo) (c0 hi) (c0 p) = Some ux /\ unit_coord (c1 lo) (c1 hi) (c1 p) = Some uy /\ unit_coord (c2 lo) (c2 hi) (c2 p) = Some uz /\
    (0 <= ux <= 1 /\ 0 <= uy <= 1 /\ 0 <= uz <= 1)%R /\
    quantize ux n = Some qx /\ quantize uy n = Some qy /\ quantize uz n = Some qz /\
    (0 <= qx <= n - 1 /\ 0 <= qy <= n - 1 /\ 0 <= qz <= n - 1) /\
    coded n code lo hi p = Some (code qx qy qz).
Proof.
  intros Hn (S0 & S1 & S2) (I0 & I1 & I2).
  destruct (unit_coord_spec _ _ _ S0 I0) as (ux & Ex & _ & Rx). destruct (unit_coord_spec _ _ _ S1 I1) as (uy & Ey & _ & Ry).
  destruct (unit_coord_spec _ _ _ S2 I2) as (uz & Ez & _ & Rz).
  destruct (quantize_cells ux n Rx Hn) as (qx & Fx & Gx & _). destruct (quantize_cells uy n Ry Hn) as (qy & Fy & Gy & _).
  destruct (quantize_cells uz n Rz Hn) as (qz & Fz & Gz & _).
  exists ux, uy, uz, qx, qy, qz. repeat (split; [assumption||tauto|]). unfold coded. rewrite Ex, Ey, Ez. cbn [bind].
  rewrite Fx, Fy, Fz. reflexivity.
Qed.
Lemma coded_mono n code lo hi p p' c c' : 0 < n < 2 ^ 32 -> solid lo hi -> inside lo hi p -> inside lo hi p' ->
  (forall x y z x' y' z', 0 <= x <= x' -> 0 <= y <= y' -> 0 <= z <= z' -> x' < n -> y' < n -> z' < n -> code x y z <= code x' y' z') ->
  (c0 p <= c0 p' /\ c1 p <= c1 p' /\ c2 p <= c2 p')%R -> coded n code lo hi p = Some c -> coded n code lo hi p' = Some c' -> c <= c'.
Proof.
  intros Hn HS HI HI' HM (L0 & L1 & L2) E E'.
  destruct (coded_unit n code lo hi p Hn HS HI) as (ux & uy & uz & qx & qy & qz & U0 & U1 & U2 & (B0 & B1 & B2) & Q0 & Q1 & Q2 & (G0 & G1 & G2) & C).
  destruct (coded_unit n code lo hi p' Hn HS HI') as (ux' & uy' & uz' & qx' & qy' & qz' & U0' & U1' & U2' & (B0' & B1' & B2') & Q0' & Q1' & Q2' & (G0' & G1' & G2') & C').
  rewrite C in E. rewrite C' in E'. injection E as <-. injection E' as <-. destruct HS as (S0 & S1 & S2).
  pose proof (unit_coord_mono _ _ _ _ _ _ S0 U0 U0' L0). pose proof (unit_coord_mono _ _ _ _ _ _ S1 U1 U1' L1). pose proof (unit_coord_mono _ _ _ _ _ _ S2 U2 U2' L2).
  destruct (quantize_monotone ux ux' n) as (a & a' & A1 & A2 & A3); try lra; auto.
  destruct (quantize_monotone uy uy' n) as (b & b' & D1 & D2 & D3); try lra; auto.
  destruct (quantize_monotone uz uz' n) as (d & d' & F1 & F2 & F3); try lra; auto.
  assert (qx <= qx' /\ qy <= qy' /\ qz <= qz') by (repeat split; congruence). apply HM; lia.
Qed.

(** Points of a box with extent on every axis have a 30-bit code, and the code grows with each coordinate. *)
Theorem functor32_total : forall lo hi p, solid lo hi -> inside lo hi p -> exists c, functor32 lo hi p = Some c /\ 0 <= c < 2 ^ 30.
Proof.
  intros lo hi p HS HI. destruct (coded_unit 1024 morton_code lo hi p ltac:(lia) HS HI)
    as (ux & uy & uz & qx & qy & qz & U0 & U1 & U2 & B & Q0 & Q1 & Q2 & (G0 & G1 & G2) & C).
  exists (morton_code qx qy qz). split; auto. apply (morton_code_bits qx qy qz 0); lia.
Qed.
Print Assumptions functor32_total.
Theorem functor32_monotone : forall lo hi p p' c c', solid lo hi -> inside lo hi p -> inside lo hi p' ->
  (c0 p <= c0 p' /\ c1 p <= c1 p' /\ c2 p <= c2 p')%R -> functor32 lo hi p = Some c -> functor32 lo hi p' = Some c' -> c <= c'.
Proof.
  intros lo hi p p' c c' HS HI HI' HL. apply coded_mono; auto; [lia|]. intros. apply morton_code_monotone; auto.
Qed.
Print Assumptions functor32_monotone.
Theorem functor64_total : forall lo hi p, solid lo hi -> inside lo hi p -> exists c, functor64 lo hi p = Some c /\ 0 <= c < 2 ^ 60.
Proof.
  intros lo hi p HS HI. destruct (coded_unit (2 ^ 20) morton_code60 lo hi p ltac:(lia) HS HI)
    as (ux & uy & uz & qx & qy & qz & U0 & U1 & U2 & B & Q0 & Q1 & Q2 & (G0 & G1 & G2) & C).
  exists (morton_code60 qx qy qz). split; auto. apply (morton_code60_bits qx qy qz 0); lia.
Qed.
Print Assumptions functor64_total.
Theorem functor64_monotone : forall lo hi p p' c c', solid lo hi -> inside lo hi p -> inside lo hi p' ->
  (c0 p <= c0 p' /\ c1 p <= c1 p' /\ c2 p <= c2 p')%R -> functor64 lo hi p = Some c -> functor64 lo hi p' = Some c' -> c <= c'.
Proof.
  intros lo hi p p' c c' HS HI HI' HL. apply coded_mono; auto; [lia|]. intros. apply morton_code60_monotone; auto.
Qed.
Print Assumptions functor64_monotone.

(** The bitset functor with 3 k bits computes the same interleaving of the same quantized
    coordinates; with 30 and 60 bits it agrees with the integer functors. *)
Theorem functor_bitset_agrees : forall lo hi p, solid lo hi -> inside lo hi p ->
  functor_bitset 10 lo hi p = functor32 lo hi p /\ functor_bitset 20 lo hi p = functor64 lo hi p.
Proof.
  intros lo hi p HS HI.
  assert (Q : forall k u, (0 <= u <= 1)%R -> quantize u (2 ^ Z.of_nat k) = Some (quant k (2 * u)) \/ ~ 0 < 2 ^ Z.of_nat k < 2 ^ 32).
  { intros k u Hu. destruct (Z_lt_dec (2 ^ Z.of_nat k) (2 ^ 32)) as [L|L]; [left|right; lia].
    rewrite quantize_unit by (auto; lia). unfold quant. replace (2 * u / 2)%R with u by field. reflexivity. }
  assert (G : forall k code, 0 < 2 ^ Z.of_nat k < 2 ^ 32 ->
    (forall x y z, 0 <= x < 2 ^ Z.of_nat k -> 0 <= y < 2 ^ Z.of_nat k -> 0 <= z < 2 ^ Z.of_nat k -> code x y z = interleave k x y z) ->
    functor_bitset k lo hi p = coded (2 ^ Z.of_nat k) code lo hi p).
  { intros k code Hk Hcode. destruct (coded_unit (2 ^ Z.of_nat k) code lo hi p Hk HS HI)
      as (ux & uy & uz & qx & qy & qz & U0 & U1 & U2 & (B0 & B1 & B2) & Q0 & Q1 & Q2 & (G0 & G1 & G2) & C).
    rewrite C. unfold functor_bitset. rewrite U0, U1, U2. cbn [bind]. f_equal.
    rewrite bitset_loop_spec by lra. rewrite Hcode by lia. rewrite Z.mul_0_l, Z.add_0_l.
    destruct (Q k ux B0) as [E|]; [|contradiction]. rewrite E in Q0. injection Q0 as <-.
    destruct (Q k uy B1) as [E1|]; [|contradiction]. rewrite E1 in Q1. injection Q1 as <-.
    destruct (Q k uz B2) as [E2|]; [|contradiction]. rewrite E2 in Q2. injection Q2 as <-. reflexivity. }
  split; [apply (G 10%nat)|apply (G 20%nat)]; try (cbn; lia); intros; [apply morton_code_spec|apply morton_code60_spec]; auto.
Qed.
Print Assumptions functor_bitset_agrees.

(** A box without extent on some axis has no codes: the functors convert a NaN or an infinity to
    uint32.  HierarchyTree::init_1/2/3 (hierarchy_tree-inl.h:546-619) call the functor with the union of
    the leaf boxes, so a set of coplanar flat boxes triggers it. *)
Theorem functor_flat_refuted : forall lo hi p, c0 lo = c0 hi \/ c1 lo = c1 hi \/ c2 lo = c2 hi ->
  functor32 lo hi p = None /\ functor64 lo hi p = None.
Proof.
  assert (U : forall a p, unit_coord a a p = None).
  { intros a p. unfold unit_coord. destruct (Req_EM_T (a - a) 0); auto. lra. }
  intros lo hi p H. unfold functor32, functor64, coded.
  destruct H as [E|[E|E]]; rewrite E, ?U; cbn [bind]; auto;
    repeat match goal with |- context [bind ?x _] => destruct x; cbn [bind]; auto end.
Qed.
Print Assumptions functor_flat_refuted.

Example morton_case : morton_code 5 3 1 = 87 /\ morton_code 1023 1023 1023 = 2 ^ 30 - 1 /\
  morton_code60 (2 ^ 20 - 1) 0 1024 = 0x249249349249249.
Proof. vm_compute. auto. Qed.
Example quantize_case : quantize (1 / 2) 1024 = Some 512 /\ quantize 1 1024 = Some 1023.
Proof.
  split; rewrite quantize_unit by (try lra; lia); f_equal.
  - rewrite (Int_part_unique _ 512) by lra. reflexivity.
  - rewrite (Int_part_unique _ 1024) by lra. reflexivity.
Qed.
