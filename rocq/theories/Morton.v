(** Morton codes: src/broadphase/detail/morton.cpp (MC below) and
    include/fcl/broadphase/detail/morton-inl.h (MI below).
    Points are exact reals; uint32 and uint64 are integers reduced modulo 2^32 and 2^64.
    [None] is undefined behaviour: a conversion to uint32 of a value outside its range,
    infinite or NaN. *)
From Coq Require Import ZArith List Bool Lia Reals R_Ifp Lra.
From Verif Require Import VecR.
Import ListNotations.
Local Open Scope Z_scope.

Definition u32 (x : Z) : Z := Z.land x (Z.ones 32).
Definition u64 (x : Z) : Z := Z.land x (Z.ones 64).
(** [(x | (x << k)) & mask] on uint32. *)
Definition smear (x k mask : Z) : Z := Z.land (Z.lor x (u32 (Z.shiftl x k))) mask.
(** The four lines for one coordinate, MC:57-60 (and 62-65, 67-70). *)
Definition spread (x : Z) : Z :=
  smear (smear (smear (smear x 16 0x030000FF) 8 0x0300F00F) 4 0x030C30C3) 2 0x09249249.
(** morton_code, MC:55-73. *)
Definition morton_code (x y z : Z) : Z :=
  Z.lor (Z.lor (spread x) (u32 (Z.shiftl (spread y) 1))) (u32 (Z.shiftl (spread z) 2)).
(** morton_code60, MC:76-87. *)
Definition morton_code60 (x y z : Z) : Z :=
  Z.lor (u64 (Z.shiftl (morton_code (Z.shiftr x 10) (Z.shiftr y 10) (Z.shiftr z 10)) 30))
        (morton_code (Z.land x 1023) (Z.land y 1023) (Z.land z 1023)).

(** (uint32) of a floating-point value: truncation, undefined unless -1 < v < 2^32. *)
Definition to_uint32 (v : R) : option Z :=
  if Rlt_dec (-1) v then
    if Rlt_dec v (IZR (2 ^ 32)) then Some (if Rlt_dec v 0 then 0 else Int_part v) else None
  else None.
(** quantize, MI:62-66. *)
Definition quantize (x : R) (n : Z) : option Z :=
  option_map (fun q => Z.max (Z.min q (u32 (n - 1))) 0) (to_uint32 (x * IZR n)).

(** [(point[i] - base[i]) * inv[i]] with [inv[i] = 1.0 / (max[i] - min[i])], MI:70-78: not a
    number when the box has no extent on the axis. *)
Definition unit_coord (lo hi p : R) : option R :=
  if Req_EM_T (hi - lo) 0 then None else Some ((p - lo) * (1 / (hi - lo)))%R.
Definition bind {A B} (o : option A) (f : A -> option B) : option B :=
  match o with Some a => f a | None => None end.
(** The body shared by the two integer functors. *)
Definition coded (n : Z) (code : Z -> Z -> Z -> Z) (lo hi p : v3) : option Z :=
  bind (bind (unit_coord (c0 lo) (c0 hi) (c0 p)) (fun u => quantize u n)) (fun x =>
  bind (bind (unit_coord (c1 lo) (c1 hi) (c1 p)) (fun u => quantize u n)) (fun y =>
  bind (bind (unit_coord (c2 lo) (c2 hi) (c2 p)) (fun u => quantize u n)) (fun z =>
  Some (code x y z)))).
(** morton_functor<S, uint32>::operator(), MI:82-90. *)
Definition functor32 : v3 -> v3 -> v3 -> option Z := coded 1024 morton_code.
(** morton_functor<S, uint64>::operator(), MI:104-112. *)
Definition functor64 : v3 -> v3 -> v3 -> option Z := coded (2 ^ 20) morton_code60.

(** morton_functor<S, std::bitset<N>>::operator(), MI:136-165, N = 3 k: the loop, on coordinates
    already doubled; the bits are set from the highest down, [acc] is the number they spell. *)
Definition top_bit (x : R) : Z := if Rlt_dec x 1 then 0 else 1.
Definition next_coord (x : R) : R := (if Rle_dec 1 x then 2 * (x - 1) else 2 * x)%R.
Fixpoint bitset_loop (k : nat) (x y z : R) (acc : Z) : Z :=
  match k with
  | O => acc
  | S k => bitset_loop k (next_coord x) (next_coord y) (next_coord z)
             (2 * (2 * (2 * acc + top_bit z) + top_bit y) + top_bit x)
  end.
Definition functor_bitset (k : nat) (lo hi p : v3) : option Z :=
  bind (unit_coord (c0 lo) (c0 hi) (c0 p)) (fun x =>
  bind (unit_coord (c1 lo) (c1 hi) (c1 p)) (fun y =>
  bind (unit_coord (c2 lo) (c2 hi) (c2 p)) (fun z =>
  Some (bitset_loop k (2 * x) (2 * y) (2 * z) 0)))).

(** ** Specification *)

(** The number whose bits 3 i, 3 i + 1, 3 i + 2 are bit i of x, y, z, for i < n. *)
Fixpoint interleave (n : nat) (x y z : Z) : Z :=
  match n with
  | O => 0
  | S n => x mod 2 + 2 * (y mod 2) + 4 * (z mod 2) + 8 * interleave n (x / 2) (y / 2) (z / 2)
  end.

(** ** Lemmas *)

Lemma mod2 x : 0 <= x mod 2 < 2. Proof. apply Z.mod_pos_bound; lia. Qed.
Lemma pow2_S n : 2 ^ Z.of_nat (S n) = 2 * 2 ^ Z.of_nat n.
Proof. rewrite Nat2Z.inj_succ, Z.pow_succ_r; lia. Qed.
Lemma pow8_S n : 8 ^ Z.of_nat (S n) = 8 * 8 ^ Z.of_nat n.
Proof. rewrite Nat2Z.inj_succ, Z.pow_succ_r; lia. Qed.
Lemma interleave_range n : forall x y z, 0 <= interleave n x y z < 8 ^ Z.of_nat n.
Proof.
  induction n as [|n IH]; intros x y z; [cbn; lia|]. rewrite pow8_S. cbn [interleave].
  specialize (IH (x / 2) (y / 2) (z / 2)). pose proof (mod2 x). pose proof (mod2 y). pose proof (mod2 z). lia.
Qed.
Lemma half_range n x : 0 <= x < 2 ^ Z.of_nat (S n) -> 0 <= x / 2 < 2 ^ Z.of_nat n.
Proof.
  rewrite pow2_S. intros H. split; [apply Z.div_pos; lia|]. apply Z.div_lt_upper_bound; lia.
Qed.
Lemma interleave_inj n : forall x y z x' y' z',
  0 <= x < 2 ^ Z.of_nat n -> 0 <= y < 2 ^ Z.of_nat n -> 0 <= z < 2 ^ Z.of_nat n ->
  0 <= x' < 2 ^ Z.of_nat n -> 0 <= y' < 2 ^ Z.of_nat n -> 0 <= z' < 2 ^ Z.of_nat n ->
  interleave n x y z = interleave n x' y' z' -> x = x' /\ y = y' /\ z = z'.
Proof.
  induction n as [|n IH]; intros x y z x' y' z' Hx Hy Hz Hx' Hy' Hz' E; [cbn in *; lia|]. cbn [interleave] in E.
  pose proof (mod2 x). pose proof (mod2 y). pose proof (mod2 z). pose proof (mod2 x'). pose proof (mod2 y'). pose proof (mod2 z').
  destruct (IH (x / 2) (y / 2) (z / 2) (x' / 2) (y' / 2) (z' / 2)) as (A & B & C); try (apply half_range; assumption); [lia|].
  pose proof (Z.div_mod x 2). pose proof (Z.div_mod y 2). pose proof (Z.div_mod z 2).
  pose proof (Z.div_mod x' 2). pose proof (Z.div_mod y' 2). pose proof (Z.div_mod z' 2). lia.
Qed.
(** Contributions of the coordinates add up. *)
Lemma interleave_split n : forall x y z, interleave n x y z = interleave n x 0 0 + 2 * interleave n y 0 0 + 4 * interleave n z 0 0.
Proof.
  induction n as [|n IH]; intros x y z; cbn [interleave]; auto.
  rewrite (IH (x / 2) (y / 2) (z / 2)). change (0 mod 2) with 0. change (0 / 2) with 0. lia.
Qed.
Lemma interleave_mono1 n : forall x x', 0 <= x < 2 ^ Z.of_nat n -> 0 <= x' < 2 ^ Z.of_nat n -> x < x' ->
  interleave n x 0 0 < interleave n x' 0 0.
Proof.
  induction n as [|n IH]; intros x x' Hx Hx' L; [cbn in *; lia|]. cbn [interleave]. change (0 mod 2) with 0. change (0 / 2) with 0.
  pose proof (mod2 x). pose proof (mod2 x'). pose proof (Z.div_mod x 2). pose proof (Z.div_mod x' 2).
  destruct (Z.lt_trichotomy (x / 2) (x' / 2)) as [T|[T|T]].
  - specialize (IH (x / 2) (x' / 2) (half_range _ _ Hx) (half_range _ _ Hx') T). lia.
  - rewrite T in *. lia.
  - lia.
Qed.
Lemma interleave_mono n x y z x' y' z' :
  0 <= x < 2 ^ Z.of_nat n -> 0 <= y < 2 ^ Z.of_nat n -> 0 <= z < 2 ^ Z.of_nat n ->
  0 <= x' < 2 ^ Z.of_nat n -> 0 <= y' < 2 ^ Z.of_nat n -> 0 <= z' < 2 ^ Z.of_nat n ->
  x <= x' -> y <= y' -> z <= z' -> interleave n x y z <= interleave n x' y' z'.
Proof.
  intros Hx Hy Hz Hx' Hy' Hz' Lx Ly Lz. rewrite (interleave_split n x), (interleave_split n x').
  assert (G : forall u v, 0 <= u < 2 ^ Z.of_nat n -> 0 <= v < 2 ^ Z.of_nat n -> u <= v -> interleave n u 0 0 <= interleave n v 0 0).
  { intros u v Hu Hv L. destruct (Z.eq_dec u v) as [->|N]; [lia|]. apply Z.lt_le_incl, interleave_mono1; auto. lia. }
  pose proof (G x x' Hx Hx' Lx). pose proof (G y y' Hy Hy' Ly). pose proof (G z z' Hz Hz' Lz). lia.
Qed.
(** The bits. *)
Lemma testbit_8 a b i : 0 <= a < 8 -> 0 <= i -> Z.testbit (a + 8 * b) i = if i <? 3 then Z.testbit a i else Z.testbit b (i - 3).
Proof.
  intros Ha Hi. replace (a + 8 * b) with (a + b * 2 ^ 3) by lia. destruct (Z.ltb_spec i 3) as [L|L].
  - rewrite <- (Z.mod_pow2_bits_low (a + b * 2 ^ 3) 3 i), <- (Z.mod_pow2_bits_low a 3 i) by lia.
    rewrite Z.mod_add by lia. auto.
  - replace i with ((i - 3) + 3) at 1 by lia. rewrite <- Z.div_pow2_bits by lia. rewrite Z.div_add by lia.
    rewrite Z.div_small by lia. auto.
Qed.
Lemma interleave_bits n : forall x y z i, 0 <= x < 2 ^ Z.of_nat n -> 0 <= y < 2 ^ Z.of_nat n -> 0 <= z < 2 ^ Z.of_nat n -> 0 <= i ->
  Z.testbit (interleave n x y z) (3 * i) = Z.testbit x i /\
  Z.testbit (interleave n x y z) (3 * i + 1) = Z.testbit y i /\
  Z.testbit (interleave n x y z) (3 * i + 2) = Z.testbit z i.
Proof.
  induction n as [|n IH]; intros x y z i Hx Hy Hz Hi.
  - cbn in Hx, Hy, Hz. assert (x = 0) by lia. assert (y = 0) by lia. assert (z = 0) by lia. subst. cbn. rewrite !Z.testbit_0_l. auto.
  - cbn [interleave]. pose proof (mod2 x) as Mx. pose proof (mod2 y) as My. pose proof (mod2 z) as Mz.
    rewrite !testbit_8 by lia.
    destruct (Z.eq_dec i 0) as [->|N].
    + cbn [Z.mul Z.add Z.ltb Z.compare Pos.compare Pos.compare_cont].
      rewrite <- !Z.bit0_mod. destruct (Z.testbit x 0), (Z.testbit y 0), (Z.testbit z 0); cbn; auto.
    + destruct (Z.ltb_spec (3 * i) 3); [lia|]. destruct (Z.ltb_spec (3 * i + 1) 3); [lia|]. destruct (Z.ltb_spec (3 * i + 2) 3); [lia|].
      replace (3 * i - 3) with (3 * (i - 1)) by lia. replace (3 * i + 1 - 3) with (3 * (i - 1) + 1) by lia.
      replace (3 * i + 2 - 3) with (3 * (i - 1) + 2) by lia.
      destruct (IH (x / 2) (y / 2) (z / 2) (i - 1)) as (A & B & C); try (apply half_range; assumption); [lia|].
      rewrite A, B, C. rewrite !Z.div2_bits by lia. replace (Z.succ (i - 1)) with i by lia. auto.
Qed.
(** A number is determined by its bits in threes. *)
Lemma bits3 a b : 0 <= a -> 0 <= b -> (forall i, 0 <= i -> Z.testbit a (3 * i) = Z.testbit b (3 * i) /\
  Z.testbit a (3 * i + 1) = Z.testbit b (3 * i + 1) /\ Z.testbit a (3 * i + 2) = Z.testbit b (3 * i + 2)) -> a = b.
Proof.
  intros Ha Hb H. apply Z.bits_inj'. intros j Hj. pose proof (Z.div_mod j 3 ltac:(lia)) as E.
  pose proof (Z.mod_pos_bound j 3 ltac:(lia)). assert (0 <= j / 3) by (apply Z.div_pos; lia).
  destruct (H (j / 3)) as (A & B & C); auto.
  assert (D : j mod 3 = 0 \/ j mod 3 = 1 \/ j mod 3 = 2) by lia.
  destruct D as [D|[D|D]]; rewrite D in E; rewrite E, ?Z.add_0_r; auto.
Qed.

(** The magic masks, checked on each of the 1024 coordinates. *)
Lemma spread_spec x : 0 <= x < 1024 -> spread x = interleave 10 x 0 0.
Proof.
  assert (G : forallb (fun k => spread (Z.of_nat k) =? interleave 10 (Z.of_nat k) 0 0) (seq 0 1024) = true) by (vm_compute; reflexivity).
  intros H. rewrite forallb_forall in G. specialize (G (Z.to_nat x)). rewrite Z2Nat.id in G by lia.
  apply Z.eqb_eq, G, in_seq. lia.
Qed.
Lemma u32_small x : 0 <= x < 2 ^ 32 -> u32 x = x.
Proof. intros H. unfold u32. rewrite Z.land_ones, Z.mod_small; lia. Qed.
Lemma u64_small x : 0 <= x < 2 ^ 64 -> u64 x = x.
Proof. intros H. unfold u64. rewrite Z.land_ones, Z.mod_small; lia. Qed.

Lemma morton_code_spec x y z : 0 <= x < 1024 -> 0 <= y < 1024 -> 0 <= z < 1024 ->
  morton_code x y z = interleave 10 x y z.
Proof.
  intros Hx Hy Hz. unfold morton_code. rewrite !spread_spec by auto.
  pose proof (interleave_range 10 x 0 0) as Rx. pose proof (interleave_range 10 y 0 0) as Ry. pose proof (interleave_range 10 z 0 0) as Rz.
  pose proof (interleave_range 10 x y z) as R. set (A := interleave 10 x 0 0) in *. set (B := interleave 10 y 0 0) in *. set (C := interleave 10 z 0 0) in *.
  change (8 ^ Z.of_nat 10) with (2 ^ 30) in *.
  rewrite (u32_small (Z.shiftl B 1)), (u32_small (Z.shiftl C 2)) by (rewrite Z.shiftl_mul_pow2; lia).
  apply bits3.
  - rewrite !Z.lor_nonneg, !Z.shiftl_nonneg. lia.
  - lia.
  - intros i Hi. change (2 ^ 10) with 1024 in *.
    destruct (interleave_bits 10 x y z i) as (E1 & E2 & E3); auto. rewrite E1, E2, E3.
    rewrite !Z.lor_spec, !Z.shiftl_spec by lia.
    assert (O : forall u, 0 <= u < 1024 -> forall k, (k < 0 -> Z.testbit (interleave 10 u 0 0) k = false) /\
      (0 <= k -> Z.testbit (interleave 10 u 0 0) (3 * k) = Z.testbit u k /\ Z.testbit (interleave 10 u 0 0) (3 * k + 1) = false /\
        Z.testbit (interleave 10 u 0 0) (3 * k + 2) = false)).
    { intros u Hu k. split; [apply Z.testbit_neg_r|]. intros Hk.
      destruct (interleave_bits 10 u 0 0 k) as (F1 & F2 & F3); try (change (2 ^ Z.of_nat 10) with 1024; lia).
      rewrite F1, F2, F3, Z.testbit_0_l. auto. }
    unfold A, B, C. clear A B C Rx Ry Rz R.
    destruct (O x Hx i) as [_ [X0 [X1 X2]]]; auto. destruct (O y Hy i) as [_ [Y0 [Y1 Y2]]]; auto. destruct (O z Hz i) as [_ [Z0 [Z1 Z2]]]; auto.
    rewrite X0, X1, X2. replace (3 * i + 1 - 1) with (3 * i) by lia. replace (3 * i + 2 - 1) with (3 * i + 1) by lia.
    replace (3 * i + 2 - 2) with (3 * i) by lia. rewrite Y0, Y1, Z0.
    destruct (Z.eq_dec i 0) as [->|N].
    + destruct (O y Hy (-1)) as [Yn _]. destruct (O z Hz (-1)) as [Zn1 _]. destruct (O z Hz (-2)) as [Zn2 _].
      replace (3 * 0 - 1) with (-1) by lia. replace (3 * 0 - 2) with (-2) by lia. replace (3 * 0 + 1 - 2) with (-1) by lia.
      rewrite Yn, Zn1, Zn2 by lia. rewrite !orb_false_r, ?orb_false_l. auto.
    + destruct (O y Hy (i - 1)) as [_ [_ [_ Yp]]]; [lia|]. destruct (O z Hz (i - 1)) as [_ [_ [Zp1 Zp2]]]; [lia|].
      replace (3 * i - 1) with (3 * (i - 1) + 2) by lia. replace (3 * i - 2) with (3 * (i - 1) + 1) by lia.
      replace (3 * i + 1 - 2) with (3 * (i - 1) + 2) by lia.
      rewrite Yp, Zp1, Zp2. rewrite !orb_false_r, ?orb_false_l. auto.
Qed.

(** Splitting off the high bits. *)
Lemma interleave_app n k : forall x y z, 0 <= x -> 0 <= y -> 0 <= z ->
  interleave (k + n) x y z =
  interleave k (x mod 2 ^ Z.of_nat k) (y mod 2 ^ Z.of_nat k) (z mod 2 ^ Z.of_nat k) +
  8 ^ Z.of_nat k * interleave n (x / 2 ^ Z.of_nat k) (y / 2 ^ Z.of_nat k) (z / 2 ^ Z.of_nat k).
Proof.
  induction k as [|k IH]; intros x y z Hx Hy Hz.
  - cbn [Nat.add interleave]. change (2 ^ Z.of_nat 0) with 1. rewrite !Z.div_1_r. change (8 ^ Z.of_nat 0) with 1. lia.
  - cbn [Nat.add interleave]. rewrite (IH (x / 2) (y / 2) (z / 2)) by (apply Z.div_pos; lia).
    assert (P : 0 < 2 ^ Z.of_nat k) by lia.
    assert (M : forall u, 0 <= u -> (u mod 2 ^ Z.of_nat (S k)) mod 2 = u mod 2 /\
      u mod 2 ^ Z.of_nat (S k) / 2 = (u / 2) mod 2 ^ Z.of_nat k /\ u / 2 ^ Z.of_nat (S k) = u / 2 / 2 ^ Z.of_nat k).
    { intros u Hu. rewrite pow2_S. rewrite Z.div_div by lia. split; [|split; auto].
      - rewrite Z.rem_mul_r by lia. rewrite Z.mul_comm, Z.mod_add, Z.mod_mod by lia. auto.
      - rewrite Z.rem_mul_r by lia. rewrite Z.mul_comm, Z.div_add by lia. rewrite (Z.div_small (u mod 2)) by apply mod2. lia. }
    destruct (M x Hx) as (-> & -> & ->). destruct (M y Hy) as (-> & -> & ->). destruct (M z Hz) as (-> & -> & ->).
    rewrite pow8_S. lia.
Qed.
Lemma morton_code60_spec x y z : 0 <= x < 2 ^ 20 -> 0 <= y < 2 ^ 20 -> 0 <= z < 2 ^ 20 ->
  morton_code60 x y z = interleave 20 x y z.
Proof.
  intros Hx Hy Hz. unfold morton_code60. change 1023 with (Z.ones 10). rewrite !Z.land_ones, !Z.shiftr_div_pow2 by lia.
  change (2 ^ 10) with 1024.
  assert (D : forall u, 0 <= u < 2 ^ 20 -> 0 <= u / 1024 < 1024 /\ 0 <= u mod 1024 < 1024).
  { intros u Hu. split; [|apply Z.mod_pos_bound; lia]. split; [apply Z.div_pos; lia|apply Z.div_lt_upper_bound; lia]. }
  destruct (D x Hx), (D y Hy), (D z Hz). rewrite !morton_code_spec by auto.
  pose proof (interleave_range 10 (x / 1024) (y / 1024) (z / 1024)) as RH.
  pose proof (interleave_range 10 (x mod 1024) (y mod 1024) (z mod 1024)) as RL.
  change (8 ^ Z.of_nat 10) with (2 ^ 30) in RH, RL.
  rewrite u64_small by (rewrite Z.shiftl_mul_pow2; lia).
  change (interleave 20 x y z) with (interleave (10 + 10) x y z). rewrite (interleave_app 10 10 x y z) by lia. change (2 ^ Z.of_nat 10) with 1024. change (8 ^ Z.of_nat 10) with (2 ^ 30).
  set (Hi := interleave 10 (x / 1024) (y / 1024) (z / 1024)) in *. set (L := interleave 10 (x mod 1024) (y mod 1024) (z mod 1024)) in *.
  rewrite Z.shiftl_mul_pow2 by lia. rewrite <- (Z.mul_comm Hi), Z.add_comm.
  apply Z.bits_inj'. intros j Hj. rewrite Z.lor_spec.
  destruct (Z.lt_ge_cases j 30) as [Lj|Lj].
  - rewrite Z.mul_pow2_bits_low by auto. cbn [orb].
    rewrite <- (Z.mod_pow2_bits_low (Hi * 2 ^ 30 + L) 30 j), Z.add_comm, Z.mod_add, Z.mod_small by lia. auto.
  - assert (Z.testbit L j = false) as ->.
    { destruct (Z.eq_dec L 0) as [->|N]; [apply Z.testbit_0_l|]. apply Z.bits_above_log2; [lia|].
      apply Z.lt_le_trans with 30; auto. apply Z.log2_lt_pow2; lia. }
    rewrite orb_false_r. replace j with ((j - 30) + 30) by lia.
    rewrite <- !Z.div_pow2_bits by lia. rewrite Z.div_mul, Z.add_comm, Z.div_add, Z.div_small by lia. auto.
Qed.

(** Integer part. *)
Lemma Int_part_bounds r : (IZR (Int_part r) <= r < IZR (Int_part r) + 1)%R.
Proof. destruct (base_Int_part r) as [A B]. split; [auto|lra]. Qed.
Lemma Int_part_unique r n : (IZR n <= r < IZR n + 1)%R -> Int_part r = n.
Proof.
  intros [A B]. destruct (Int_part_bounds r) as [C D].
  assert (n < Int_part r + 1) by (apply lt_IZR; rewrite plus_IZR; lra).
  assert (Int_part r < n + 1) by (apply lt_IZR; rewrite plus_IZR; lra). lia.
Qed.
Lemma Int_part_mono a b : (a <= b)%R -> Int_part a <= Int_part b.
Proof.
  intros H. destruct (Int_part_bounds a), (Int_part_bounds b).
  assert (Int_part a < Int_part b + 1) by (apply lt_IZR; rewrite plus_IZR; lra). lia.
Qed.
Lemma Int_part_nonneg a : (0 <= a)%R -> 0 <= Int_part a.
Proof.
  intros H. destruct (Int_part_bounds a). assert (-1 < Int_part a); [|lia]. apply lt_IZR. lra.
Qed.

(** What quantize computes on [0,1]. *)
Lemma quantize_unit x n : (0 <= x <= 1)%R -> 0 < n < 2 ^ 32 ->
  quantize x n = Some (Z.min (Int_part (x * IZR n)) (n - 1)).
Proof.
  intros Hx Hn. assert (Pn : (0 < IZR n)%R) by (apply IZR_lt; lia).
  assert (Hv : (0 <= x * IZR n <= IZR n)%R) by (split; [apply Rmult_le_pos; lra|rewrite <- (Rmult_1_l (IZR n)) at 2; apply Rmult_le_compat_r; lra]).
  assert (Ln : (IZR n < IZR (2 ^ 32))%R) by (apply IZR_lt; lia).
  unfold quantize, to_uint32. destruct (Rlt_dec (-1) (x * IZR n)) as [_|N]; [|lra].
  destruct (Rlt_dec (x * IZR n) (IZR (2 ^ 32))) as [_|N]; [|lra].
  destruct (Rlt_dec (x * IZR n) 0) as [N|_]; [lra|]. cbn [option_map]. f_equal. rewrite u32_small by lia.
  pose proof (Int_part_nonneg _ (proj1 Hv)). lia.
Qed.

(** The loop of the bitset functor computes the quantized coordinates. *)
Definition quant (k : nat) (u : R) : Z := Z.min (Int_part (u / 2 * IZR (2 ^ Z.of_nat k))) (2 ^ Z.of_nat k - 1).
Lemma next_range u : (0 <= u <= 2)%R -> (0 <= next_coord u <= 2)%R.
Proof. intros H. unfold next_coord. destruct (Rle_dec 1 u); lra. Qed.
Lemma quant_S k u : (0 <= u <= 2)%R -> quant (S k) u = top_bit u * 2 ^ Z.of_nat k + quant k (next_coord u).
Proof.
  intros H. unfold quant, top_bit, next_coord. rewrite pow2_S, mult_IZR. assert (P : 0 < 2 ^ Z.of_nat k) by lia.
  set (w := 2 ^ Z.of_nat k) in *. assert (Pw : (0 < IZR w)%R) by (apply IZR_lt; lia).
  destruct (Rlt_dec u 1) as [L|L]; destruct (Rle_dec 1 u) as [L'|L']; try lra.
  - replace (2 * u / 2 * IZR w)%R with (u * IZR w)%R by field. replace (u / 2 * (2 * IZR w))%R with (u * IZR w)%R by field.
    assert (B : (u * IZR w < IZR w)%R) by (rewrite <- (Rmult_1_l (IZR w)) at 2; apply Rmult_lt_compat_r; lra).
    destruct (Int_part_bounds (u * IZR w)). assert (Int_part (u * IZR w) < w) by (apply lt_IZR; lra). lia.
  - replace (2 * (u - 1) / 2 * IZR w)%R with ((u - 1) * IZR w)%R by field. replace (u / 2 * (2 * IZR w))%R with (u * IZR w)%R by field.
    assert (E : Int_part (u * IZR w) = w + Int_part ((u - 1) * IZR w)).
    { apply Int_part_unique. rewrite plus_IZR. destruct (Int_part_bounds ((u - 1) * IZR w)). lra. }
    rewrite E. lia.
Qed.
Lemma quant_range k u : (0 <= u)%R -> 0 <= quant k u < 2 ^ Z.of_nat k.
Proof.
  intros H. unfold quant. assert (0 < 2 ^ Z.of_nat k) by lia. assert (Pw : (0 < IZR (2 ^ Z.of_nat k))%R) by (apply IZR_lt; lia).
  assert (0 <= Int_part (u / 2 * IZR (2 ^ Z.of_nat k))); [|lia]. apply Int_part_nonneg. apply Rmult_le_pos; lra.
Qed.
Lemma top_bit_range u : 0 <= top_bit u < 2.
Proof. unfold top_bit. destruct (Rlt_dec u 1); lia. Qed.
Lemma interleave_1 a b c : 0 <= a < 2 -> 0 <= b < 2 -> 0 <= c < 2 -> interleave 1 a b c = a + 2 * b + 4 * c.
Proof. intros. cbn [interleave]. rewrite !Z.mod_small by lia. lia. Qed.
Lemma bitset_loop_spec k : forall x y z acc, (0 <= x <= 2)%R -> (0 <= y <= 2)%R -> (0 <= z <= 2)%R ->
  bitset_loop k x y z acc = acc * 8 ^ Z.of_nat k + interleave k (quant k x) (quant k y) (quant k z).
Proof.
  induction k as [|k IH]; intros x y z acc Hx Hy Hz.
  - cbn [bitset_loop interleave]. change (8 ^ Z.of_nat 0) with 1. lia.
  - cbn [bitset_loop]. rewrite IH by (apply next_range; auto). rewrite !quant_S by auto. rewrite pow8_S.
    assert (R : forall u, (0 <= u <= 2)%R -> 0 <= quant k (next_coord u) < 2 ^ Z.of_nat k) by (intros u Hu; apply quant_range, next_range; auto).
    pose proof (R x Hx) as Qx. pose proof (R y Hy) as Qy. pose proof (R z Hz) as Qz.
    pose proof (top_bit_range x) as Tx. pose proof (top_bit_range y) as Ty. pose proof (top_bit_range z) as Tz.
    replace (S k) with (k + 1)%nat by lia.
    assert (P : 0 < 2 ^ Z.of_nat k) by lia.
    rewrite (interleave_app 1 k) by nia.
    assert (DM : forall t q, 0 <= q < 2 ^ Z.of_nat k -> (t * 2 ^ Z.of_nat k + q) mod 2 ^ Z.of_nat k = q /\ (t * 2 ^ Z.of_nat k + q) / 2 ^ Z.of_nat k = t).
    { intros t q Hq. rewrite Z.add_comm, Z.mod_add, Z.div_add, Z.mod_small, Z.div_small by lia. auto. }
    destruct (DM (top_bit x) _ Qx) as [-> ->]. destruct (DM (top_bit y) _ Qy) as [-> ->]. destruct (DM (top_bit z) _ Qz) as [-> ->].
    rewrite interleave_1 by auto. lia.
Qed.
