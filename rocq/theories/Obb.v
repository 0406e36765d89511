(** Oriented boxes (include/fcl/math/bv/OBB-inl.h) over the reals. *)
From Coq Require Import Reals Lra Psatz List Lia Arith.
From Verif Require Import VecR.
Import ListNotations.
Open Scope R_scope.

(** OBB (OBB.h 55-70): axis columns, centre To, half extents. *)
Record obb := mkobb { ax : mat3; oc : v3; ext : v3 }.

(** Matrix3(i, j), row i, column j *)
Definition ent (m : mat3) (i j : nat) : R := comp i (col j m).
Definition row (m : mat3) (i : nat) : v3 := mk3 (ent m i 0) (ent m i 1) (ent m i 2).

(** obbDisjoint(B, T, a, b) (449-577) and its Transform3 twin (580-721, the same tests in the
    same order): each test compares |s| with the sum of the projected half extents, every
    |B(i,j)| enlarged by reps = 1e-6. *)
Definition reps : R := / 1000000.
Definition test (s r : R) : bool := if Rlt_dec r (Rabs s) then true else false.
Definition Bf (B : mat3) (i j : nat) : R := Rabs (ent B i j) + reps.
Definition frow (B : mat3) (i : nat) : v3 := mk3 (Bf B i 0) (Bf B i 1) (Bf B i 2).
Definition fcol (B : mat3) (j : nat) : v3 := mk3 (Bf B 0 j) (Bf B 1 j) (Bf B 2 j).
Definition obb_disjoint (B : mat3) (T a b : v3) : bool :=
  test (c0 T) (c0 a + dot (frow B 0) b) ||
  test (dot (col 0 B) T) (c0 b + dot (fcol B 0) a) ||
  test (c1 T) (c1 a + dot (frow B 1) b) ||
  test (c2 T) (c2 a + dot (frow B 2) b) ||
  test (dot (col 1 B) T) (c1 b + dot (fcol B 1) a) ||
  test (dot (col 2 B) T) (c2 b + dot (fcol B 2) a) ||
  test (c2 T * ent B 1 0 - c1 T * ent B 2 0) (c1 a * Bf B 2 0 + c2 a * Bf B 1 0 + c1 b * Bf B 0 2 + c2 b * Bf B 0 1) ||
  test (c2 T * ent B 1 1 - c1 T * ent B 2 1) (c1 a * Bf B 2 1 + c2 a * Bf B 1 1 + c0 b * Bf B 0 2 + c2 b * Bf B 0 0) ||
  test (c2 T * ent B 1 2 - c1 T * ent B 2 2) (c1 a * Bf B 2 2 + c2 a * Bf B 1 2 + c0 b * Bf B 0 1 + c1 b * Bf B 0 0) ||
  test (c0 T * ent B 2 0 - c2 T * ent B 0 0) (c0 a * Bf B 2 0 + c2 a * Bf B 0 0 + c1 b * Bf B 1 2 + c2 b * Bf B 1 1) ||
  test (c0 T * ent B 2 1 - c2 T * ent B 0 1) (c0 a * Bf B 2 1 + c2 a * Bf B 0 1 + c0 b * Bf B 1 2 + c2 b * Bf B 1 0) ||
  test (c0 T * ent B 2 2 - c2 T * ent B 0 2) (c0 a * Bf B 2 2 + c2 a * Bf B 0 2 + c0 b * Bf B 1 1 + c1 b * Bf B 1 0) ||
  test (c1 T * ent B 0 0 - c0 T * ent B 1 0) (c0 a * Bf B 1 0 + c1 a * Bf B 0 0 + c1 b * Bf B 2 2 + c2 b * Bf B 2 1) ||
  test (c1 T * ent B 0 1 - c0 T * ent B 1 1) (c0 a * Bf B 1 1 + c1 a * Bf B 0 1 + c0 b * Bf B 2 2 + c2 b * Bf B 2 0) ||
  test (c1 T * ent B 0 2 - c0 T * ent B 1 2) (c0 a * Bf B 1 2 + c1 a * Bf B 0 2 + c0 b * Bf B 2 1 + c1 b * Bf B 2 0).

(** overlap (98-110): the other box in this box's frame *)
Definition mtmul (a b : mat3) : mat3 := mkm (mtapply a (m0 b)) (mtapply a (m1 b)) (mtapply a (m2 b)).
Definition obb_overlap (b1 b2 : obb) : bool :=
  negb (obb_disjoint (mtmul (ax b1) (ax b2)) (mtapply (ax b1) (vsub (oc b2) (oc b1))) (ext b1) (ext b2)).
(** overlap(R0, T0, b1, b2) (432-446) *)
Definition obb_overlap_rt (R0 : mat3) (T0 : v3) (b1 b2 : obb) : bool :=
  let R := mtmul (ax b1) (mmul R0 (ax b2)) in
  let Tt := vsub (vadd (mapply R0 (oc b2)) T0) (oc b1) in
  negb (obb_disjoint R (mtapply (ax b1) Tt) (ext b1) (ext b2)).
(** contain (122-139) *)
Definition obb_contain (b : obb) (p : v3) : bool :=
  let l := vsub p (oc b) in
  forallb (fun i => let proj := dot l (col i (ax b)) in
    if Rlt_dec (comp i (ext b)) proj then false else if Rlt_dec proj (- comp i (ext b)) then false else true) [0; 1; 2]%nat.
(** computeVertices (232-250) *)
Definition vertices (b : obb) : list v3 :=
  let e0 := vscale (c0 (ext b)) (m0 (ax b)) in
  let e1 := vscale (c1 (ext b)) (m1 (ax b)) in
  let e2 := vscale (c2 (ext b)) (m2 (ax b)) in
  let T := oc b in
  [ vsub (vsub (vsub T e0) e1) e2; vsub (vsub (vadd T e0) e1) e2;
    vsub (vadd (vadd T e0) e1) e2; vsub (vadd (vsub T e0) e1) e2;
    vadd (vsub (vsub T e0) e1) e2; vadd (vsub (vadd T e0) e1) e2;
    vadd (vadd (vadd T e0) e1) e2; vadd (vadd (vsub T e0) e1) e2 ].

(** Eigen::Quaternion: coefficients, dot, toRotationMatrix. *)
Record quat := mkq { qw : R; qx : R; qy : R; qz : R }.
Definition qdot (a b : quat) : R := qw a * qw b + qx a * qx b + qy a * qy b + qz a * qz b.
Definition qscale (k : R) (a : quat) : quat := mkq (k * qw a) (k * qx a) (k * qy a) (k * qz a).
Definition qadd (a b : quat) : quat := mkq (qw a + qw b) (qx a + qx b) (qy a + qy b) (qz a + qz b).
Definition rotm (q : quat) : mat3 :=
  let w := qw q in let x := qx q in let y := qy q in let z := qz q in
  mkm (mk3 (1 - 2 * (y * y + z * z)) (2 * (x * y + w * z)) (2 * (x * z - w * y)))
      (mk3 (2 * (x * y - w * z)) (1 - 2 * (x * x + z * z)) (2 * (y * z + w * x)))
      (mk3 (2 * (x * z + w * y)) (2 * (y * z - w * x)) (1 - 2 * (x * x + y * y))).
(** Quaternion(Matrix3): some unit quaternion of that rotation; Eigen's formula is not
    modelled, this contract is all that is used. *)
Definition quat_ok (quat_of : mat3 -> quat) : Prop :=
  forall m, ortho m -> det m = 1 -> qdot (quat_of m) (quat_of m) = 1 /\ rotm (quat_of m) = m.

(** One component of the loops 337-366: the vertices of b1, then those of b2; a value that
    raises pmax is not considered for pmin. *)
Definition mmstep (s : R * R) (x : R) : R * R :=
  let (pmin, pmax) := s in
  if Rlt_dec pmax x then (pmin, x) else if Rlt_dec x pmin then (x, pmax) else (pmin, pmax).
Definition minmax (big : R) (l : list R) : R * R := fold_left mmstep l (big, - big).

(** Finish 368-372: centre and extents from (pmin, pmax) per axis; To moves along the axes. *)
Definition from_minmax (A : mat3) (o : v3) (s0 s1 s2 : R * R) : obb :=
  let half s := (snd s + fst s) / 2 in
  let ex s := (snd s - fst s) / 2 in
  mkobb A (vadd (vadd (vadd o (vscale (half s0) (m0 A))) (vscale (half s1) (m1 A))) (vscale (half s2) (m2 A)))
        (mk3 (ex s0) (ex s1) (ex s2)).

Section Small.
Variables (big : R) (quat_of : mat3 -> quat).
(** merge_smalldist (317-375) *)
Definition avg_axis (b1 b2 : obb) : mat3 :=
  let q0 := quat_of (ax b1) in
  let q1 := quat_of (ax b2) in
  let q1 := if Rlt_dec (qdot q0 q1) 0 then qscale (-1) q1 else q1 in
  let q := qadd q0 q1 in
  rotm (qscale (/ sqrt (qdot q q)) q).
Definition merge_with (A : mat3) (b1 b2 : obb) : obb :=
  let o := vscale (1/2) (vadd (oc b1) (oc b2)) in
  let pr j := map (fun v => dot (vsub v o) (col j A)) (vertices b1 ++ vertices b2) in
  from_minmax A o (minmax big (pr 0%nat)) (minmax big (pr 1%nat)) (minmax big (pr 2%nat)).
Definition merge_smalldist (b1 b2 : obb) : obb := merge_with (avg_axis b1 b2) b1 b2.
End Small.

(** The set of points of a box, independently of [contain]. *)
Definition inobb (b : obb) (p : v3) : Prop :=
  exists u0 u1 u2, - c0 (ext b) <= u0 <= c0 (ext b) /\ - c1 (ext b) <= u1 <= c1 (ext b) /\ - c2 (ext b) <= u2 <= c2 (ext b) /\
    p = vadd (oc b) (mapply (ax b) (mk3 u0 u1 u2)).

(** ** Lemmas *)
Lemma cross_cols : forall m, ortho m ->
  cross (m0 m) (m1 m) = vscale (det m) (m2 m) /\ cross (m1 m) (m2 m) = vscale (det m) (m0 m) /\ cross (m2 m) (m0 m) = vscale (det m) (m1 m).
Proof.
  intros m Hm.
  assert (D : forall x, x = mapply m (mtapply m x)) by (intros; symmetry; apply mapply_mt; exact Hm).
  assert (Z : forall a b, dot a (cross a b) = 0 /\ dot b (cross a b) = 0) by (intros [] []; unfold dot, cross; cbn; split; ring).
  assert (C1 : dot (m0 m) (cross (m1 m) (m2 m)) = det m) by reflexivity.
  assert (C2 : dot (m1 m) (cross (m2 m) (m0 m)) = det m) by (unfold det; destruct m as [[] [] []]; unfold dot, cross; cbn; ring).
  assert (C3 : dot (m2 m) (cross (m0 m) (m1 m)) = det m) by (unfold det; destruct m as [[] [] []]; unfold dot, cross; cbn; ring).
  split; [|split].
  - rewrite (D (cross (m0 m) (m1 m))). unfold mtapply. rewrite C3, (proj1 (Z (m0 m) (m1 m))), (proj2 (Z (m0 m) (m1 m))).
    unfold mapply, vadd, vscale. cbn. f_equal; ring.
  - rewrite (D (cross (m1 m) (m2 m))). unfold mtapply. rewrite C1, (proj1 (Z (m1 m) (m2 m))), (proj2 (Z (m1 m) (m2 m))).
    unfold mapply, vadd, vscale. cbn. f_equal; ring.
  - rewrite (D (cross (m2 m) (m0 m))). unfold mtapply. rewrite C2, (proj1 (Z (m2 m) (m0 m))), (proj2 (Z (m2 m) (m0 m))).
    unfold mapply, vadd, vscale. cbn. f_equal; ring.
Qed.

Lemma abs_det : forall m x, ortho m -> Rabs (det m * x) = Rabs x.
Proof.
  intros m x H. apply det_sq in H. rewrite Rabs_mult.
  assert (E : Rabs (det m) * Rabs (det m) = 1) by (rewrite <- Rabs_mult, H; apply Rabs_R1).
  pose proof (Rabs_pos (det m)). assert (F : Rabs (det m) = 1) by nra. rewrite F. ring.
Qed.

Lemma abs_prod : forall u a x, - a <= u <= a -> Rabs (u * x) <= a * Rabs x.
Proof.
  intros u a x H. rewrite Rabs_mult. apply Rmult_le_compat_r; [apply Rabs_pos|]. apply Rabs_le. exact H.
Qed.

Lemma abs_sum6 : forall a b c d e f a' b' c' d' e' f',
  Rabs a <= a' -> Rabs b <= b' -> Rabs c <= c' -> Rabs d <= d' -> Rabs e <= e' -> Rabs f <= f' ->
  Rabs (a + b + c - d - e - f) <= a' + b' + c' + d' + e' + f'.
Proof. intros. unfold Rabs in *. repeat destruct Rcase_abs; lra. Qed.

(** The separating direction bound. *)
Lemma sat_bound : forall B T u w a b L,
  (forall i, (i < 3)%nat -> - comp i a <= comp i u <= comp i a) ->
  (forall i, (i < 3)%nat -> - comp i b <= comp i w <= comp i b) ->
  u = vadd T (mapply B w) ->
  Rabs (dot T L) <= c0 a * Rabs (c0 L) + c1 a * Rabs (c1 L) + c2 a * Rabs (c2 L) +
                    c0 b * Rabs (dot (m0 B) L) + c1 b * Rabs (dot (m1 B) L) + c2 b * Rabs (dot (m2 B) L).
Proof.
  intros B T u w a b L Hu Hw E.
  assert (X : dot T L = c0 u * c0 L + c1 u * c1 L + c2 u * c2 L - c0 w * dot (m0 B) L - c1 w * dot (m1 B) L - c2 w * dot (m2 B) L).
  { subst u. unfold mapply. generalize (m0 B) (m1 B) (m2 B). clear. intros [] [] []. destruct T, w, L. unfold dot, mapply, vadd, vscale. cbn. ring. }
  rewrite X.
  pose proof (abs_prod _ _ (c0 L) (Hu 0%nat ltac:(lia))) as U0. pose proof (abs_prod _ _ (c1 L) (Hu 1%nat ltac:(lia))) as U1. pose proof (abs_prod _ _ (c2 L) (Hu 2%nat ltac:(lia))) as U2.
  pose proof (abs_prod _ _ (dot (m0 B) L) (Hw 0%nat ltac:(lia))) as W0. pose proof (abs_prod _ _ (dot (m1 B) L) (Hw 1%nat ltac:(lia))) as W1. pose proof (abs_prod _ _ (dot (m2 B) L) (Hw 2%nat ltac:(lia))) as W2.
  cbn [comp] in *. apply abs_sum6; assumption.
Qed.

Definition e0 := mk3 1 0 0. Definition e1 := mk3 0 1 0. Definition e2 := mk3 0 0 1.

Lemma test_false : forall s r, Rabs s <= r -> test s r = false.
Proof. intros s r H. unfold test. destruct (Rlt_dec r (Rabs s)); [lra|reflexivity]. Qed.

(** |B_k . (e x B_j)| = |e . B_l| for the third index l. *)
Lemma cross_abs : forall m e, ortho m ->
  Rabs (dot (m1 m) (cross e (m0 m))) = Rabs (dot e (m2 m)) /\ Rabs (dot (m2 m) (cross e (m0 m))) = Rabs (dot e (m1 m)) /\
  Rabs (dot (m0 m) (cross e (m1 m))) = Rabs (dot e (m2 m)) /\ Rabs (dot (m2 m) (cross e (m1 m))) = Rabs (dot e (m0 m)) /\
  Rabs (dot (m0 m) (cross e (m2 m))) = Rabs (dot e (m1 m)) /\ Rabs (dot (m1 m) (cross e (m2 m))) = Rabs (dot e (m0 m)) /\
  dot (m0 m) (cross e (m0 m)) = 0 /\ dot (m1 m) (cross e (m1 m)) = 0 /\ dot (m2 m) (cross e (m2 m)) = 0.
Proof.
  intros m e Hm. destruct (cross_cols m Hm) as (C01 & C12 & C20).
  assert (T : forall a b, dot b (cross e a) = dot e (cross a b)) by (intros [] []; destruct e; unfold dot, cross; cbn; ring).
  assert (N : forall a b, cross a b = vneg (cross b a)) by (intros [] []; unfold vneg, cross; cbn; f_equal; ring).
  assert (S : forall a, cross a a = vzero) by (intros []; unfold vzero, cross; cbn; f_equal; ring).
  rewrite !T, !S, (N (m0 m) (m2 m)), (N (m1 m) (m0 m)), (N (m2 m) (m1 m)), C01, C12, C20, !dot_neg_r, !dot_scale_r, !Rabs_Ropp, !(abs_det m) by exact Hm.
  assert (Z : dot e vzero = 0) by (destruct e; unfold dot, vzero; cbn; ring).
  rewrite Z. repeat (split; [reflexivity|]). reflexivity.
Qed.

Lemma Rle_sum : forall x1 y1 x2 y2, x1 <= y1 -> x2 <= y2 -> x1 + x2 <= y1 + y2.
Proof. intros. lra. Qed.

Lemma sat_bound_as : forall B T u w a b L s l0 l1 l2 k0 k1 k2,
  (forall i, (i < 3)%nat -> - comp i a <= comp i u <= comp i a) ->
  (forall i, (i < 3)%nat -> - comp i b <= comp i w <= comp i b) ->
  u = vadd T (mapply B w) ->
  Rabs s = Rabs (dot T L) ->
  Rabs (c0 L) <= l0 -> Rabs (c1 L) <= l1 -> Rabs (c2 L) <= l2 ->
  Rabs (dot (m0 B) L) <= k0 -> Rabs (dot (m1 B) L) <= k1 -> Rabs (dot (m2 B) L) <= k2 ->
  Rabs s <= c0 a * l0 + c1 a * l1 + c2 a * l2 + c0 b * k0 + c1 b * k1 + c2 b * k2.
Proof.
  intros B T u w a b L s l0 l1 l2 k0 k1 k2 Hu Hw E Es H0 H1 H2 K0 K1 K2.
  rewrite Es. eapply Rle_trans; [apply (sat_bound B T u w a b L Hu Hw E)|].
  pose proof (Hu 0%nat ltac:(lia)) as A0. pose proof (Hu 1%nat ltac:(lia)) as A1. pose proof (Hu 2%nat ltac:(lia)) as A2.
  pose proof (Hw 0%nat ltac:(lia)) as B0. pose proof (Hw 1%nat ltac:(lia)) as B1. pose proof (Hw 2%nat ltac:(lia)) as B2.
  cbn [comp] in *.
  repeat apply Rplus_le_compat; apply Rmult_le_compat_l; assumption || lra.
Qed.

Lemma abs0 : forall x, x = 0 -> Rabs x <= 0. Proof. intros x ->. rewrite Rabs_R0. lra. Qed.
Lemma abs1 : forall x, x = 1 -> Rabs x <= 1. Proof. intros x ->. rewrite Rabs_R1. lra. Qed.
Lemma absB : forall B x i j, Rabs x = Rabs (ent B i j) -> Rabs x <= Bf B i j.
Proof. intros B x i j ->. unfold Bf, reps. lra. Qed.
Lemma absn : forall x y, x = - y -> Rabs x = Rabs y. Proof. intros x y ->. apply Rabs_Ropp. Qed.
Lemma absp : forall x y, x = y -> Rabs x = Rabs y. Proof. intros x y ->. reflexivity. Qed.

Lemma obb_disjoint_sound : forall B T a b u w, ortho B ->
  (forall i, (i < 3)%nat -> - comp i a <= comp i u <= comp i a) ->
  (forall i, (i < 3)%nat -> - comp i b <= comp i w <= comp i b) ->
  u = vadd T (mapply B w) -> obb_disjoint B T a b = false.
Proof.
  intros B T a b u w HB Hu Hw E.
  pose proof (fun L s l0 l1 l2 k0 k1 k2 => sat_bound_as B T u w a b L s l0 l1 l2 k0 k1 k2 Hu Hw E) as S.
  pose proof (cross_abs B (mk3 1 0 0) HB) as K0. pose proof (cross_abs B (mk3 0 1 0) HB) as K1. pose proof (cross_abs B (mk3 0 0 1) HB) as K2.
  clear Hu Hw E u w.
  destruct HB as (O0 & O1 & O2 & O01 & O02 & O12).
  destruct K0 as (P1 & P2 & P3 & P4 & P5 & P6 & P7 & P8 & P9).
  destruct K1 as (Q1 & Q2 & Q3 & Q4 & Q5 & Q6 & Q7 & Q8 & Q9).
  destruct K2 as (R1 & R2 & R3 & R4 & R5 & R6 & R7 & R8 & R9).
  destruct B as [[b00 b10 b20] [b01 b11 b21] [b02 b12 b22]].
  unfold obb_disjoint.
  set (Bm := {| m0 := _ |}) in *.
  Ltac un := unfold dot, cross, frow, fcol, ent in *; cbn [comp col VecR.m0 VecR.m1 VecR.m2 VecR.c0 VecR.c1 VecR.c2] in *.
  Ltac eqs := first [apply absp; un; ring | apply absn; un; ring].
  Ltac bnd Bm := first [apply abs0; subst Bm; un; lra | apply abs1; subst Bm; un; lra | apply absB; first [subst Bm; eqs | etransitivity; [eassumption|subst Bm; eqs]]].
  repeat match goal with |- (_ || _)%bool = false => apply Bool.orb_false_intro end; apply test_false.
  - eapply Rle_trans; [apply (S (mk3 1 0 0) _ 1 0 0 (Bf Bm 0 0) (Bf Bm 0 1) (Bf Bm 0 2)); [subst Bm; eqs|bnd Bm..]|]. clear - Bm. un. lra.
  - eapply Rle_trans; [apply (S (m0 Bm) _ (Bf Bm 0 0) (Bf Bm 1 0) (Bf Bm 2 0) 1 0 0); [subst Bm; eqs|bnd Bm..]|]. clear - Bm. un. lra.
  - eapply Rle_trans; [apply (S (mk3 0 1 0) _ 0 1 0 (Bf Bm 1 0) (Bf Bm 1 1) (Bf Bm 1 2)); [subst Bm; eqs|bnd Bm..]|]. clear - Bm. un. lra.
  - eapply Rle_trans; [apply (S (mk3 0 0 1) _ 0 0 1 (Bf Bm 2 0) (Bf Bm 2 1) (Bf Bm 2 2)); [subst Bm; eqs|bnd Bm..]|]. clear - Bm. un. lra.
  - eapply Rle_trans; [apply (S (m1 Bm) _ (Bf Bm 0 1) (Bf Bm 1 1) (Bf Bm 2 1) 0 1 0); [subst Bm; eqs|bnd Bm..]|]. clear - Bm. un. lra.
  - eapply Rle_trans; [apply (S (m2 Bm) _ (Bf Bm 0 2) (Bf Bm 1 2) (Bf Bm 2 2) 0 0 1); [subst Bm; eqs|bnd Bm..]|]. clear - Bm. un. lra.
  - eapply Rle_trans; [apply (S (cross (mk3 1 0 0) (m0 Bm)) _ 0 (Bf Bm 2 0) (Bf Bm 1 0) 0 (Bf Bm 0 2) (Bf Bm 0 1)); [subst Bm; eqs|bnd Bm..]|]. clear - Bm. un. lra.
  - eapply Rle_trans; [apply (S (cross (mk3 1 0 0) (m1 Bm)) _ 0 (Bf Bm 2 1) (Bf Bm 1 1) (Bf Bm 0 2) 0 (Bf Bm 0 0)); [subst Bm; eqs|bnd Bm..]|]. clear - Bm. un. lra.
  - eapply Rle_trans; [apply (S (cross (mk3 1 0 0) (m2 Bm)) _ 0 (Bf Bm 2 2) (Bf Bm 1 2) (Bf Bm 0 1) (Bf Bm 0 0) 0); [subst Bm; eqs|bnd Bm..]|]. clear - Bm. un. lra.
  - eapply Rle_trans; [apply (S (cross (mk3 0 1 0) (m0 Bm)) _ (Bf Bm 2 0) 0 (Bf Bm 0 0) 0 (Bf Bm 1 2) (Bf Bm 1 1)); [subst Bm; eqs|bnd Bm..]|]. clear - Bm. un. lra.
  - eapply Rle_trans; [apply (S (cross (mk3 0 1 0) (m1 Bm)) _ (Bf Bm 2 1) 0 (Bf Bm 0 1) (Bf Bm 1 2) 0 (Bf Bm 1 0)); [subst Bm; eqs|bnd Bm..]|]. clear - Bm. un. lra.
  - eapply Rle_trans; [apply (S (cross (mk3 0 1 0) (m2 Bm)) _ (Bf Bm 2 2) 0 (Bf Bm 0 2) (Bf Bm 1 1) (Bf Bm 1 0) 0); [subst Bm; eqs|bnd Bm..]|]. clear - Bm. un. lra.
  - eapply Rle_trans; [apply (S (cross (mk3 0 0 1) (m0 Bm)) _ (Bf Bm 1 0) (Bf Bm 0 0) 0 0 (Bf Bm 2 2) (Bf Bm 2 1)); [subst Bm; eqs|bnd Bm..]|]. clear - Bm. un. lra.
  - eapply Rle_trans; [apply (S (cross (mk3 0 0 1) (m1 Bm)) _ (Bf Bm 1 1) (Bf Bm 0 1) 0 (Bf Bm 2 2) 0 (Bf Bm 2 0)); [subst Bm; eqs|bnd Bm..]|]. clear - Bm. un. lra.
  - eapply Rle_trans; [apply (S (cross (mk3 0 0 1) (m2 Bm)) _ (Bf Bm 1 2) (Bf Bm 0 2) 0 (Bf Bm 2 1) (Bf Bm 2 0) 0); [subst Bm; eqs|bnd Bm..]|]. clear - Bm. un. lra.
Qed.

(** ** The running minimum and maximum *)
Lemma mm_fold : forall xs mn mx,
  let r := fold_left mmstep xs (mn, mx) in
  fst r <= mn /\ mx <= snd r /\
  (forall x, In x xs -> x <= snd r /\ (x <= mx -> fst r <= x)) /\
  (fst r = mn \/ In (fst r) xs) /\ (snd r = mx \/ In (snd r) xs).
Proof.
  induction xs as [|x xs IH]; intros mn mx.
  - cbn. split; [lra|split; [lra|split; [intros x []|auto]]].
  - cbn [fold_left]. cbv zeta. destruct (mmstep (mn, mx) x) as [mn1 mx1] eqn:E.
    destruct (IH mn1 mx1) as (A & B & C & D & F). clear IH.
    unfold mmstep in E. destruct (Rlt_dec mx x); [|destruct (Rlt_dec x mn)]; injection E as <- <-.
    + split; [lra|split; [lra|split; [|split]]].
      * intros y [<-|Hy]; [split; lra|]. destruct (C y Hy) as [C1 C2]. split; [exact C1|]. intros; apply C2; lra.
      * destruct D; [left; assumption|right; right; assumption].
      * destruct F as [F|F]; [right; left; congruence|right; right; assumption].
    + split; [lra|split; [lra|split; [|split]]].
      * intros y [<-|Hy]; [split; lra|]. apply C; exact Hy.
      * destruct D as [D|D]; [right; left; congruence|right; right; assumption].
      * destruct F as [F|F]; [left; exact F|right; right; assumption].
    + split; [lra|split; [lra|split; [|split]]].
      * intros y [<-|Hy]; [split; lra|]. apply C; exact Hy.
      * destruct D as [D|D]; [left; exact D|right; right; assumption].
      * destruct F as [F|F]; [left; exact F|right; right; assumption].
Qed.

Lemma minmax_spec : forall big x0 xs, - big < x0 -> (forall x, In x xs -> x < big) -> x0 < big ->
  let r := minmax big (x0 :: xs) in
  (forall x, In x (x0 :: xs) -> x <= snd r) /\
  ((exists x, In x xs /\ x <= x0) -> forall x, In x (x0 :: xs) -> fst r <= x) /\
  ((forall x, In x xs -> x0 < x) -> x0 < fst r).
Proof.
  intros big x0 xs H0 Hb Hb0. unfold minmax. cbn [fold_left].
  replace (mmstep (big, - big) x0) with (big, x0) by (unfold mmstep; destruct (Rlt_dec (- big) x0); [reflexivity|lra]).
  destruct (mm_fold xs big x0) as (A & B & C & D & F). cbv zeta.
  split; [|split].
  - intros x [<-|Hx]; [exact B|]. apply C; exact Hx.
  - intros (x & Hx & Hle).
    assert (L : forall y, In y xs -> y <= x0 -> fst (fold_left mmstep xs (big, x0)) <= y) by (intros y Hy Hy0; apply C; assumption).
    intros y [<-|Hy].
    + pose proof (L x Hx Hle). lra.
    + destruct (Rle_dec y x0); [apply L; assumption|]. pose proof (L x Hx Hle). lra.
  - intros H. destruct D as [D|D]; [lra|]. apply H; exact D.
Qed.

(** Every point of a box projects between two vertices. *)
Lemma box_extreme : forall b L p, inobb b p ->
  (exists v, In v (vertices b) /\ dot v L <= dot p L) /\ (exists v, In v (vertices b) /\ dot p L <= dot v L).
Proof.
  intros b L p (u0 & u1 & u2 & H0 & H1 & H2 & ->).
  assert (X : forall e u m, - e <= u <= e -> - e * m <= u * m \/ e * m <= u * m) by (intros e u m He; destruct (Rle_dec 0 m); [left|right]; nra).
  assert (Y : forall e u m, - e <= u <= e -> u * m <= - e * m \/ u * m <= e * m) by (intros e u m He; destruct (Rle_dec 0 m); [right|left]; nra).
  assert (E : dot (vadd (oc b) (mapply (ax b) (mk3 u0 u1 u2))) L = dot (oc b) L + u0 * dot (m0 (ax b)) L + u1 * dot (m1 (ax b)) L + u2 * dot (m2 (ax b)) L).
  { unfold mapply. rewrite !dot_add_l, !dot_scale_l. cbn [c0 c1 c2]. ring. }
  rewrite E. unfold vertices. cbv zeta.
  split.
  - destruct (X _ _ (dot (m0 (ax b)) L) H0), (X _ _ (dot (m1 (ax b)) L) H1), (X _ _ (dot (m2 (ax b)) L) H2).
    1: exists (nth 0 (vertices b) vzero). 2: exists (nth 4 (vertices b) vzero). 3: exists (nth 3 (vertices b) vzero). 4: exists (nth 7 (vertices b) vzero).
    5: exists (nth 1 (vertices b) vzero). 6: exists (nth 5 (vertices b) vzero). 7: exists (nth 2 (vertices b) vzero). 8: exists (nth 6 (vertices b) vzero).
    all: split; [unfold vertices; cbv zeta; cbn; tauto|unfold vertices; cbv zeta; cbn [nth]; rewrite ?dot_sub_l, ?dot_add_l, ?dot_sub_l, ?dot_add_l, !dot_scale_l; lra].
  - destruct (Y _ _ (dot (m0 (ax b)) L) H0), (Y _ _ (dot (m1 (ax b)) L) H1), (Y _ _ (dot (m2 (ax b)) L) H2).
    1: exists (nth 0 (vertices b) vzero). 2: exists (nth 4 (vertices b) vzero). 3: exists (nth 3 (vertices b) vzero). 4: exists (nth 7 (vertices b) vzero).
    5: exists (nth 1 (vertices b) vzero). 6: exists (nth 5 (vertices b) vzero). 7: exists (nth 2 (vertices b) vzero). 8: exists (nth 6 (vertices b) vzero).
    all: split; [unfold vertices; cbv zeta; cbn; tauto|unfold vertices; cbv zeta; cbn [nth]; repeat first [rewrite dot_sub_l|rewrite dot_add_l|rewrite dot_scale_l]; lra].
Qed.

Lemma vertices_in : forall b, 0 <= c0 (ext b) -> 0 <= c1 (ext b) -> 0 <= c2 (ext b) -> forall v, In v (vertices b) -> inobb b v.
Proof.
  intros b H0 H1 H2 v Hv. unfold vertices in Hv. cbv zeta in Hv. cbn [In] in Hv.
  assert (Z : forall s0 s1 s2, (s0 = 1 \/ s0 = -1) -> (s1 = 1 \/ s1 = -1) -> (s2 = 1 \/ s2 = -1) ->
    v = vadd (oc b) (mapply (ax b) (mk3 (s0 * c0 (ext b)) (s1 * c1 (ext b)) (s2 * c2 (ext b)))) -> inobb b v).
  { intros s0 s1 s2 S0 S1 S2 ->. exists (s0 * c0 (ext b)), (s1 * c1 (ext b)), (s2 * c2 (ext b)).
    split; [destruct S0; subst; lra|split; [destruct S1; subst; lra|split; [destruct S2; subst; lra|reflexivity]]]. }
  decompose [or] Hv; try contradiction; subst v;
  [apply (Z (-1) (-1) (-1))|apply (Z 1 (-1) (-1))|apply (Z 1 1 (-1))|apply (Z (-1) 1 (-1))|apply (Z (-1) (-1) 1)|apply (Z 1 (-1) 1)|apply (Z 1 1 1)|apply (Z (-1) 1 1)];
  auto; unfold mapply; generalize (m0 (ax b)) (m1 (ax b)) (m2 (ax b)); intros [] [] []; destruct (oc b), (ext b); unfold vadd, vsub, vscale; cbn; f_equal; ring.
Qed.

(** ** Boxes given by intervals along their axes *)
Definition inter (A : mat3) (o : v3) (s0 s1 s2 : R * R) (p : v3) : Prop :=
  fst s0 <= dot (vsub p o) (m0 A) <= snd s0 /\ fst s1 <= dot (vsub p o) (m1 A) <= snd s1 /\ fst s2 <= dot (vsub p o) (m2 A) <= snd s2.

Lemma inobb_iff : forall b p, ortho (ax b) ->
  (inobb b p <-> - c0 (ext b) <= dot (vsub p (oc b)) (m0 (ax b)) <= c0 (ext b) /\
                 - c1 (ext b) <= dot (vsub p (oc b)) (m1 (ax b)) <= c1 (ext b) /\
                 - c2 (ext b) <= dot (vsub p (oc b)) (m2 (ax b)) <= c2 (ext b)).
Proof.
  intros b p Ho. split.
  - intros (u0 & u1 & u2 & H0 & H1 & H2 & ->).
    assert (E : mtapply (ax b) (vsub (vadd (oc b) (mapply (ax b) (mk3 u0 u1 u2))) (oc b)) = mk3 u0 u1 u2).
    { rewrite <- (mt_mapply (ax b) (mk3 u0 u1 u2) Ho) at 2. f_equal. generalize (mapply (ax b) (mk3 u0 u1 u2)). intros []. destruct (oc b). unfold vsub, vadd. cbn. f_equal; ring. }
    unfold mtapply in E. injection E as E0 E1 E2. rewrite !(dot_comm (vsub _ _)), E0, E1, E2. auto.
  - intros (H0 & H1 & H2).
    exists (dot (vsub p (oc b)) (m0 (ax b))), (dot (vsub p (oc b)) (m1 (ax b))), (dot (vsub p (oc b)) (m2 (ax b))).
    split; [exact H0|split; [exact H1|split; [exact H2|]]].
    pose proof (mapply_mt (ax b) (vsub p (oc b)) Ho) as E. unfold mtapply in E. rewrite !(dot_comm (vsub _ _)), E.
    destruct p, (oc b). unfold vsub, vadd. cbn. f_equal; ring.
Qed.

Lemma from_minmax_in : forall A o s0 s1 s2 p, ortho A -> (inobb (from_minmax A o s0 s1 s2) p <-> inter A o s0 s1 s2 p).
Proof.
  intros A o s0 s1 s2 p Ho. rewrite inobb_iff by exact Ho. unfold from_minmax, inter. cbn [ax oc ext c0 c1 c2].
  destruct Ho as (O0 & O1 & O2 & O01 & O02 & O12).
  assert (O10 : dot (m1 A) (m0 A) = 0) by (rewrite dot_comm; exact O01).
  assert (O20 : dot (m2 A) (m0 A) = 0) by (rewrite dot_comm; exact O02).
  assert (O21 : dot (m2 A) (m1 A) = 0) by (rewrite dot_comm; exact O12).
  rewrite !dot_sub_l, !dot_add_l, !dot_scale_l, O0, O1, O2, O01, O02, O12, O10, O20, O21.
  split; intros (H0 & H1 & H2); (split; [|split]); lra.
Qed.
