(** Bounding volumes of half-spaces and planes: include/fcl/geometry/shape/utility-inl.h 325-898,
    include/fcl/geometry/shape/halfspace-inl.h and plane-inl.h (unitNormalTest, transform,
    computeLocalAABB). *)
From Coq Require Import Reals Lra Lia Arith List Bool.
From Verif Require Import VecR KDop Motion Obb Eigen3 Fit AabbDist ShapeBV.
Import ListNotations.
Open Scope R_scope.

(** Halfspace and Plane (halfspace.h, plane.h): n . x <= d, respectively n . x = d. *)
Record flat := Flat { fn : v3; fd : R }.
Definition in_half (s : flat) (p : v3) : Prop := dot (fn s) p <= fd s.
Definition in_plane (s : flat) (p : v3) : Prop := dot (fn s) p = fd s.

(** unitNormalTest (halfspace-inl.h 150-164, plane-inl.h 150-164), run by the constructors *)
Definition unit_normal (s : flat) : flat :=
  let l := norm (fn s) in
  if Rlt_dec 0 l then Flat (vscale (/ l) (fn s)) (fd s * / l) else Flat (mk3 1 0 0) 0.
Definition flat_make (n : v3) (d : R) : flat := unit_normal (Flat n d).
(** transform (halfspace-inl.h 168-181, plane-inl.h 168-181) *)
Definition flat_transform (s : flat) (X : tf) : flat :=
  let n := mapply (tf_rot X) (fn s) in flat_make n (fd s + dot n (tf_tr X)).

Definition zb (x : R) : bool := if Req_EM_T x 0 then true else false.
Definition eqb (x y : R) : bool := if Req_EM_T x y then true else false.
Definition posb (x : R) : bool := if Rlt_dec 0 x then true else false.
Definition negb' (x : R) : bool := if Rlt_dec x 0 then true else false.

(** One component of a vector replaced *)
Definition vset (i : nat) (x : R) (v : v3) : v3 :=
  match i with O => mk3 x (c1 v) (c2 v) | S O => mk3 (c0 v) x (c2 v) | _ => mk3 (c0 v) (c1 v) x end.

Section Big.
(** [big]: numeric_limits<S>::max() *)
Variable big : R.
Definition all_box : boxR := BoxR (mk3 (- big) (- big) (- big)) (mk3 big big big).

(** AABB of a half-space (utility-inl.h 325-357) and, without pose, computeLocalAABB
    (halfspace-inl.h 97-124): [aligned] is the axis chosen by the cascade of tests. *)
Definition aligned (n : v3) : option nat :=
  if zb (c1 n) && zb (c2 n) then Some 0%nat
  else if zb (c0 n) && zb (c2 n) then Some 1%nat
  else if zb (c0 n) && zb (c1 n) then Some 2%nat else None.
Definition half_box (s : flat) : boxR :=
  match aligned (fn s) with
  | Some i => if negb' (comp i (fn s)) then BoxR (vset i (- fd s) (lo all_box)) (hi all_box)
              else if posb (comp i (fn s)) then BoxR (lo all_box) (vset i (fd s) (hi all_box)) else all_box
  | None => all_box
  end.
Definition half_aabb (s : flat) (X : tf) : boxR := half_box (flat_transform s X).
(** AABB of a plane (utility-inl.h 621-653; computeLocalAABB of plane-inl.h alike) *)
Definition plane_box (s : flat) : boxR :=
  match aligned (fn s) with
  | Some i => if negb' (comp i (fn s)) then BoxR (vset i (- fd s) (lo all_box)) (vset i (- fd s) (hi all_box))
              else if posb (comp i (fn s)) then BoxR (vset i (fd s) (lo all_box)) (vset i (fd s) (hi all_box)) else all_box
  | None => all_box
  end.
Definition plane_aabb (s : flat) (X : tf) : boxR := plane_box (flat_transform s X).

(** OBB and RSS of a half-space (361-391): neither the half-space nor the pose is used *)
Definition half_obb : obb := mkobb mid vzero (mk3 big big big).
Definition half_rss : rss := Rss vzero mid big big big.
(** OBB and RSS of a plane (657-690); [uo] is Eigen's unitOrthogonal *)
Definition plane_obb (uo : v3 -> v3) (s : flat) (X : tf) : obb :=
  mkobb (coord_system uo (mapply (tf_rot X) (fn s))) (tf_apply X (vscale (fd s) (fn s))) (mk3 0 big big).
Definition plane_rss (uo : v3 -> v3) (s : flat) (X : tf) : rss :=
  Rss (tf_apply X (vscale (fd s) (fn s))) (coord_system uo (mapply (tf_rot X) (fn s))) big big 0.

(** ** kDOPs *)
(** The initial loops: lower bounds -max, upper bounds max *)
Definition kwhole (k : kind) : kdop := repeat (- big) (half k) ++ repeat big (half k).
Definition upto (k : kind) (i : nat) : bool := Nat.ltb i (half k).

(** The direction chosen by the cascade, shared by all six functions (417-600, 716-898).  The
    16-DOP stops after case 7, the 18-DOP after case 8.  Case 11 repeats the condition of case 9. *)
Definition slab (k : kind) (n : v3) : option nat :=
  let a := c0 n in let b := c1 n in let c := c2 n in
  if zb b && zb c then Some 0%nat
  else if zb a && zb c then Some 1%nat
  else if zb a && zb b then Some 2%nat
  else if zb c && eqb a b then Some 3%nat
  else if zb b && eqb a c then Some 4%nat
  else if zb a && eqb b c then Some 5%nat
  else if zb c && zb (a + b) then Some 6%nat
  else if zb b && zb (a + c) then Some 7%nat
  else if upto k 8 && (zb a && zb (b + c)) then Some 8%nat
  else if upto k 9 && (zb (a + c) && zb (a + b)) then Some 9%nat
  else if upto k 10 && (zb (a + b) && zb (b + c)) then Some 10%nat
  else if upto k 11 && (zb (a + b) && zb (a + c)) then Some 11%nat
  else None.
(** KDOP of a half-space: the component whose sign is tested, and the value written, per case;
    case 4 tests n[1] (453, 513, 578). *)
Definition half_sign (i : nat) (n : v3) : R :=
  match i with
  | 0%nat => c0 n | 1%nat => c1 n | 2%nat => c2 n | 3%nat => c0 n | 4%nat => c1 n | 5%nat => c1 n | 6%nat => c0 n | 7%nat => c0 n
  | 8%nat => c1 n | 9%nat => c0 n | 10%nat => c0 n | _ => c1 n
  end.
Definition half_value (i : nat) (n : v3) (d : R) : R :=
  match i with
  | 0%nat | 1%nat | 2%nat => if posb (half_sign i n) then d else - d
  | 3%nat | 4%nat => c0 n * d * 2 | 5%nat => c1 n * d * 2 | 6%nat | 7%nat => c0 n * d * 2 | 8%nat => c1 n * d * 2
  | 9%nat | 10%nat => c0 n * d * 3 | _ => c1 n * d * 3
  end.
Definition half_kbox (k : kind) (s : flat) : kdop :=
  match slab k (fn s) with
  | Some i => if posb (half_sign i (fn s)) then put (kwhole k) (half k + i) (half_value i (fn s) (fd s))
              else put (kwhole k) i (half_value i (fn s) (fd s))
  | None => kwhole k
  end.
Definition half_kdop (k : kind) (s : flat) (X : tf) : kdop := half_kbox k (flat_transform s X).
(** KDOP of a plane (716-898): both bounds; the 16-DOP writes lower bound 6 in case 5 (756). *)
Definition plane_low (k : kind) (i : nat) : nat :=
  match k, i with K16, 5%nat => 6%nat | _, _ => i end.
Definition plane_kbox (k : kind) (s : flat) : kdop :=
  match slab k (fn s) with
  | Some i => let v := half_value i (fn s) (fd s) in put (put (kwhole k) (half k + i) v) (plane_low k i) v
  | None => kwhole k
  end.
Definition plane_kdop (k : kind) (s : flat) (X : tf) : kdop := plane_kbox k (flat_transform s X).

(** kIOS of both (405-414, 704-713): one sphere about the origin and the OBB *)
Definition in_kios1 (b : obb) (p : v3) : Prop := dist p vzero <= big /\ inobb b p.
End Big.

(** ** Lemmas *)
Lemma zb_true : forall x, zb x = true -> x = 0. Proof. intros x. unfold zb. destruct (Req_EM_T x 0); [auto|discriminate]. Qed.
Lemma zb_false : forall x, zb x = false -> x <> 0. Proof. intros x. unfold zb. destruct (Req_EM_T x 0); [discriminate|auto]. Qed.
Lemma eqb_true : forall x y, eqb x y = true -> x = y. Proof. intros x y. unfold eqb. destruct (Req_EM_T x y); [auto|discriminate]. Qed.
Lemma posb_true : forall x, posb x = true -> 0 < x. Proof. intros x. unfold posb. destruct (Rlt_dec 0 x); [auto|discriminate]. Qed.
Lemma posb_false : forall x, posb x = false -> x <= 0. Proof. intros x. unfold posb. destruct (Rlt_dec 0 x); [discriminate|intros; lra]. Qed.
Lemma kwhole_length : forall big k, length (kwhole big k) = (2 * half k)%nat.
Proof. intros. unfold kwhole. rewrite app_length, !repeat_length. lia. Qed.
Lemma kwhole_low : forall big k i, (i < half k)%nat -> get (kwhole big k) i = - big.
Proof. intros big [] i H; cbn in H; do 12 (destruct i as [|i]; [reflexivity || lia|]); lia. Qed.
Lemma kwhole_high : forall big k i, (i < half k)%nat -> get (kwhole big k) (i + half k) = big.
Proof. intros big [] i H; cbn in H; do 12 (destruct i as [|i]; [reflexivity || lia|]); lia. Qed.
