(** The split rules of BVSplitter (include/fcl/geometry/bvh/detail/BV_splitter-inl.h) *)
From Coq Require Import Reals Lra Lia List Bool Arith Permutation.
From Verif Require Import VecR.
Import ListNotations.
Open Scope R_scope.

(** BVHModelType without UNKNOWN; a primitive is a triangle, or a point (then only the first corner counts) *)
Inductive mtype := TRIANGLES | POINTCLOUD.
Definition prim : Type := (v3 * v3 * v3)%type.
Inductive method := MEAN | MEDIAN | BV_CENTER.
(** What the splitter uses of a volume: center() and width(), height(), depth() of AABB and KDOP; the first axis and center() of OBB,
    RSS, kIOS and OBBRSS (for the last two the axis of their OBB, 512-545) *)
Inductive volume := Aligned (centre dims : v3) | Oriented (axis0 centre : v3).
(** split_axis and split_value, or split_vector and split_value *)
Inductive rule := OnAxis (axis : nat) (value : R) | OnVector (vector : v3) (value : R).

(** The point recursiveBuildTree passes to apply (BVH_model-inl.h 894-904) *)
Definition centroid (ty : mtype) (t : prim) : v3 :=
  match t with (p1, p2, p3) => match ty with TRIANGLES => vscale (/ 3) (vadd (vadd p1 p2) p3) | POINTCLOUD => p1 end end.
(** apply (98-112, 455-501) *)
Definition apply (r : rule) (q : v3) : bool :=
  match r with
  | OnAxis a value => if Rlt_dec value (comp a q) then true else false
  | OnVector v value => if Rlt_dec value (dot v q) then true else false
  end.

(** the longest side (125-130, 156-161, 209-214) *)
Definition geb (x y : R) : bool := if Rle_dec y x then true else false.
Definition longest (d : v3) : nat :=
  if geb (c0 d) (c1 d) && geb (c0 d) (c2 d) then 0%nat else if geb (c1 d) (c0 d) && geb (c1 d) (c2 d) then 1%nat else 2%nat.

(** ComputeRuleMeanImpl (148-190) *)
Definition mean_axis (ty : mtype) (a : nat) (l : list prim) : R :=
  match ty with
  | TRIANGLES => fold_left (fun s (t : prim) => match t with (p1, p2, p3) => s + (comp a p1 + comp a p2 + comp a p3) end) l 0 / 3
  | POINTCLOUD => fold_left (fun s (t : prim) => match t with (p1, _, _) => s + comp a p1 end) l 0
  end / INR (length l).
(** computeSplitValue_mean (557-598); c[0], c[1], c[2] is a vector *)
Definition mean_vector (ty : mtype) (v : v3) (l : list prim) : R :=
  match ty with
  | TRIANGLES => dot (fold_left (fun c (t : prim) => match t with (p1, p2, p3) => vadd c (vadd (vadd p1 p2) p3) end) l vzero) v / (3 * INR (length l))
  | POINTCLOUD => fold_left (fun s (t : prim) => match t with (p1, _, _) => s + dot p1 v end) l 0 / INR (length l)
  end.

(** ComputeRuleMedianImpl (215-231) and computeSplitValue_median (614-639): the projections *)
Definition proj_axis (ty : mtype) (a : nat) (t : prim) : R :=
  match t with (p1, p2, p3) => match ty with TRIANGLES => (comp a p1 + comp a p2 + comp a p3) / 3 | POINTCLOUD => comp a p1 end end.
Definition proj_vector (ty : mtype) (v : v3) (t : prim) : R :=
  match t with (p1, p2, p3) => match ty with TRIANGLES => dot (vadd (vadd p1 p2) p3) v / 3 | POINTCLOUD => dot p1 v end end.
(** 233-242, 641-650; [sort] is std::sort *)
Definition median (sort : list R -> list R) (proj : list R) : R :=
  let n := length proj in let s := sort proj in
  if (n mod 2 =? 1)%nat then nth ((n - 1) / 2) s 0 else (nth (n / 2) s 0 + nth (n / 2 - 1) s 0) / 2.

(** computeRule (77-95) with the implementations for both kinds of volumes; computeSplitValue_bvcenter (549-554) takes the first
    coordinate of the center *)
Definition compute_rule (sort : list R -> list R) (m : method) (ty : mtype) (b : volume) (l : list prim) : rule :=
  match b with
  | Aligned centre dims => let a := longest dims in
      OnAxis a (match m with MEAN => mean_axis ty a l | MEDIAN => median sort (map (proj_axis ty a) l) | BV_CENTER => comp a centre end)
  | Oriented v centre =>
      OnVector v (match m with MEAN => mean_vector ty v l | MEDIAN => median sort (map (proj_vector ty v) l) | BV_CENTER => c0 centre end)
  end.

(** The split rule of the construction (C26): computeRule on the primitives of the node, apply on one of them *)
Definition split_rule {BV} (vol : BV -> volume) (sort : list R -> list R) (m : method) (ty : mtype) (prims : nat -> prim) (bv : BV) (cur : list nat) (i : nat) : bool :=
  apply (compute_rule sort m ty (vol bv) (map prims cur)) (centroid ty (prims i)).
