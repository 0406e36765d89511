(** Volume, center of mass and inertia of shapes and meshes. *)
From Coq Require Import Reals Lra List.
From Verif Require Import VecR HalfQuery Support ConvexMesh.
Import ListNotations.
Open Scope R_scope.

Definition diag (a b c : R) : mat3 := mkm (mk3 a 0 0) (mk3 0 b 0) (mk3 0 0 c).
Definition madd (A B : mat3) : mat3 := mkm (vadd (m0 A) (m0 B)) (vadd (m1 A) (m1 B)) (vadd (m2 A) (m2 B)).
Definition mscale (s : R) (A : mat3) : mat3 := mkm (vscale s (m0 A)) (vscale s (m1 A)) (vscale s (m2 A)).
Definition mzero : mat3 := mkm vzero vzero vzero.
Definition entry (i j : nat) (A : mat3) : R := comp i (col j A).

(** ** Shapes *)
(** computeVolume: box-inl.h 99-102, capsule-inl.h 83-86, cone-inl.h 83-86, cylinder-inl.h 83-86,
    ellipsoid-inl.h 103-107, sphere-inl.h 88-91; 0 by default (collision_geometry-inl.h 135-138,
    used by TriangleP, Halfspace and Plane). Decimal constants are exact reals. *)
Definition volume (s : shape) : R :=
  match s with
  | Box d => c0 d * c1 d * c2 d
  | Capsule r lz => PI * r * r * (lz + r * 4 / 3)
  | Cone r lz => PI * r * r * lz / 3
  | Cylinder r lz => PI * r * r * lz
  | Ellipsoid d => 4 * PI * c0 d * c1 d * c2 d / 3
  | Sphere r => 4 * PI * r * r * r / 3
  | _ => 0
  end.
(** computeCOM: cone-inl.h 101-104, the origin by default (collision_geometry-inl.h 121-124) *)
Definition com (s : shape) : v3 :=
  match s with Cone _ lz => mk3 0 0 (- (25 / 100) * lz) | _ => vzero end.
(** computeMomentofInertia: box-inl.h 106-117, capsule-inl.h 91-103, cone-inl.h 90-97,
    cylinder-inl.h 90-97, ellipsoid-inl.h 90-99, sphere-inl.h 79-84; zero by default *)
Definition inertia (s : shape) : mat3 :=
  let V := volume s in
  match s with
  | Box d =>
      let x := c0 d * c0 d * V in let y := c1 d * c1 d * V in let z := c2 d * c2 d * V in
      diag ((y + z) / 12) ((x + z) / 12) ((x + y) / 12)
  | Capsule r lz =>
      let vc := r * r * lz * PI in let vs := r * r * r * PI * 4 / 3 in
      let ix := vc * (lz * lz / 12 + r * r / 4) + vs * (4 / 10 * (r * r) + 25 / 100 * (lz * lz) + 3 * r * lz / 8) in
      diag ix ix ((5 / 10 * vc + 4 / 10 * vs) * (r * r))
  | Cone r lz => let ix := V * (1 / 10 * lz * lz + 3 * r * r / 20) in diag ix ix (3 / 10 * V * r * r)
  | Cylinder r lz => let ix := V * (3 * r * r + lz * lz) / 12 in diag ix ix (V * r * r / 2)
  | Ellipsoid d =>
      let x := c0 d * c0 d * V in let y := c1 d * c1 d * V in let z := c2 d * c2 d * V in
      diag (2 / 10 * (y + z)) (2 / 10 * (x + z)) (2 / 10 * (x + y))
  | Sphere r => let i := 4 / 10 * r * r * V in diag i i i
  | _ => mzero
  end.
(** computeMomentofInertiaRelatedToCOM, collision_geometry-inl.h 142-172; [C], [m] and [V] are the
    three virtual calls *)
Definition rel_com (C : mat3) (m : v3) (V : R) : mat3 :=
  mkm (mk3 (entry 0 0 C - V * (c1 m * c1 m + c2 m * c2 m)) (entry 1 0 C + V * c1 m * c0 m) (entry 2 0 C + V * c2 m * c0 m))
      (mk3 (entry 0 1 C + V * c0 m * c1 m) (entry 1 1 C - V * (c0 m * c0 m + c2 m * c2 m)) (entry 2 1 C + V * c2 m * c1 m))
      (mk3 (entry 0 2 C + V * c0 m * c2 m) (entry 1 2 C + V * c1 m * c2 m) (entry 2 2 C - V * (c0 m * c0 m + c1 m * c1 m))).

(** ** Triangle meshes *)
(** A triangle by its corners; the index array of the mesh is already resolved. *)
Definition tri3 : Type := v3 * v3 * v3.
Definition six_vol (t : tri3) : R := let '(a, b, c) := t in dot (cross a b) c.
Definition sum_six_vol (ts : list tri3) : R := fold_left (fun v t => v + six_vol t) ts 0.
(** BVHModel::computeVolume, BVH_model-inl.h 783-794 *)
Definition mesh_volume (ts : list tri3) : R := sum_six_vol ts / 6.
(** BVHModel::computeCOM, BVH_model-inl.h 766-779. The volume is not tested for 0; the theorems
    ask for a volume other than 0. *)
Definition mesh_com (ts : list tri3) : v3 :=
  vscale (/ (sum_six_vol ts * 4))
    (fold_left (fun m t => let '(a, b, c) := t in vadd m (vscale (six_vol t) (vadd (vadd a b) c))) ts vzero).
(** BVHModel::computeMomentofInertia, BVH_model-inl.h 798-829. The rows of A are the corners, so the
    columns of its transpose are. *)
Definition c_canonical : mat3 :=
  mkm (mk3 (1 / 60) (1 / 120) (1 / 120)) (mk3 (1 / 120) (1 / 60) (1 / 120)) (mk3 (1 / 120) (1 / 120) (1 / 60)).
Definition tri_cov (t : tri3) : mat3 :=
  let '(a, b, c) := t in let At := mkm a b c in mscale (six_vol t) (mmul (mmul At c_canonical) (mtrans At)).
Definition sum_cov (ts : list tri3) : mat3 := fold_left (fun C t => madd C (tri_cov t)) ts mzero.
Definition from_cov (C : mat3) : mat3 :=
  let tr := entry 0 0 C + entry 1 1 C + entry 2 2 C in
  mkm (mk3 (tr - entry 0 0 C) (- entry 1 0 C) (- entry 2 0 C))
      (mk3 (- entry 0 1 C) (tr - entry 1 1 C) (- entry 2 1 C))
      (mk3 (- entry 0 2 C) (- entry 1 2 C) (tr - entry 2 2 C)).
Definition mesh_inertia (ts : list tri3) : mat3 := from_cov (sum_cov ts).

(** ** Convex *)
(** The sides of a face: every entry with the next, the last with the first
    (convex-inl.h 137-139, 189-191, 235-237). *)
Definition turns {A} (f : list A) : list (A * A) := match f with [] => [] | x :: l => combine f (l ++ [x]) end.
(** the mean of the corners, added up from zero (convex-inl.h 125-131) *)
Definition face_center (f : list v3) : v3 := vscale (1 / INR (length f)) (fold_left vadd f vzero).
Definition fan (f : list v3) : list tri3 := map (fun e => (fst e, snd e, face_center f)) (turns f).
(** reading the vertices of a face; [None] is a read outside the vertex array *)
Fixpoint fetch (vs : list v3) (f : list nat) : option (list v3) :=
  match f with
  | [] => Some []
  | i :: f' => match nth_error vs i, fetch vs f' with Some v, Some l => Some (v :: l) | _, _ => None end
  end.
Fixpoint fetch_all (vs : list v3) (fs : list (list nat)) : option (list (list v3)) :=
  match fs with
  | [] => Some []
  | f :: fs' => match fetch vs f, fetch_all vs fs' with Some x, Some l => Some (x :: l) | _, _ => None end
  end.
(** The triangles the nested loops of convex-inl.h 123-151, 172-198 and 210-244 visit, in order;
    the face array is read by [decode] (ConvexMesh.v). *)
Definition convex_tris (vs : list v3) (num : nat) (faces : list nat) : option (list tri3) :=
  match decode num 0 faces with
  | None => None
  | Some fs => match fetch_all vs fs with Some l => Some (flat_map fan l) | None => None end
  end.
(** Convex::computeVolume (205-247), computeCOM (166-201), computeMomentofInertia (111-162) over those
    triangles: the same sums, but the inertia is multiplied by 6 / vol_times_six at the end (161). *)
Definition convex_volume := mesh_volume.
Definition convex_com := mesh_com.
Definition convex_inertia (ts : list tri3) : mat3 := mscale (6 / sum_six_vol ts) (from_cov (sum_cov ts)).
