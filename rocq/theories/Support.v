(** Support functions of shapes and of their Minkowski difference:
    include/fcl/narrowphase/detail/convexity_based_algorithm/minkowski_diff-inl.h (getSupport,
    MinkowskiDiff) and the callbacks handed to libccd in gjk_libccd-inl.h 2371-2603.
    Over the reals; [std::sqrt], divisions are exact. *)
From Coq Require Import Reals Lra Lia List Bool.
From Verif Require Import VecR Motion Eigen3 Prim AabbDist ShapeBV HalfBV HalfQuery.
Import ListNotations.
Open Scope R_scope.

(** The shapes with a support function: include/fcl/geometry/shape/*.h.  [Other] stands for
    planes, half-spaces and octrees, which getSupport does not treat. *)
Inductive shape :=
| Tri (a b c : v3) | Box (side : v3) | Sphere (r : R) | Ellipsoid (radii : v3)
| Capsule (r lz : R) | Cone (r lz : R) | Cylinder (r lz : R) | Polytope (vs : list v3) | Other.

(** Their points in their own frame (empty for [Other], which is outside every statement). *)
Definition points (s : shape) : v3 -> Prop :=
  match s with
  | Tri a b c => in_tri a b c
  | Box side => boxset side
  | Sphere r => ball vzero r
  | Ellipsoid radii => ellset radii
  | Capsule r lz => capset lz r
  | Cone r lz => coneset lz r
  | Cylinder r lz => cylset lz r
  | Polytope vs => hull vs
  | Other => fun _ => False
  end.

(** loop over the vertices of a polytope, minkowski_diff-inl.h 168-183; [big] is
    numeric_limits<S>::max() *)
Definition far_step (d : v3) (st : R * v3) (v : v3) : R * v3 :=
  if Rlt_dec (fst st) (dot d v) then (dot d v, v) else st.
Definition far_vertex (big : R) (vs : list v3) (d : v3) : v3 := snd (fold_left (far_step d) vs (- big, vzero)).

(** the triangle branch, minkowski_diff-inl.h 79-99 *)
Definition tri_support (a b c d : v3) : v3 :=
  if Rlt_dec (dot d b) (dot d a) then (if Rlt_dec (dot d a) (dot d c) then c else a)
  else (if Rlt_dec (dot d b) (dot d c) then c else b).

(** the cone branch, minkowski_diff-inl.h 140-163, and supportCone, gjk_libccd-inl.h 2449-2479
    ([hh] is half the height) *)
Definition cone_support (r hh : R) (d : v3) : v3 :=
  let zdist := sqrt (c0 d * c0 d + c1 d * c1 d) in
  let len := sqrt (c0 d * c0 d + c1 d * c1 d + c2 d * c2 d) in
  let sin_a := r / sqrt (r * r + 4 * hh * hh) in
  if Rlt_dec (len * sin_a) (c2 d) then mk3 0 0 hh
  else if Rlt_dec 0 zdist then mk3 (r / zdist * c0 d) (r / zdist * c1 d) (- hh)
  else mk3 0 0 (- hh).

(** the ellipsoid branch, minkowski_diff-inl.h 113-126; a zero direction gives NaN in the code
    and is excluded by the statements *)
Definition ell_support (radii d : v3) : v3 :=
  let v := mk3 (c0 radii * c0 radii * c0 d) (c1 radii * c1 radii * c1 d) (c2 radii * c2 radii * c2 d) in
  vscale (/ sqrt (dot v d)) v.

(** getSupport, minkowski_diff-inl.h 63-193 *)
Definition get_support (big : R) (s : shape) (d : v3) : v3 :=
  match s with
  | Tri a b c => tri_support a b c d
  | Box side => mk3 (if Rlt_dec 0 (c0 d) then c0 side / 2 else - c0 side / 2)
                    (if Rlt_dec 0 (c1 d) then c1 side / 2 else - c1 side / 2)
                    (if Rlt_dec 0 (c2 d) then c2 side / 2 else - c2 side / 2)
  | Sphere r => vscale r d
  | Ellipsoid radii => ell_support radii d
  | Capsule r lz =>
      let hh := lz * (1/2) in
      let v := vscale r d in
      let pos1 := vadd (mk3 0 0 hh) v in let pos2 := vadd (mk3 0 0 (- hh)) v in
      if Rlt_dec (dot d pos2) (dot d pos1) then pos1 else pos2
  | Cone r lz => cone_support r (lz * (1/2)) d
  | Cylinder r lz =>
      let zdist := sqrt (c0 d * c0 d + c1 d * c1 d) in
      let hh := lz * (1/2) in
      let z := if Rlt_dec 0 (c2 d) then hh else - hh in
      if Req_EM_T zdist 0 then mk3 0 0 z else mk3 (r / zdist * c0 d) (r / zdist * c1 d) z
  | Polytope vs => far_vertex big vs d
  | Other => vzero
  end.

(** MinkowskiDiff (minkowski_diff.h 56-92): toshape1 and toshape0 *)
Record mdiff := Mdiff { sh0 : shape; sh1 : shape; toshape1 : mat3; toshape0 : tf }.
(** support0, support1, support (minkowski_diff-inl.h 204-225) *)
Definition support0 (big : R) (m : mdiff) (d : v3) : v3 := get_support big (sh0 m) d.
Definition support1 (big : R) (m : mdiff) (d : v3) : v3 := tf_apply (toshape0 m) (get_support big (sh1 m) (mapply (toshape1 m) d)).
Definition support (big : R) (m : mdiff) (d : v3) : v3 := vsub (support0 big m d) (support1 big m (vneg d)).
(** the variants where shape 0 moves along [v] (minkowski_diff-inl.h 237-253) *)
Definition support0_v (big : R) (m : mdiff) (d v : v3) : v3 :=
  if Rle_dec (dot d v) 0 then get_support big (sh0 m) d else vadd (get_support big (sh0 m) d) v.
Definition support_v (big : R) (m : mdiff) (d v : v3) : v3 := vsub (support0_v big m d v) (support1 big m (vneg d)).
(** how gjk_solver_indep-inl.h 125-129, 468-472, 609-613, 964-968 sets the two members *)
Definition mdiff_of (s0 s1 : shape) (X0 X1 : tf) : mdiff :=
  Mdiff s0 s1 (mmul (mtrans (tf_rot X1)) (tf_rot X0)) (tf_mul (tf_inverse X0) X1).
(** the variant for a triangle given in the world frame, 371-375, 873-877 *)
Definition mdiff_world (s0 s1 : shape) (X0 : tf) : mdiff := Mdiff s0 s1 (tf_rot X0) (tf_inverse X0).

(** ** The callbacks for libccd, gjk_libccd-inl.h.
    shapeToGJK (2296-2306) stores position, rotation quaternion and its inverse; ccdQuatRotVec is
    taken to rotate exactly, so the rotation matrix stands for the quaternion.  [eps] is CCD_EPS of
    ccdIsZero and ccdSign. *)
Definition ccd_zero (eps x : R) : bool := if Rlt_dec (Rabs x) eps then true else false.
Definition ccd_sign (eps x : R) : R := if ccd_zero eps x then 0 else if Rlt_dec x 0 then -1 else 1.
(** the part in the local frame: supportBox 2371-2391, supportCap 2393-2419, supportCyl 2421-2447,
    supportCone 2449-2479, supportSphere 2481-2497, supportEllipsoid 2499-2522, supportConvex
    2524-2549 (with [find] for Convex::findExtremeVertex), supportTriangle 2551-2579 *)
Definition sgn (x : R) : R := if Rle_dec 0 x then 1 else -1.
Definition ccd_tri_step (c d : v3) (st : R * v3) (p : v3) : R * v3 :=
  if Rlt_dec (fst st) (dot d (vsub p c)) then (dot d (vsub p c), p) else st.
Definition centroid (a b c : v3) : v3 :=
  mk3 ((c0 a + c0 b + c0 c) / 3) ((c1 a + c1 b + c1 c) / 3) ((c2 a + c2 b + c2 c) / 3).
Definition ccd_local (big eps : R) (find : list v3 -> v3 -> v3) (s : shape) (d : v3) : v3 :=
  match s with
  | Box side => mk3 (sgn (c0 d) * (c0 side / 2)) (sgn (c1 d) * (c1 side / 2)) (sgn (c2 d) * (c2 side / 2))
  | Capsule r lz =>
      let v := vscale r (vscale (1 / sqrt (dot d d)) d) in
      if Rlt_dec 0 (c2 d) then vadd (mk3 0 0 (lz / 2)) v else vadd (mk3 0 0 (- (lz / 2))) v
  | Cylinder r lz =>
      let zdist := sqrt (c0 d * c0 d + c1 d * c1 d) in
      if ccd_zero eps zdist then mk3 0 0 (ccd_sign eps (c2 d) * (lz / 2))
      else let rad := r / zdist in mk3 (rad * c0 d) (rad * c1 d) (ccd_sign eps (c2 d) * (lz / 2))
  | Cone r lz => cone_support r (lz / 2) d
  | Sphere r => vscale (1 / sqrt (dot d d)) (vscale r d)
  | Ellipsoid radii =>
      let v := mk3 (c0 radii * c0 radii * c0 d) (c1 radii * c1 radii * c1 d) (c2 radii * c2 radii * c2 d) in
      vscale (1 / sqrt (dot v d)) v
  | Polytope vs => find vs d
  | Tri a b c => snd (fold_left (ccd_tri_step (centroid a b c) d) [a; b; c] (- big, vzero))
  | Other => vzero
  end.
(** the frame change around each of them *)
Definition ccd_support (big eps : R) (find : list v3 -> v3 -> v3) (s : shape) (X : tf) (dir : v3) : v3 :=
  vadd (mapply (tf_rot X) (ccd_local big eps find s (mtapply (tf_rot X) dir))) (tf_tr X).
(** centerShape, centerConvex, centerTriangle (2581-2603); the interior point of a polytope is the
    mean of its vertices (convex-inl.h 73-80) *)
Definition mean (vs : list v3) : v3 := vscale (1 / INR (length vs)) (fold_left vadd vs vzero).
Definition ccd_center (s : shape) (X : tf) : v3 :=
  match s with
  | Polytope vs => vadd (mapply (tf_rot X) (mean vs)) (tf_tr X)
  | Tri a b c => vadd (mapply (tf_rot X) (centroid a b c)) (tf_tr X)
  | _ => tf_tr X
  end.
