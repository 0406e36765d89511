(** Collision of two shapes: ShapeShapeCollide, ShapeCollisionTraversalNode::leafTesting and the choice of the algorithm in
    shapeIntersect of the solvers (include/fcl/narrowphase/detail/traversal/collision/shape_collision_traversal_node-inl.h,
    collision_func_matrix-inl.h 278-311, gjk_solver_libccd-inl.h 110-345, gjk_solver_indep-inl.h 110-350). *)
From Coq Require Import Reals Lra Lia List Bool Arith Permutation.
From Verif Require Import VecR Motion Prim ShapeBV HalfBV HalfQuery.
From Verif Require Dispatch MeshFlat.
Import ListNotations.
Open Scope R_scope.

(** The shapes with an algorithm of their own; the sizes as in the models of the algorithms (C46-C50, C68, C69) *)
Inductive geom := GSphere (r : R) | GEll (radii : v3) | GBox (side : v3) | GCapsule (lz r : R) | GCyl (lz r : R) | GCone (lz r : R)
  | GConvex (vs : list v3) | GHalf (s : flat) | GPlane (s : flat).

(** What an algorithm says without a contact vector, what it says with one, and what it puts into it *)
Record answer := Ans { plain : bool; full : bool; found : list contact }.
Definition some {A} (o : option A) : bool := match o with Some _ => true | None => false end.
Definition one_contact (test : bool) (o : option contact) : answer := Ans test (some o) (match o with Some c => [c] | None => [] end).
Definition same (o : option contact) : answer := one_contact (some o) o.
(** contacts unused: halfspaceIntersect, planeHalfspaceIntersect and planeIntersect (gjk_solver_libccd-inl.h 269-345, plane-inl.h 761-778) *)
Definition no_contact (test : bool) : answer := Ans test test [].

Section Solver.
(** tolerances of the algorithms (eps of sphere-box and sphere-cylinder, tol of C68, machine epsilon), and numeric_limits::max() *)
Variables eps tol meps big : R.

(** ShapeIntersectLibccdImpl and ShapeIntersectIndepImpl, the specializations written in this order of the arguments
    (FCL_GJK_LIBCCD_SHAPE_SHAPE_INTERSECT_REG); boxBoxIntersect (C82, C83) is left out *)
Definition alg (g1 : geom) (X1 : tf) (g2 : geom) (X2 : tf) : option answer :=
  match g1, g2 with
  | GSphere r1, GSphere r2 => Some (same (ss_intersect r1 X1 r2 X2))
  | GSphere r1, GCapsule lz r => Some (same (sc_intersect r1 X1 lz r X2))
  | GSphere r1, GBox side => Some (same (sb_intersect eps r1 X1 side X2))
  | GSphere r1, GCyl lz r => Some (same (sy_intersect eps r1 X1 lz r X2))
  | GSphere r, GHalf s => Some (same (sphere_half r X1 (flat_transform s X2)))
  | GEll radii, GHalf s => Some (same (ell_half radii X1 s X2))
  | GBox side, GHalf s => Some (one_contact (box_half_test side X1 (flat_transform s X2)) (box_half tol side X1 (flat_transform s X2)))
  | GCapsule lz r, GHalf s => Some (same (capsule_half tol lz r X1 (flat_transform s X2)))
  | GCyl lz r, GHalf s => Some (same (cyl_half tol lz r X1 (flat_transform s X2)))
  | GCone lz r, GHalf s => Some (same (cone_half tol lz r X1 (flat_transform s X2)))
  | GConvex vs, GHalf s => Some (one_contact (convex_half_test big vs X1 s X2) (convex_half big vs X1 s X2))
  | GSphere r, GPlane s => Some (same (sphere_plane r X1 (flat_transform s X2)))
  | GEll radii, GPlane s => Some (same (ell_plane radii X1 s X2))
  | GBox side, GPlane s => Some (same (box_plane tol side X1 (flat_transform s X2)))
  | GCapsule lz r, GPlane s => Some (one_contact (capsule_plane_test lz r X1 (flat_transform s X2)) (capsule_plane tol lz r X1 (flat_transform s X2)))
  | GCyl lz r, GPlane s => Some (one_contact (cyl_plane_test lz r X1 (flat_transform s X2)) (cyl_plane tol lz r X1 (flat_transform s X2)))
  | GCone lz r, GPlane s => Some (same (cone_plane tol lz r X1 (flat_transform s X2)))
  | GHalf s1, GHalf s2 => Some (no_contact (half_half_test meps (flat_transform s1 X1) (flat_transform s2 X2)))
  | GPlane s1, GPlane s2 => Some (no_contact (plane_plane (flat_transform s1 X1) (flat_transform s2 X2)))
  | GPlane s1, GHalf s2 => Some (no_contact (plane_half_test meps (flat_transform s1 X1) (flat_transform s2 X2)))
  | _, _ => None
  end.

(** flipNormal (contact_point-inl.h 87-91) *)
Definition flip (c : contact) : contact := mkct (vneg (cnorm c)) (cpos c) (cdepth c).
Definition flipped (a : answer) : answer := Ans (plain a) (full a) (map flip (found a)).
(** shapeIntersect: also the pairs in the other order (FCL_GJK_LIBCCD_SHAPE_SHAPE_INTERSECT_INV, and halfspacePlaneIntersect,
    halfspace-inl.h 679-688).  None: the general algorithm (libccd, or GJK and EPA). *)
Definition solve (g1 : geom) (X1 : tf) (g2 : geom) (X2 : tf) : option answer :=
  match alg g1 X1 g2 X2 with Some a => Some a | None => option_map flipped (alg g2 X2 g1 X1) end.
End Solver.

(** leafTesting of two occupied shapes (shape_collision_traversal_node-inl.h 70-118), without the cost sources.  A contact is Some
    with enable_contact.  [psort k l] is l after std::partial_sort up to its element k by decreasing depth. *)
Definition shape_leaf (psort : nat -> list contact -> list contact) (enable : bool) (max : nat) (r : list (option contact)) (a : answer) : list (option contact) :=
  if enable then
    if full a then
      if (length r <? max)%nat then
        let free := (max - length r)%nat in
        r ++ map Some (if (free <? length (found a))%nat then firstn free (psort free (found a)) else found a)
      else r
    else r
  else if plain a then if (length r <? max)%nat then r ++ [None] else r else r.

(** ShapeShapeCollide (collision_func_matrix-inl.h 278-311) with isSatisfied (collision_request-inl.h 77-82); collide(&node)
    on two leaves is one leafTesting as BVTesting says false *)
Definition pair_collide (psort : nat -> list contact -> list contact) (enable cost : bool) (max : nat) (r : list (option contact)) (a : answer) : list (option contact) :=
  if negb cost && (0 <? length r)%nat && (max <=? length r)%nat then r else shape_leaf psort enable max r a.

(** ** Which algorithm there is for a pair of shapes *)
Inductive pair_routine := PSpecial | PSupport | PNull | POrigin.
(** The list of specializations (gjk_solver_libccd-inl.h 242-345; the same in gjk_solver_indep-inl.h) *)
Definition special (a b : Dispatch.shape) : bool :=
  match a, b with
  | Dispatch.Sphere, (Dispatch.Sphere | Dispatch.Capsule | Dispatch.Box | Dispatch.Cylinder) => true
  | Dispatch.Box, Dispatch.Box => true
  | (Dispatch.Sphere | Dispatch.Ellipsoid | Dispatch.Box | Dispatch.Capsule | Dispatch.Cylinder | Dispatch.Cone | Dispatch.Convex), Dispatch.Halfspace => true
  | (Dispatch.Sphere | Dispatch.Ellipsoid | Dispatch.Box | Dispatch.Capsule | Dispatch.Cylinder | Dispatch.Cone), Dispatch.Plane => true
  | (Dispatch.Halfspace | Dispatch.Plane), (Dispatch.Halfspace | Dispatch.Plane) => true
  | _, _ => false
  end.
(** the general template with GJKInitializer of both shapes, or MinkowskiDiff of both *)
Definition pair_alg (v : MeshFlat.solver) (a b : Dispatch.shape) : pair_routine :=
  if special a b || special b a then PSpecial
  else match v with
    | MeshFlat.Libccd => if MeshFlat.has_initializer a && MeshFlat.has_initializer b then PSupport else PNull
    | MeshFlat.Indep => if MeshFlat.has_support a && MeshFlat.has_support b then PSupport else POrigin
    end.
