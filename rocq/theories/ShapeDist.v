(** Distance of two shapes: ShapeShapeDistance, ShapeDistanceTraversalNode::leafTesting and the choice of the algorithm in
    shapeDistance of the solvers (include/fcl/narrowphase/detail/traversal/distance/shape_distance_traversal_node-inl.h,
    distance_func_matrix-inl.h 207-226, gjk_solver_libccd-inl.h 546-819, gjk_solver_indep-inl.h 590-853). *)
From Coq Require Import Reals List Bool.
From Verif Require Import VecR Motion Prim ShapePair.
From Verif Require Dispatch MeshFlat.
Open Scope R_scope.

(** What the leaf has in distance, closest_p1 and closest_p2 after the query.  An algorithm that returns false has set the distance
    to -1 and leaves the points, which leafTesting has set to zero (shape_distance_traversal_node-inl.h 76-85). *)
Definition gap := (R * v3 * v3)%type.
Definition or_meeting (o : option gap) : gap := match o with Some g => g | None => (-1, vzero, vzero) end.

(** ShapeDistanceLibccdImpl and ShapeDistanceIndepImpl, the specializations written in this order of the arguments
    (gjk_solver_libccd-inl.h 677-819; the same in gjk_solver_indep-inl.h 711-853); k stands for constants<S>::eps_78() *)
Definition dist_alg (k : R) (g1 : geom) (X1 : tf) (g2 : geom) (X2 : tf) : option gap :=
  match g1, g2 with
  | GSphere r1, GBox side => Some (or_meeting (sb_distance r1 X1 side X2))
  | GSphere r1, GCapsule lz r => Some (or_meeting (sc_distance r1 X1 lz r X2))
  | GSphere r1, GCyl lz r => Some (or_meeting (sy_distance r1 X1 lz r X2))
  | GSphere r1, GSphere r2 => Some (or_meeting (ss_distance r1 X1 r2 X2))
  | GCapsule lz1 r1, GCapsule lz2 r2 => Some (cc_distance k lz1 r1 X1 lz2 r2 X2)
  | _, _ => None
  end.
Definition swap_gap (g : gap) : gap := let '(d, p1, p2) := g in (d, p2, p1).
(** shapeDistance: also the pairs in the other order, with the two points exchanged.  None: the general algorithm. *)
Definition dist_solve (k : R) (g1 : geom) (X1 : tf) (g2 : geom) (X2 : tf) : option gap :=
  match dist_alg k g1 X1 g2 X2 with Some g => Some g | None => option_map swap_gap (dist_alg k g2 X2 g1 X1) end.

Section Result.
Variable O : Type.
(** DistanceResult (distance_result.h): without b1 and b2, which are NONE for shapes; an object is None for a null pointer *)
Record dres := DRes { dmin : R; ob1 : option O; ob2 : option O; pt1 : v3; pt2 : v3 }.
(** update (distance_result-inl.h 84-105) *)
Definition dupdate (r : dres) (d : R) (a b : O) (p1 p2 : v3) : dres := if Rlt_dec d (dmin r) then DRes d (Some a) (Some b) p1 p2 else r.
(** ShapeShapeDistance with isSatisfied (distance_request-inl.h 74-79); distance(&node) on two leaves is one leafTesting *)
Definition pair_distance (r : dres) (a b : O) (g : gap) : dres :=
  if Rle_dec (dmin r) 0 then r else let '(d, p1, p2) := g in dupdate r d a b p1 p2.
End Result.
Arguments DRes {O}. Arguments dmin {O}. Arguments ob1 {O}. Arguments ob2 {O}. Arguments pt1 {O}. Arguments pt2 {O}.
Arguments dupdate {O}. Arguments pair_distance {O}.

(** ** Which algorithm there is for a pair of shapes *)
(** The list of specializations (gjk_solver_libccd-inl.h 653-819) *)
Definition dist_special (a b : Dispatch.shape) : bool :=
  match a, b with
  | Dispatch.Sphere, (Dispatch.Box | Dispatch.Capsule | Dispatch.Cylinder | Dispatch.Sphere) => true
  | Dispatch.Capsule, Dispatch.Capsule => true
  | _, _ => false
  end.
(** shapeDistance, and with signed shapeSignedDistance: of libccd always the general template (546-576), of the other solver the
    same as shapeDistance (gjk_solver_indep-inl.h 663-692) *)
Definition dist_routine (v : MeshFlat.solver) (signed : bool) (a b : Dispatch.shape) : pair_routine :=
  if (dist_special a b || dist_special b a) && match v with MeshFlat.Libccd => negb signed | MeshFlat.Indep => true end then PSpecial
  else match v with
    | MeshFlat.Libccd => if MeshFlat.has_initializer a && MeshFlat.has_initializer b then PSupport else PNull
    | MeshFlat.Indep => if MeshFlat.has_support a && MeshFlat.has_support b then PSupport else POrigin
    end.
(** the class of a shape *)
Definition shape_of (g : geom) : Dispatch.shape :=
  match g with GSphere _ => Dispatch.Sphere | GEll _ => Dispatch.Ellipsoid | GBox _ => Dispatch.Box | GCapsule _ _ => Dispatch.Capsule | GCyl _ _ => Dispatch.Cylinder
  | GCone _ _ => Dispatch.Cone | GConvex _ => Dispatch.Convex | GHalf _ => Dispatch.Halfspace | GPlane _ => Dispatch.Plane end.
