(** Collision of a triangle mesh with a half-space or a plane: MeshShapeCollisionTraversalNodeOBB
    (include/fcl/narrowphase/detail/traversal/collision/mesh_shape_collision_traversal_node-inl.h 187-300) with the leaf tests
    of halfspace-inl.h and plane-inl.h, and which leaf test the solvers have for which mesh and shape. *)
From Coq Require Import Reals Lra Lia List Bool Arith.
From Verif Require Import VecR Motion Obb Prim HalfBV HalfQuery BvhModel MeshCollide MeshShape.
From Verif Require Dispatch.
Import ListNotations.
Open Scope R_scope.

(** shapeTriangleIntersect for a transformed triangle: ShapeTransformedTriangleIntersectLibccdImpl (gjk_solver_libccd-inl.h 500-543) and
    ShapeTransformedTriangleIntersectIndepImpl (gjk_solver_indep-inl.h 547-590); X1 places the mesh, X2 the half-space or plane.
    halfspaceTriangleIntersect and planeTriangleIntersect begin with transform(s1, tf1). *)
Definition half_hit (s : flat) (X1 X2 : tf) (P : tri3) : option contact :=
  let '(a, b, c) := P in tri_half (flat_transform s X2) a b c X1.
Definition plane_hit (s : flat) (X1 X2 : tf) (P : tri3) : option contact :=
  let '(a, b, c) := P in tri_plane (flat_transform s X2) a b c X1.

(** BVTesting of the OBB node (mesh_shape 276-285): model2_bv is computeBV(model2, tf2) (C67) *)
Definition half_apart (big : R) (X1 : tf) (v : obb) : bool := negb (obb_overlap_rt (tf_rot X1) (tf_tr X1) (half_obb big) v).
Definition plane_apart (big : R) (uo : v3 -> v3) (s : flat) (X1 X2 : tf) (v : obb) : bool := negb (obb_overlap_rt (tf_rot X1) (tf_tr X1) (plane_obb big uo s X2) v).

(** ** The leaf tests of the solvers *)
(** BVHShapeCollider (collision_func_matrix-inl.h 313-360) uses the node that moves the model into the world frame, its
    specializations (427-524) the nodes that keep the frames and pass both transforms *)
Definition keeps_frame (b : Dispatch.bvk) : bool :=
  match b with Dispatch.OBB | Dispatch.RSS | Dispatch.KIOS | Dispatch.OBBRSS => true | _ => false end.
Inductive solver := Libccd | Indep.
(** What runs: the sphere, half-space or plane routine, libccd or GJK with the support function of the shape; or libccd with null
    function pointers (undefined behaviour), or GJK with the support function that always gives the origin *)
Inductive routine := RSphere | RHalf | RPlane | RSupport | RNull | ROrigin.
(** GJKInitializer: specializations for seven shapes, otherwise null (gjk_libccd.h 74-170) *)
Definition has_initializer (s : Dispatch.shape) : bool :=
  match s with Dispatch.Cylinder | Dispatch.Sphere | Dispatch.Ellipsoid | Dispatch.Box | Dispatch.Capsule | Dispatch.Cone | Dispatch.Convex => true
  | Dispatch.Plane | Dispatch.Halfspace | Dispatch.TriangleP => false end.
(** getSupport: the default of the switch returns zero (minkowski_diff-inl.h 62-206) *)
Definition has_support (s : Dispatch.shape) : bool :=
  match s with Dispatch.Plane | Dispatch.Halfspace => false | _ => true end.
(** shapeTriangleIntersect: the general templates and their specializations for a triangle in the world frame
    (gjk_solver_libccd-inl.h 348-421, gjk_solver_indep-inl.h 352-446) and for a transformed one (422-543; 447-590) *)
Definition leaf_routine (v : solver) (transformed : bool) (s : Dispatch.shape) : routine :=
  match s, transformed with
  | Dispatch.Sphere, _ => RSphere
  | Dispatch.Halfspace, true => RHalf
  | Dispatch.Plane, true => RPlane
  | _, _ => match v with
      | Libccd => if has_initializer s then RSupport else RNull
      | Indep => if has_support s then RSupport else ROrigin
      end
  end.
(** The leaf test behind an entry of the collision table *)
Definition entry_routine (v : solver) (f : Dispatch.fn) : option routine :=
  match f with Dispatch.FMS b s => Some (leaf_routine v (keeps_frame b) s) | _ => None end.
