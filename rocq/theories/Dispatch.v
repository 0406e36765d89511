(** The tables that choose the function for a pair of geometries, and the calls through them:
    include/fcl/narrowphase/detail/collision_func_matrix-inl.h, distance_func_matrix-inl.h,
    conservative_advancement_func_matrix-inl.h, and collide() / distance() / continuousCollideConservativeAdvancement() of
    include/fcl/narrowphase/.  The functions themselves are the subject of other files; here only which one is called, with
    which arguments. *)
From Coq Require Import List Bool Arith.
Import ListNotations.

(** The classes of geometries: the shapes (include/fcl/geometry/shape), BVHModel<BV>, OcTree; [MeshOther] is a BVHModel of another
    volume, [Other] any other class derived from CollisionGeometry *)
Inductive shape := Box | Sphere | Ellipsoid | Capsule | Cone | Cylinder | Convex | Plane | Halfspace | TriangleP.
Inductive bvk := AABB | OBB | RSS | KIOS | OBBRSS | KDOP16 | KDOP18 | KDOP24.
Inductive cls := Shape (s : shape) | Mesh (b : bvk) | MeshOther | Oct | Other.

(** NODE_TYPE and OBJECT_TYPE (include/fcl/geometry/collision_geometry.h 50-54) *)
Inductive ntype := BV_UNKNOWN | BV_AABB | BV_OBB | BV_RSS | BV_kIOS | BV_OBBRSS | BV_KDOP16 | BV_KDOP18 | BV_KDOP24
  | GEOM_BOX | GEOM_SPHERE | GEOM_ELLIPSOID | GEOM_CAPSULE | GEOM_CONE | GEOM_CYLINDER | GEOM_CONVEX | GEOM_PLANE | GEOM_HALFSPACE | GEOM_TRIANGLE | GEOM_OCTREE.
Inductive otype := OT_UNKNOWN | OT_BVH | OT_GEOM | OT_OCTREE.
Definition ntype_eq (a b : ntype) : {a = b} + {a <> b}. Proof. decide equality. Defined.

(** getNodeType: of the shapes (box-inl.h 92, sphere-inl.h 73, ellipsoid-inl.h 83, capsule-inl.h 76, cone-inl.h 76, cylinder-inl.h 76,
    convex-inl.h 100, plane-inl.h 132, halfspace-inl.h 132, triangle_p-inl.h 73), of BVHModel (BVH_model-inl.h 190-203, 1182-1259),
    of OcTree (octree-inl.h 231), and the default (collision_geometry-inl.h 79) *)
Definition node_of (c : cls) : ntype :=
  match c with
  | Shape Box => GEOM_BOX | Shape Sphere => GEOM_SPHERE | Shape Ellipsoid => GEOM_ELLIPSOID | Shape Capsule => GEOM_CAPSULE | Shape Cone => GEOM_CONE
  | Shape Cylinder => GEOM_CYLINDER | Shape Convex => GEOM_CONVEX | Shape Plane => GEOM_PLANE | Shape Halfspace => GEOM_HALFSPACE | Shape TriangleP => GEOM_TRIANGLE
  | Mesh AABB => BV_AABB | Mesh OBB => BV_OBB | Mesh RSS => BV_RSS | Mesh KIOS => BV_kIOS | Mesh OBBRSS => BV_OBBRSS
  | Mesh KDOP16 => BV_KDOP16 | Mesh KDOP18 => BV_KDOP18 | Mesh KDOP24 => BV_KDOP24
  | MeshOther => BV_UNKNOWN | Oct => GEOM_OCTREE | Other => BV_UNKNOWN
  end.
(** getObjectType (shape_base-inl.h 60, BVH_model-inl.h 183, octree-inl.h 224, collision_geometry-inl.h 72) *)
Definition object_of (c : cls) : otype :=
  match c with Shape _ => OT_GEOM | Mesh _ | MeshOther => OT_BVH | Oct => OT_OCTREE | Other => OT_UNKNOWN end.

(** The function templates with their arguments, the same in the three tables: ShapeShapeCollide and so on.  In this order:
    shape-shape, mesh-shape, shape-mesh, mesh-mesh, octree-shape, shape-octree, octree-octree, octree-mesh, mesh-octree *)
Inductive fn := FSS (a b : shape) | FMS (a : bvk) (b : shape) | FSM (a : shape) (b : bvk) | FMM (a : bvk)
  | FOS (b : shape) | FSO (a : shape) | FOO | FOM (b : bvk) | FMO (a : bvk).
(** The classes the two arguments are cast to without a check (static_cast: collision_func_matrix-inl.h 107-584, distance_func_matrix-inl.h
    99-398, conservative_advancement_func_matrix-inl.h 700-765) *)
Definition casts (f : fn) : cls * cls :=
  match f with
  | FSS a b => (Shape a, Shape b) | FMS a b => (Mesh a, Shape b) | FSM a b => (Shape a, Mesh b) | FMM a => (Mesh a, Mesh a)
  | FOS b => (Oct, Shape b) | FSO a => (Shape a, Oct) | FOO => (Oct, Oct) | FOM b => (Oct, Mesh b) | FMO a => (Mesh a, Oct)
  end.

(** The constructors of the tables are lists of assignments m[row][column] = f after all entries are set to null; the second
    list of a table is the part under FCL_HAVE_OCTOMAP *)
Definition assign : Type := ntype * ntype * fn.
Definition table : Type := ntype -> ntype -> option fn.
Definition set (t : table) (x : assign) : table :=
  let '(r, c, f) := x in fun r' c' => if ntype_eq r r' then if ntype_eq c c' then Some f else t r' c' else t r' c'.
Definition build (l : list assign) : table := fold_left set l (fun _ _ => None).

(** CollisionFunctionMatrix (collision_func_matrix-inl.h 663-904) *)
Definition collision_list : list assign := [
   (GEOM_BOX, GEOM_BOX, FSS Box Box); (GEOM_BOX, GEOM_SPHERE, FSS Box Sphere); (GEOM_BOX, GEOM_ELLIPSOID, FSS Box Ellipsoid); (GEOM_BOX, GEOM_CAPSULE, FSS Box Capsule);
   (GEOM_BOX, GEOM_CONE, FSS Box Cone); (GEOM_BOX, GEOM_CYLINDER, FSS Box Cylinder); (GEOM_BOX, GEOM_CONVEX, FSS Box Convex); (GEOM_BOX, GEOM_PLANE, FSS Box Plane);
   (GEOM_BOX, GEOM_HALFSPACE, FSS Box Halfspace); (GEOM_SPHERE, GEOM_BOX, FSS Sphere Box); (GEOM_SPHERE, GEOM_SPHERE, FSS Sphere Sphere); (GEOM_SPHERE, GEOM_ELLIPSOID, FSS Sphere Ellipsoid);
   (GEOM_SPHERE, GEOM_CAPSULE, FSS Sphere Capsule); (GEOM_SPHERE, GEOM_CONE, FSS Sphere Cone); (GEOM_SPHERE, GEOM_CYLINDER, FSS Sphere Cylinder); (GEOM_SPHERE, GEOM_CONVEX, FSS Sphere Convex);
   (GEOM_SPHERE, GEOM_PLANE, FSS Sphere Plane); (GEOM_SPHERE, GEOM_HALFSPACE, FSS Sphere Halfspace); (GEOM_ELLIPSOID, GEOM_BOX, FSS Ellipsoid Box); (GEOM_ELLIPSOID, GEOM_SPHERE, FSS Ellipsoid Sphere);
   (GEOM_ELLIPSOID, GEOM_ELLIPSOID, FSS Ellipsoid Ellipsoid); (GEOM_ELLIPSOID, GEOM_CAPSULE, FSS Ellipsoid Capsule); (GEOM_ELLIPSOID, GEOM_CONE, FSS Ellipsoid Cone); (GEOM_ELLIPSOID, GEOM_CYLINDER, FSS Ellipsoid Cylinder);
   (GEOM_ELLIPSOID, GEOM_CONVEX, FSS Ellipsoid Convex); (GEOM_ELLIPSOID, GEOM_PLANE, FSS Ellipsoid Plane); (GEOM_ELLIPSOID, GEOM_HALFSPACE, FSS Ellipsoid Halfspace); (GEOM_CAPSULE, GEOM_BOX, FSS Capsule Box);
   (GEOM_CAPSULE, GEOM_SPHERE, FSS Capsule Sphere); (GEOM_CAPSULE, GEOM_ELLIPSOID, FSS Capsule Ellipsoid); (GEOM_CAPSULE, GEOM_CAPSULE, FSS Capsule Capsule); (GEOM_CAPSULE, GEOM_CONE, FSS Capsule Cone);
   (GEOM_CAPSULE, GEOM_CYLINDER, FSS Capsule Cylinder); (GEOM_CAPSULE, GEOM_CONVEX, FSS Capsule Convex); (GEOM_CAPSULE, GEOM_PLANE, FSS Capsule Plane); (GEOM_CAPSULE, GEOM_HALFSPACE, FSS Capsule Halfspace);
   (GEOM_CONE, GEOM_BOX, FSS Cone Box); (GEOM_CONE, GEOM_SPHERE, FSS Cone Sphere); (GEOM_CONE, GEOM_ELLIPSOID, FSS Cone Ellipsoid); (GEOM_CONE, GEOM_CAPSULE, FSS Cone Capsule);
   (GEOM_CONE, GEOM_CONE, FSS Cone Cone); (GEOM_CONE, GEOM_CYLINDER, FSS Cone Cylinder); (GEOM_CONE, GEOM_CONVEX, FSS Cone Convex); (GEOM_CONE, GEOM_PLANE, FSS Cone Plane);
   (GEOM_CONE, GEOM_HALFSPACE, FSS Cone Halfspace); (GEOM_CYLINDER, GEOM_BOX, FSS Cylinder Box); (GEOM_CYLINDER, GEOM_SPHERE, FSS Cylinder Sphere); (GEOM_CYLINDER, GEOM_ELLIPSOID, FSS Cylinder Ellipsoid);
   (GEOM_CYLINDER, GEOM_CAPSULE, FSS Cylinder Capsule); (GEOM_CYLINDER, GEOM_CONE, FSS Cylinder Cone); (GEOM_CYLINDER, GEOM_CYLINDER, FSS Cylinder Cylinder); (GEOM_CYLINDER, GEOM_CONVEX, FSS Cylinder Convex);
   (GEOM_CYLINDER, GEOM_PLANE, FSS Cylinder Plane); (GEOM_CYLINDER, GEOM_HALFSPACE, FSS Cylinder Halfspace); (GEOM_CONVEX, GEOM_BOX, FSS Convex Box); (GEOM_CONVEX, GEOM_SPHERE, FSS Convex Sphere);
   (GEOM_CONVEX, GEOM_ELLIPSOID, FSS Convex Ellipsoid); (GEOM_CONVEX, GEOM_CAPSULE, FSS Convex Capsule); (GEOM_CONVEX, GEOM_CONE, FSS Convex Cone); (GEOM_CONVEX, GEOM_CYLINDER, FSS Convex Cylinder);
   (GEOM_CONVEX, GEOM_CONVEX, FSS Convex Convex); (GEOM_CONVEX, GEOM_PLANE, FSS Convex Plane); (GEOM_CONVEX, GEOM_HALFSPACE, FSS Convex Halfspace); (GEOM_PLANE, GEOM_BOX, FSS Plane Box);
   (GEOM_PLANE, GEOM_SPHERE, FSS Plane Sphere); (GEOM_PLANE, GEOM_ELLIPSOID, FSS Plane Ellipsoid); (GEOM_PLANE, GEOM_CAPSULE, FSS Plane Capsule); (GEOM_PLANE, GEOM_CONE, FSS Plane Cone);
   (GEOM_PLANE, GEOM_CYLINDER, FSS Plane Cylinder); (GEOM_PLANE, GEOM_CONVEX, FSS Plane Convex); (GEOM_PLANE, GEOM_PLANE, FSS Plane Plane); (GEOM_PLANE, GEOM_HALFSPACE, FSS Plane Halfspace);
   (GEOM_HALFSPACE, GEOM_BOX, FSS Halfspace Box); (GEOM_HALFSPACE, GEOM_SPHERE, FSS Halfspace Sphere); (GEOM_HALFSPACE, GEOM_ELLIPSOID, FSS Halfspace Ellipsoid); (GEOM_HALFSPACE, GEOM_CAPSULE, FSS Halfspace Capsule);
   (GEOM_HALFSPACE, GEOM_CONE, FSS Halfspace Cone); (GEOM_HALFSPACE, GEOM_CYLINDER, FSS Halfspace Cylinder); (GEOM_HALFSPACE, GEOM_CONVEX, FSS Halfspace Convex); (GEOM_HALFSPACE, GEOM_PLANE, FSS Halfspace Plane);
   (GEOM_HALFSPACE, GEOM_HALFSPACE, FSS Halfspace Halfspace); (BV_AABB, GEOM_BOX, FMS AABB Box); (BV_AABB, GEOM_SPHERE, FMS AABB Sphere); (BV_AABB, GEOM_ELLIPSOID, FMS AABB Ellipsoid);
   (BV_AABB, GEOM_CAPSULE, FMS AABB Capsule); (BV_AABB, GEOM_CONE, FMS AABB Cone); (BV_AABB, GEOM_CYLINDER, FMS AABB Cylinder); (BV_AABB, GEOM_CONVEX, FMS AABB Convex);
   (BV_AABB, GEOM_PLANE, FMS AABB Plane); (BV_AABB, GEOM_HALFSPACE, FMS AABB Halfspace); (BV_OBB, GEOM_BOX, FMS OBB Box); (BV_OBB, GEOM_SPHERE, FMS OBB Sphere);
   (BV_OBB, GEOM_ELLIPSOID, FMS OBB Ellipsoid); (BV_OBB, GEOM_CAPSULE, FMS OBB Capsule); (BV_OBB, GEOM_CONE, FMS OBB Cone); (BV_OBB, GEOM_CYLINDER, FMS OBB Cylinder);
   (BV_OBB, GEOM_CONVEX, FMS OBB Convex); (BV_OBB, GEOM_PLANE, FMS OBB Plane); (BV_OBB, GEOM_HALFSPACE, FMS OBB Halfspace); (BV_RSS, GEOM_BOX, FMS RSS Box);
   (BV_RSS, GEOM_SPHERE, FMS RSS Sphere); (BV_RSS, GEOM_ELLIPSOID, FMS RSS Ellipsoid); (BV_RSS, GEOM_CAPSULE, FMS RSS Capsule); (BV_RSS, GEOM_CONE, FMS RSS Cone);
   (BV_RSS, GEOM_CYLINDER, FMS RSS Cylinder); (BV_RSS, GEOM_CONVEX, FMS RSS Convex); (BV_RSS, GEOM_PLANE, FMS RSS Plane); (BV_RSS, GEOM_HALFSPACE, FMS RSS Halfspace);
   (BV_KDOP16, GEOM_BOX, FMS KDOP16 Box); (BV_KDOP16, GEOM_SPHERE, FMS KDOP16 Sphere); (BV_KDOP16, GEOM_ELLIPSOID, FMS KDOP16 Ellipsoid); (BV_KDOP16, GEOM_CAPSULE, FMS KDOP16 Capsule);
   (BV_KDOP16, GEOM_CONE, FMS KDOP16 Cone); (BV_KDOP16, GEOM_CYLINDER, FMS KDOP16 Cylinder); (BV_KDOP16, GEOM_CONVEX, FMS KDOP16 Convex); (BV_KDOP16, GEOM_PLANE, FMS KDOP16 Plane);
   (BV_KDOP16, GEOM_HALFSPACE, FMS KDOP16 Halfspace); (BV_KDOP18, GEOM_BOX, FMS KDOP18 Box); (BV_KDOP18, GEOM_SPHERE, FMS KDOP18 Sphere); (BV_KDOP18, GEOM_ELLIPSOID, FMS KDOP18 Ellipsoid);
   (BV_KDOP18, GEOM_CAPSULE, FMS KDOP18 Capsule); (BV_KDOP18, GEOM_CONE, FMS KDOP18 Cone); (BV_KDOP18, GEOM_CYLINDER, FMS KDOP18 Cylinder); (BV_KDOP18, GEOM_CONVEX, FMS KDOP18 Convex);
   (BV_KDOP18, GEOM_PLANE, FMS KDOP18 Plane); (BV_KDOP18, GEOM_HALFSPACE, FMS KDOP18 Halfspace); (BV_KDOP24, GEOM_BOX, FMS KDOP24 Box); (BV_KDOP24, GEOM_SPHERE, FMS KDOP24 Sphere);
   (BV_KDOP24, GEOM_ELLIPSOID, FMS KDOP24 Ellipsoid); (BV_KDOP24, GEOM_CAPSULE, FMS KDOP24 Capsule); (BV_KDOP24, GEOM_CONE, FMS KDOP24 Cone); (BV_KDOP24, GEOM_CYLINDER, FMS KDOP24 Cylinder);
   (BV_KDOP24, GEOM_CONVEX, FMS KDOP24 Convex); (BV_KDOP24, GEOM_PLANE, FMS KDOP24 Plane); (BV_KDOP24, GEOM_HALFSPACE, FMS KDOP24 Halfspace); (BV_kIOS, GEOM_BOX, FMS KIOS Box);
   (BV_kIOS, GEOM_SPHERE, FMS KIOS Sphere); (BV_kIOS, GEOM_ELLIPSOID, FMS KIOS Ellipsoid); (BV_kIOS, GEOM_CAPSULE, FMS KIOS Capsule); (BV_kIOS, GEOM_CONE, FMS KIOS Cone);
   (BV_kIOS, GEOM_CYLINDER, FMS KIOS Cylinder); (BV_kIOS, GEOM_CONVEX, FMS KIOS Convex); (BV_kIOS, GEOM_PLANE, FMS KIOS Plane); (BV_kIOS, GEOM_HALFSPACE, FMS KIOS Halfspace);
   (BV_OBBRSS, GEOM_BOX, FMS OBBRSS Box); (BV_OBBRSS, GEOM_SPHERE, FMS OBBRSS Sphere); (BV_OBBRSS, GEOM_ELLIPSOID, FMS OBBRSS Ellipsoid); (BV_OBBRSS, GEOM_CAPSULE, FMS OBBRSS Capsule);
   (BV_OBBRSS, GEOM_CONE, FMS OBBRSS Cone); (BV_OBBRSS, GEOM_CYLINDER, FMS OBBRSS Cylinder); (BV_OBBRSS, GEOM_CONVEX, FMS OBBRSS Convex); (BV_OBBRSS, GEOM_PLANE, FMS OBBRSS Plane);
   (BV_OBBRSS, GEOM_HALFSPACE, FMS OBBRSS Halfspace); (BV_AABB, BV_AABB, FMM AABB); (BV_OBB, BV_OBB, FMM OBB); (BV_RSS, BV_RSS, FMM RSS);
   (BV_KDOP16, BV_KDOP16, FMM KDOP16); (BV_KDOP18, BV_KDOP18, FMM KDOP18); (BV_KDOP24, BV_KDOP24, FMM KDOP24); (BV_kIOS, BV_kIOS, FMM KIOS);
   (BV_OBBRSS, BV_OBBRSS, FMM OBBRSS)].
Definition collision_octo : list assign := [
   (GEOM_OCTREE, GEOM_BOX, FOS Box); (GEOM_OCTREE, GEOM_SPHERE, FOS Sphere); (GEOM_OCTREE, GEOM_ELLIPSOID, FOS Ellipsoid); (GEOM_OCTREE, GEOM_CAPSULE, FOS Capsule);
   (GEOM_OCTREE, GEOM_CONE, FOS Cone); (GEOM_OCTREE, GEOM_CYLINDER, FOS Cylinder); (GEOM_OCTREE, GEOM_CONVEX, FOS Convex); (GEOM_OCTREE, GEOM_PLANE, FOS Plane);
   (GEOM_OCTREE, GEOM_HALFSPACE, FOS Halfspace); (GEOM_BOX, GEOM_OCTREE, FSO Box); (GEOM_SPHERE, GEOM_OCTREE, FSO Sphere); (GEOM_ELLIPSOID, GEOM_OCTREE, FSO Ellipsoid);
   (GEOM_CAPSULE, GEOM_OCTREE, FSO Capsule); (GEOM_CONE, GEOM_OCTREE, FSO Cone); (GEOM_CYLINDER, GEOM_OCTREE, FSO Cylinder); (GEOM_CONVEX, GEOM_OCTREE, FSO Convex);
   (GEOM_PLANE, GEOM_OCTREE, FSO Plane); (GEOM_HALFSPACE, GEOM_OCTREE, FSO Halfspace); (GEOM_OCTREE, GEOM_OCTREE, FOO); (GEOM_OCTREE, BV_AABB, FOM AABB);
   (GEOM_OCTREE, BV_OBB, FOM OBB); (GEOM_OCTREE, BV_RSS, FOM RSS); (GEOM_OCTREE, BV_OBBRSS, FOM OBBRSS); (GEOM_OCTREE, BV_kIOS, FOM KIOS);
   (GEOM_OCTREE, BV_KDOP16, FOM KDOP16); (GEOM_OCTREE, BV_KDOP18, FOM KDOP18); (GEOM_OCTREE, BV_KDOP24, FOM KDOP24); (BV_AABB, GEOM_OCTREE, FMO AABB);
   (BV_OBB, GEOM_OCTREE, FMO OBB); (BV_RSS, GEOM_OCTREE, FMO RSS); (BV_OBBRSS, GEOM_OCTREE, FMO OBBRSS); (BV_kIOS, GEOM_OCTREE, FMO KIOS);
   (BV_KDOP16, GEOM_OCTREE, FMO KDOP16); (BV_KDOP18, GEOM_OCTREE, FMO KDOP18); (BV_KDOP24, GEOM_OCTREE, FMO KDOP24)].

(** DistanceFunctionMatrix (distance_func_matrix-inl.h 474-707) *)
Definition distance_list : list assign := [
   (GEOM_BOX, GEOM_BOX, FSS Box Box); (GEOM_BOX, GEOM_SPHERE, FSS Box Sphere); (GEOM_BOX, GEOM_ELLIPSOID, FSS Box Ellipsoid); (GEOM_BOX, GEOM_CAPSULE, FSS Box Capsule);
   (GEOM_BOX, GEOM_CONE, FSS Box Cone); (GEOM_BOX, GEOM_CYLINDER, FSS Box Cylinder); (GEOM_BOX, GEOM_CONVEX, FSS Box Convex); (GEOM_BOX, GEOM_PLANE, FSS Box Plane);
   (GEOM_BOX, GEOM_HALFSPACE, FSS Box Halfspace); (GEOM_SPHERE, GEOM_BOX, FSS Sphere Box); (GEOM_SPHERE, GEOM_SPHERE, FSS Sphere Sphere); (GEOM_SPHERE, GEOM_ELLIPSOID, FSS Sphere Ellipsoid);
   (GEOM_SPHERE, GEOM_CAPSULE, FSS Sphere Capsule); (GEOM_SPHERE, GEOM_CONE, FSS Sphere Cone); (GEOM_SPHERE, GEOM_CYLINDER, FSS Sphere Cylinder); (GEOM_SPHERE, GEOM_CONVEX, FSS Sphere Convex);
   (GEOM_SPHERE, GEOM_PLANE, FSS Sphere Plane); (GEOM_SPHERE, GEOM_HALFSPACE, FSS Sphere Halfspace); (GEOM_ELLIPSOID, GEOM_BOX, FSS Ellipsoid Box); (GEOM_ELLIPSOID, GEOM_SPHERE, FSS Ellipsoid Sphere);
   (GEOM_ELLIPSOID, GEOM_ELLIPSOID, FSS Ellipsoid Ellipsoid); (GEOM_ELLIPSOID, GEOM_CAPSULE, FSS Ellipsoid Capsule); (GEOM_ELLIPSOID, GEOM_CONE, FSS Ellipsoid Cone); (GEOM_ELLIPSOID, GEOM_CYLINDER, FSS Ellipsoid Cylinder);
   (GEOM_ELLIPSOID, GEOM_CONVEX, FSS Ellipsoid Convex); (GEOM_ELLIPSOID, GEOM_PLANE, FSS Ellipsoid Plane); (GEOM_ELLIPSOID, GEOM_HALFSPACE, FSS Ellipsoid Halfspace); (GEOM_CAPSULE, GEOM_BOX, FSS Capsule Box);
   (GEOM_CAPSULE, GEOM_SPHERE, FSS Capsule Sphere); (GEOM_CAPSULE, GEOM_ELLIPSOID, FSS Capsule Ellipsoid); (GEOM_CAPSULE, GEOM_CAPSULE, FSS Capsule Capsule); (GEOM_CAPSULE, GEOM_CONE, FSS Capsule Cone);
   (GEOM_CAPSULE, GEOM_CYLINDER, FSS Capsule Cylinder); (GEOM_CAPSULE, GEOM_CONVEX, FSS Capsule Convex); (GEOM_CAPSULE, GEOM_PLANE, FSS Capsule Plane); (GEOM_CAPSULE, GEOM_HALFSPACE, FSS Capsule Halfspace);
   (GEOM_CONE, GEOM_BOX, FSS Cone Box); (GEOM_CONE, GEOM_SPHERE, FSS Cone Sphere); (GEOM_CONE, GEOM_ELLIPSOID, FSS Cone Ellipsoid); (GEOM_CONE, GEOM_CAPSULE, FSS Cone Capsule);
   (GEOM_CONE, GEOM_CONE, FSS Cone Cone); (GEOM_CONE, GEOM_CYLINDER, FSS Cone Cylinder); (GEOM_CONE, GEOM_CONVEX, FSS Cone Convex); (GEOM_CONE, GEOM_PLANE, FSS Cone Plane);
   (GEOM_CONE, GEOM_HALFSPACE, FSS Cone Halfspace); (GEOM_CYLINDER, GEOM_BOX, FSS Cylinder Box); (GEOM_CYLINDER, GEOM_SPHERE, FSS Cylinder Sphere); (GEOM_CYLINDER, GEOM_ELLIPSOID, FSS Cylinder Ellipsoid);
   (GEOM_CYLINDER, GEOM_CAPSULE, FSS Cylinder Capsule); (GEOM_CYLINDER, GEOM_CONE, FSS Cylinder Cone); (GEOM_CYLINDER, GEOM_CYLINDER, FSS Cylinder Cylinder); (GEOM_CYLINDER, GEOM_CONVEX, FSS Cylinder Convex);
   (GEOM_CYLINDER, GEOM_PLANE, FSS Cylinder Plane); (GEOM_CYLINDER, GEOM_HALFSPACE, FSS Cylinder Halfspace); (GEOM_CONVEX, GEOM_BOX, FSS Convex Box); (GEOM_CONVEX, GEOM_SPHERE, FSS Convex Sphere);
   (GEOM_CONVEX, GEOM_ELLIPSOID, FSS Convex Ellipsoid); (GEOM_CONVEX, GEOM_CAPSULE, FSS Convex Capsule); (GEOM_CONVEX, GEOM_CONE, FSS Convex Cone); (GEOM_CONVEX, GEOM_CYLINDER, FSS Convex Cylinder);
   (GEOM_CONVEX, GEOM_CONVEX, FSS Convex Convex); (GEOM_CONVEX, GEOM_PLANE, FSS Convex Plane); (GEOM_CONVEX, GEOM_HALFSPACE, FSS Convex Halfspace); (GEOM_PLANE, GEOM_BOX, FSS Plane Box);
   (GEOM_PLANE, GEOM_SPHERE, FSS Plane Sphere); (GEOM_PLANE, GEOM_ELLIPSOID, FSS Plane Ellipsoid); (GEOM_PLANE, GEOM_CAPSULE, FSS Plane Capsule); (GEOM_PLANE, GEOM_CONE, FSS Plane Cone);
   (GEOM_PLANE, GEOM_CYLINDER, FSS Plane Cylinder); (GEOM_PLANE, GEOM_CONVEX, FSS Plane Convex); (GEOM_PLANE, GEOM_PLANE, FSS Plane Plane); (GEOM_PLANE, GEOM_HALFSPACE, FSS Plane Halfspace);
   (GEOM_HALFSPACE, GEOM_BOX, FSS Halfspace Box); (GEOM_HALFSPACE, GEOM_SPHERE, FSS Halfspace Sphere); (GEOM_HALFSPACE, GEOM_CAPSULE, FSS Halfspace Capsule); (GEOM_HALFSPACE, GEOM_CONE, FSS Halfspace Cone);
   (GEOM_HALFSPACE, GEOM_CYLINDER, FSS Halfspace Cylinder); (GEOM_HALFSPACE, GEOM_CONVEX, FSS Halfspace Convex); (GEOM_HALFSPACE, GEOM_PLANE, FSS Halfspace Plane); (GEOM_HALFSPACE, GEOM_HALFSPACE, FSS Halfspace Halfspace);
   (BV_AABB, GEOM_BOX, FMS AABB Box); (BV_AABB, GEOM_SPHERE, FMS AABB Sphere); (BV_AABB, GEOM_ELLIPSOID, FMS AABB Ellipsoid); (BV_AABB, GEOM_CAPSULE, FMS AABB Capsule);
   (BV_AABB, GEOM_CONE, FMS AABB Cone); (BV_AABB, GEOM_CYLINDER, FMS AABB Cylinder); (BV_AABB, GEOM_CONVEX, FMS AABB Convex); (BV_AABB, GEOM_PLANE, FMS AABB Plane);
   (BV_AABB, GEOM_HALFSPACE, FMS AABB Halfspace); (BV_OBB, GEOM_BOX, FMS OBB Box); (BV_OBB, GEOM_SPHERE, FMS OBB Sphere); (BV_OBB, GEOM_ELLIPSOID, FMS OBB Ellipsoid);
   (BV_OBB, GEOM_CAPSULE, FMS OBB Capsule); (BV_OBB, GEOM_CONE, FMS OBB Cone); (BV_OBB, GEOM_CYLINDER, FMS OBB Cylinder); (BV_OBB, GEOM_CONVEX, FMS OBB Convex);
   (BV_OBB, GEOM_PLANE, FMS OBB Plane); (BV_OBB, GEOM_HALFSPACE, FMS OBB Halfspace); (BV_RSS, GEOM_BOX, FMS RSS Box); (BV_RSS, GEOM_SPHERE, FMS RSS Sphere);
   (BV_RSS, GEOM_ELLIPSOID, FMS RSS Ellipsoid); (BV_RSS, GEOM_CAPSULE, FMS RSS Capsule); (BV_RSS, GEOM_CONE, FMS RSS Cone); (BV_RSS, GEOM_CYLINDER, FMS RSS Cylinder);
   (BV_RSS, GEOM_CONVEX, FMS RSS Convex); (BV_RSS, GEOM_PLANE, FMS RSS Plane); (BV_RSS, GEOM_HALFSPACE, FMS RSS Halfspace); (BV_KDOP16, GEOM_BOX, FMS KDOP16 Box);
   (BV_KDOP16, GEOM_SPHERE, FMS KDOP16 Sphere); (BV_KDOP16, GEOM_ELLIPSOID, FMS KDOP16 Ellipsoid); (BV_KDOP16, GEOM_CAPSULE, FMS KDOP16 Capsule); (BV_KDOP16, GEOM_CONE, FMS KDOP16 Cone);
   (BV_KDOP16, GEOM_CYLINDER, FMS KDOP16 Cylinder); (BV_KDOP16, GEOM_CONVEX, FMS KDOP16 Convex); (BV_KDOP16, GEOM_PLANE, FMS KDOP16 Plane); (BV_KDOP16, GEOM_HALFSPACE, FMS KDOP16 Halfspace);
   (BV_KDOP18, GEOM_BOX, FMS KDOP18 Box); (BV_KDOP18, GEOM_SPHERE, FMS KDOP18 Sphere); (BV_KDOP18, GEOM_ELLIPSOID, FMS KDOP18 Ellipsoid); (BV_KDOP18, GEOM_CAPSULE, FMS KDOP18 Capsule);
   (BV_KDOP18, GEOM_CONE, FMS KDOP18 Cone); (BV_KDOP18, GEOM_CYLINDER, FMS KDOP18 Cylinder); (BV_KDOP18, GEOM_CONVEX, FMS KDOP18 Convex); (BV_KDOP18, GEOM_PLANE, FMS KDOP18 Plane);
   (BV_KDOP18, GEOM_HALFSPACE, FMS KDOP18 Halfspace); (BV_KDOP24, GEOM_BOX, FMS KDOP24 Box); (BV_KDOP24, GEOM_SPHERE, FMS KDOP24 Sphere); (BV_KDOP24, GEOM_ELLIPSOID, FMS KDOP24 Ellipsoid);
   (BV_KDOP24, GEOM_CAPSULE, FMS KDOP24 Capsule); (BV_KDOP24, GEOM_CONE, FMS KDOP24 Cone); (BV_KDOP24, GEOM_CYLINDER, FMS KDOP24 Cylinder); (BV_KDOP24, GEOM_CONVEX, FMS KDOP24 Convex);
   (BV_KDOP24, GEOM_PLANE, FMS KDOP24 Plane); (BV_KDOP24, GEOM_HALFSPACE, FMS KDOP24 Halfspace); (BV_kIOS, GEOM_BOX, FMS KIOS Box); (BV_kIOS, GEOM_SPHERE, FMS KIOS Sphere);
   (BV_kIOS, GEOM_ELLIPSOID, FMS KIOS Ellipsoid); (BV_kIOS, GEOM_CAPSULE, FMS KIOS Capsule); (BV_kIOS, GEOM_CONE, FMS KIOS Cone); (BV_kIOS, GEOM_CYLINDER, FMS KIOS Cylinder);
   (BV_kIOS, GEOM_CONVEX, FMS KIOS Convex); (BV_kIOS, GEOM_PLANE, FMS KIOS Plane); (BV_kIOS, GEOM_HALFSPACE, FMS KIOS Halfspace); (BV_OBBRSS, GEOM_BOX, FMS OBBRSS Box);
   (BV_OBBRSS, GEOM_SPHERE, FMS OBBRSS Sphere); (BV_OBBRSS, GEOM_ELLIPSOID, FMS OBBRSS Ellipsoid); (BV_OBBRSS, GEOM_CAPSULE, FMS OBBRSS Capsule); (BV_OBBRSS, GEOM_CONE, FMS OBBRSS Cone);
   (BV_OBBRSS, GEOM_CYLINDER, FMS OBBRSS Cylinder); (BV_OBBRSS, GEOM_CONVEX, FMS OBBRSS Convex); (BV_OBBRSS, GEOM_PLANE, FMS OBBRSS Plane); (BV_OBBRSS, GEOM_HALFSPACE, FMS OBBRSS Halfspace);
   (BV_AABB, BV_AABB, FMM AABB); (BV_RSS, BV_RSS, FMM RSS); (BV_kIOS, BV_kIOS, FMM KIOS); (BV_OBBRSS, BV_OBBRSS, FMM OBBRSS)].
Definition distance_octo : list assign := [
   (GEOM_OCTREE, GEOM_BOX, FOS Box); (GEOM_OCTREE, GEOM_SPHERE, FOS Sphere); (GEOM_OCTREE, GEOM_ELLIPSOID, FOS Ellipsoid); (GEOM_OCTREE, GEOM_CAPSULE, FOS Capsule);
   (GEOM_OCTREE, GEOM_CONE, FOS Cone); (GEOM_OCTREE, GEOM_CYLINDER, FOS Cylinder); (GEOM_OCTREE, GEOM_CONVEX, FOS Convex); (GEOM_OCTREE, GEOM_PLANE, FOS Plane);
   (GEOM_OCTREE, GEOM_HALFSPACE, FOS Halfspace); (GEOM_BOX, GEOM_OCTREE, FSO Box); (GEOM_SPHERE, GEOM_OCTREE, FSO Sphere); (GEOM_ELLIPSOID, GEOM_OCTREE, FSO Ellipsoid);
   (GEOM_CAPSULE, GEOM_OCTREE, FSO Capsule); (GEOM_CONE, GEOM_OCTREE, FSO Cone); (GEOM_CYLINDER, GEOM_OCTREE, FSO Cylinder); (GEOM_CONVEX, GEOM_OCTREE, FSO Convex);
   (GEOM_PLANE, GEOM_OCTREE, FSO Plane); (GEOM_HALFSPACE, GEOM_OCTREE, FSO Halfspace); (GEOM_OCTREE, GEOM_OCTREE, FOO); (GEOM_OCTREE, BV_AABB, FOM AABB);
   (GEOM_OCTREE, BV_OBB, FOM OBB); (GEOM_OCTREE, BV_RSS, FOM RSS); (GEOM_OCTREE, BV_OBBRSS, FOM OBBRSS); (GEOM_OCTREE, BV_kIOS, FOM KIOS);
   (GEOM_OCTREE, BV_KDOP16, FOM KDOP16); (GEOM_OCTREE, BV_KDOP18, FOM KDOP18); (GEOM_OCTREE, BV_KDOP24, FOM KDOP24); (BV_AABB, GEOM_OCTREE, FMO AABB);
   (BV_OBB, GEOM_OCTREE, FMO OBB); (BV_RSS, GEOM_OCTREE, FMO RSS); (BV_OBBRSS, GEOM_OCTREE, FMO OBBRSS); (BV_kIOS, GEOM_OCTREE, FMO KIOS);
   (BV_KDOP16, GEOM_OCTREE, FMO KDOP16); (BV_KDOP18, GEOM_OCTREE, FMO KDOP18); (BV_KDOP24, GEOM_OCTREE, FMO KDOP24)].

(** ConservativeAdvancementFunctionMatrix (conservative_advancement_func_matrix-inl.h 778-1017) *)
Definition advance_list : list assign := [
   (GEOM_BOX, GEOM_BOX, FSS Box Box); (GEOM_BOX, GEOM_SPHERE, FSS Box Sphere); (GEOM_BOX, GEOM_CAPSULE, FSS Box Capsule); (GEOM_BOX, GEOM_CONE, FSS Box Cone);
   (GEOM_BOX, GEOM_CYLINDER, FSS Box Cylinder); (GEOM_BOX, GEOM_CONVEX, FSS Box Convex); (GEOM_BOX, GEOM_PLANE, FSS Box Plane); (GEOM_BOX, GEOM_HALFSPACE, FSS Box Halfspace);
   (GEOM_SPHERE, GEOM_BOX, FSS Sphere Box); (GEOM_SPHERE, GEOM_SPHERE, FSS Sphere Sphere); (GEOM_SPHERE, GEOM_CAPSULE, FSS Sphere Capsule); (GEOM_SPHERE, GEOM_CONE, FSS Sphere Cone);
   (GEOM_SPHERE, GEOM_CYLINDER, FSS Sphere Cylinder); (GEOM_SPHERE, GEOM_CONVEX, FSS Sphere Convex); (GEOM_SPHERE, GEOM_PLANE, FSS Sphere Plane); (GEOM_SPHERE, GEOM_HALFSPACE, FSS Sphere Halfspace);
   (GEOM_CAPSULE, GEOM_BOX, FSS Capsule Box); (GEOM_CAPSULE, GEOM_SPHERE, FSS Capsule Sphere); (GEOM_CAPSULE, GEOM_CAPSULE, FSS Capsule Capsule); (GEOM_CAPSULE, GEOM_CONE, FSS Capsule Cone);
   (GEOM_CAPSULE, GEOM_CYLINDER, FSS Capsule Cylinder); (GEOM_CAPSULE, GEOM_CONVEX, FSS Capsule Convex); (GEOM_CAPSULE, GEOM_PLANE, FSS Capsule Plane); (GEOM_CAPSULE, GEOM_HALFSPACE, FSS Capsule Halfspace);
   (GEOM_CONE, GEOM_BOX, FSS Cone Box); (GEOM_CONE, GEOM_SPHERE, FSS Cone Sphere); (GEOM_CONE, GEOM_CAPSULE, FSS Cone Capsule); (GEOM_CONE, GEOM_CONE, FSS Cone Cone);
   (GEOM_CONE, GEOM_CYLINDER, FSS Cone Cylinder); (GEOM_CONE, GEOM_CONVEX, FSS Cone Convex); (GEOM_CONE, GEOM_PLANE, FSS Cone Plane); (GEOM_CONE, GEOM_HALFSPACE, FSS Cone Halfspace);
   (GEOM_CYLINDER, GEOM_BOX, FSS Cylinder Box); (GEOM_CYLINDER, GEOM_SPHERE, FSS Cylinder Sphere); (GEOM_CYLINDER, GEOM_CAPSULE, FSS Cylinder Capsule); (GEOM_CYLINDER, GEOM_CONE, FSS Cylinder Cone);
   (GEOM_CYLINDER, GEOM_CYLINDER, FSS Cylinder Cylinder); (GEOM_CYLINDER, GEOM_CONVEX, FSS Cylinder Convex); (GEOM_CYLINDER, GEOM_PLANE, FSS Cylinder Plane); (GEOM_CYLINDER, GEOM_HALFSPACE, FSS Cylinder Halfspace);
   (GEOM_CONVEX, GEOM_BOX, FSS Convex Box); (GEOM_CONVEX, GEOM_SPHERE, FSS Convex Sphere); (GEOM_CONVEX, GEOM_CAPSULE, FSS Convex Capsule); (GEOM_CONVEX, GEOM_CONE, FSS Convex Cone);
   (GEOM_CONVEX, GEOM_CYLINDER, FSS Convex Cylinder); (GEOM_CONVEX, GEOM_CONVEX, FSS Convex Convex); (GEOM_CONVEX, GEOM_PLANE, FSS Convex Plane); (GEOM_CONVEX, GEOM_HALFSPACE, FSS Convex Halfspace);
   (GEOM_PLANE, GEOM_BOX, FSS Plane Box); (GEOM_PLANE, GEOM_SPHERE, FSS Plane Sphere); (GEOM_PLANE, GEOM_CAPSULE, FSS Plane Capsule); (GEOM_PLANE, GEOM_CONE, FSS Plane Cone);
   (GEOM_PLANE, GEOM_CYLINDER, FSS Plane Cylinder); (GEOM_PLANE, GEOM_CONVEX, FSS Plane Convex); (GEOM_PLANE, GEOM_PLANE, FSS Plane Plane); (GEOM_PLANE, GEOM_HALFSPACE, FSS Plane Halfspace);
   (GEOM_HALFSPACE, GEOM_BOX, FSS Halfspace Box); (GEOM_HALFSPACE, GEOM_SPHERE, FSS Halfspace Sphere); (GEOM_HALFSPACE, GEOM_CAPSULE, FSS Halfspace Capsule); (GEOM_HALFSPACE, GEOM_CONE, FSS Halfspace Cone);
   (GEOM_HALFSPACE, GEOM_CYLINDER, FSS Halfspace Cylinder); (GEOM_HALFSPACE, GEOM_CONVEX, FSS Halfspace Convex); (GEOM_HALFSPACE, GEOM_PLANE, FSS Halfspace Plane); (GEOM_HALFSPACE, GEOM_HALFSPACE, FSS Halfspace Halfspace);
   (BV_AABB, GEOM_BOX, FMS AABB Box); (BV_AABB, GEOM_SPHERE, FMS AABB Sphere); (BV_AABB, GEOM_CAPSULE, FMS AABB Capsule); (BV_AABB, GEOM_CONE, FMS AABB Cone);
   (BV_AABB, GEOM_CYLINDER, FMS AABB Cylinder); (BV_AABB, GEOM_CONVEX, FMS AABB Convex); (BV_AABB, GEOM_PLANE, FMS AABB Plane); (BV_AABB, GEOM_HALFSPACE, FMS AABB Halfspace);
   (BV_OBB, GEOM_BOX, FMS OBB Box); (BV_OBB, GEOM_SPHERE, FMS OBB Sphere); (BV_OBB, GEOM_CAPSULE, FMS OBB Capsule); (BV_OBB, GEOM_CONE, FMS OBB Cone);
   (BV_OBB, GEOM_CYLINDER, FMS OBB Cylinder); (BV_OBB, GEOM_CONVEX, FMS OBB Convex); (BV_OBB, GEOM_PLANE, FMS OBB Plane); (BV_OBB, GEOM_HALFSPACE, FMS OBB Halfspace);
   (BV_OBBRSS, GEOM_BOX, FMS OBBRSS Box); (BV_OBBRSS, GEOM_SPHERE, FMS OBBRSS Sphere); (BV_OBBRSS, GEOM_CAPSULE, FMS OBBRSS Capsule); (BV_OBBRSS, GEOM_CONE, FMS OBBRSS Cone);
   (BV_OBBRSS, GEOM_CYLINDER, FMS OBBRSS Cylinder); (BV_OBBRSS, GEOM_CONVEX, FMS OBBRSS Convex); (BV_OBBRSS, GEOM_PLANE, FMS OBBRSS Plane); (BV_OBBRSS, GEOM_HALFSPACE, FMS OBBRSS Halfspace);
   (BV_RSS, GEOM_BOX, FMS RSS Box); (BV_RSS, GEOM_SPHERE, FMS RSS Sphere); (BV_RSS, GEOM_CAPSULE, FMS RSS Capsule); (BV_RSS, GEOM_CONE, FMS RSS Cone);
   (BV_RSS, GEOM_CYLINDER, FMS RSS Cylinder); (BV_RSS, GEOM_CONVEX, FMS RSS Convex); (BV_RSS, GEOM_PLANE, FMS RSS Plane); (BV_RSS, GEOM_HALFSPACE, FMS RSS Halfspace);
   (BV_KDOP16, GEOM_BOX, FMS KDOP16 Box); (BV_KDOP16, GEOM_SPHERE, FMS KDOP16 Sphere); (BV_KDOP16, GEOM_CAPSULE, FMS KDOP16 Capsule); (BV_KDOP16, GEOM_CONE, FMS KDOP16 Cone);
   (BV_KDOP16, GEOM_CYLINDER, FMS KDOP16 Cylinder); (BV_KDOP16, GEOM_CONVEX, FMS KDOP16 Convex); (BV_KDOP16, GEOM_PLANE, FMS KDOP16 Plane); (BV_KDOP16, GEOM_HALFSPACE, FMS KDOP16 Halfspace);
   (BV_KDOP18, GEOM_BOX, FMS KDOP18 Box); (BV_KDOP18, GEOM_SPHERE, FMS KDOP18 Sphere); (BV_KDOP18, GEOM_CAPSULE, FMS KDOP18 Capsule); (BV_KDOP18, GEOM_CONE, FMS KDOP18 Cone);
   (BV_KDOP18, GEOM_CYLINDER, FMS KDOP18 Cylinder); (BV_KDOP18, GEOM_CONVEX, FMS KDOP18 Convex); (BV_KDOP18, GEOM_PLANE, FMS KDOP18 Plane); (BV_KDOP18, GEOM_HALFSPACE, FMS KDOP18 Halfspace);
   (BV_KDOP24, GEOM_BOX, FMS KDOP24 Box); (BV_KDOP24, GEOM_SPHERE, FMS KDOP24 Sphere); (BV_KDOP24, GEOM_CAPSULE, FMS KDOP24 Capsule); (BV_KDOP24, GEOM_CONE, FMS KDOP24 Cone);
   (BV_KDOP24, GEOM_CYLINDER, FMS KDOP24 Cylinder); (BV_KDOP24, GEOM_CONVEX, FMS KDOP24 Convex); (BV_KDOP24, GEOM_PLANE, FMS KDOP24 Plane); (BV_KDOP24, GEOM_HALFSPACE, FMS KDOP24 Halfspace);
   (BV_kIOS, GEOM_BOX, FMS KIOS Box); (BV_kIOS, GEOM_SPHERE, FMS KIOS Sphere); (BV_kIOS, GEOM_CAPSULE, FMS KIOS Capsule); (BV_kIOS, GEOM_CONE, FMS KIOS Cone);
   (BV_kIOS, GEOM_CYLINDER, FMS KIOS Cylinder); (BV_kIOS, GEOM_CONVEX, FMS KIOS Convex); (BV_kIOS, GEOM_PLANE, FMS KIOS Plane); (BV_kIOS, GEOM_HALFSPACE, FMS KIOS Halfspace);
   (GEOM_BOX, BV_AABB, FSM Box AABB); (GEOM_SPHERE, BV_AABB, FSM Sphere AABB); (GEOM_CAPSULE, BV_AABB, FSM Capsule AABB); (GEOM_CONE, BV_AABB, FSM Cone AABB);
   (GEOM_CYLINDER, BV_AABB, FSM Cylinder AABB); (GEOM_CONVEX, BV_AABB, FSM Convex AABB); (GEOM_PLANE, BV_AABB, FSM Plane AABB); (GEOM_HALFSPACE, BV_AABB, FSM Halfspace AABB);
   (GEOM_BOX, BV_OBB, FSM Box OBB); (GEOM_SPHERE, BV_OBB, FSM Sphere OBB); (GEOM_CAPSULE, BV_OBB, FSM Capsule OBB); (GEOM_CONE, BV_OBB, FSM Cone OBB);
   (GEOM_CYLINDER, BV_OBB, FSM Cylinder OBB); (GEOM_CONVEX, BV_OBB, FSM Convex OBB); (GEOM_PLANE, BV_OBB, FSM Plane OBB); (GEOM_HALFSPACE, BV_OBB, FSM Halfspace OBB);
   (GEOM_BOX, BV_RSS, FSM Box RSS); (GEOM_SPHERE, BV_RSS, FSM Sphere RSS); (GEOM_CAPSULE, BV_RSS, FSM Capsule RSS); (GEOM_CONE, BV_RSS, FSM Cone RSS);
   (GEOM_CYLINDER, BV_RSS, FSM Cylinder RSS); (GEOM_CONVEX, BV_RSS, FSM Convex RSS); (GEOM_PLANE, BV_RSS, FSM Plane RSS); (GEOM_HALFSPACE, BV_RSS, FSM Halfspace RSS);
   (GEOM_BOX, BV_OBBRSS, FSM Box OBBRSS); (GEOM_SPHERE, BV_OBBRSS, FSM Sphere OBBRSS); (GEOM_CAPSULE, BV_OBBRSS, FSM Capsule OBBRSS); (GEOM_CONE, BV_OBBRSS, FSM Cone OBBRSS);
   (GEOM_CYLINDER, BV_OBBRSS, FSM Cylinder OBBRSS); (GEOM_CONVEX, BV_OBBRSS, FSM Convex OBBRSS); (GEOM_PLANE, BV_OBBRSS, FSM Plane OBBRSS); (GEOM_HALFSPACE, BV_OBBRSS, FSM Halfspace OBBRSS);
   (GEOM_BOX, BV_KDOP16, FSM Box KDOP16); (GEOM_SPHERE, BV_KDOP16, FSM Sphere KDOP16); (GEOM_CAPSULE, BV_KDOP16, FSM Capsule KDOP16); (GEOM_CONE, BV_KDOP16, FSM Cone KDOP16);
   (GEOM_CYLINDER, BV_KDOP16, FSM Cylinder KDOP16); (GEOM_CONVEX, BV_KDOP16, FSM Convex KDOP16); (GEOM_PLANE, BV_KDOP16, FSM Plane KDOP16); (GEOM_HALFSPACE, BV_KDOP16, FSM Halfspace KDOP16);
   (GEOM_BOX, BV_KDOP18, FSM Box KDOP18); (GEOM_SPHERE, BV_KDOP18, FSM Sphere KDOP18); (GEOM_CAPSULE, BV_KDOP18, FSM Capsule KDOP18); (GEOM_CONE, BV_KDOP18, FSM Cone KDOP18);
   (GEOM_CYLINDER, BV_KDOP18, FSM Cylinder KDOP18); (GEOM_CONVEX, BV_KDOP18, FSM Convex KDOP18); (GEOM_PLANE, BV_KDOP18, FSM Plane KDOP18); (GEOM_HALFSPACE, BV_KDOP18, FSM Halfspace KDOP18);
   (GEOM_BOX, BV_KDOP24, FSM Box KDOP24); (GEOM_SPHERE, BV_KDOP24, FSM Sphere KDOP24); (GEOM_CAPSULE, BV_KDOP24, FSM Capsule KDOP24); (GEOM_CONE, BV_KDOP24, FSM Cone KDOP24);
   (GEOM_CYLINDER, BV_KDOP24, FSM Cylinder KDOP24); (GEOM_CONVEX, BV_KDOP24, FSM Convex KDOP24); (GEOM_PLANE, BV_KDOP24, FSM Plane KDOP24); (GEOM_HALFSPACE, BV_KDOP24, FSM Halfspace KDOP24);
   (GEOM_BOX, BV_kIOS, FSM Box KIOS); (GEOM_SPHERE, BV_kIOS, FSM Sphere KIOS); (GEOM_CAPSULE, BV_kIOS, FSM Capsule KIOS); (GEOM_CONE, BV_kIOS, FSM Cone KIOS);
   (GEOM_CYLINDER, BV_kIOS, FSM Cylinder KIOS); (GEOM_CONVEX, BV_kIOS, FSM Convex KIOS); (GEOM_PLANE, BV_kIOS, FSM Plane KIOS); (GEOM_HALFSPACE, BV_kIOS, FSM Halfspace KIOS);
   (BV_AABB, BV_AABB, FMM AABB); (BV_OBB, BV_OBB, FMM OBB); (BV_RSS, BV_RSS, FMM RSS); (BV_OBBRSS, BV_OBBRSS, FMM OBBRSS);
   (BV_KDOP16, BV_KDOP16, FMM KDOP16); (BV_KDOP18, BV_KDOP18, FMM KDOP18); (BV_KDOP24, BV_KDOP24, FMM KDOP24); (BV_kIOS, BV_kIOS, FMM KIOS)].

Definition collision_table (octo : bool) : table := build (collision_list ++ if octo then collision_octo else []).
Definition distance_table (octo : bool) : table := build (distance_list ++ if octo then distance_octo else []).
Definition advance_table : table := build advance_list.

(** A geometry with its placement (or motion) *)
Section Calls.
Context {A : Type}.
Variable class : A -> cls.

(** What is called: f(x, y); [Unsupported]: a warning, no call, the result object stays as it is, and the value is 0 (collide),
    numeric_limits::max() (distance) or -1 (continuous) *)
Inductive outcome := Call (f : fn) (x y : A) | Unsupported | TooFew.

Definition through (t : table) (x y : A) : outcome :=
  match t (node_of (class x)) (node_of (class y)) with Some f => Call f x y | None => Unsupported end.
Definition is_geom_bvh (x y : A) : bool := match object_of (class x), object_of (class y) with OT_GEOM, OT_BVH => true | _, _ => false end.

(** collide (include/fcl/narrowphase/collision-inl.h 92-150); [TooFew]: num_max_contacts is 0 *)
Definition collide_call (octo : bool) (max : nat) (x y : A) : outcome :=
  if max =? 0 then TooFew else if is_geom_bvh x y then through (collision_table octo) y x else through (collision_table octo) x y.
(** distance (distance-inl.h 91-140, up to the table call) *)
Definition distance_call (octo : bool) (x y : A) : outcome :=
  if is_geom_bvh x y then through (distance_table octo) y x else through (distance_table octo) x y.
(** continuousCollideConservativeAdvancement (continuous_collision-inl.h 305-334) *)
Definition advance_call (x y : A) : outcome := through advance_table x y.
End Calls.
Arguments outcome : clear implicits.
