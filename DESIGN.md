# Formal model of FCL in Rocq: design

The subject is flexible-collision-library/fcl as checked out in `/repo`.
Nothing of it is compiled or run here.  The C++ text is transcribed, function
by function, into small total Gallina functions; every definition cites the
file and lines it models and says where it simplifies.

## Conventions of the model

* **Scalars.**
  Code that only compares, copies and takes min/max of coordinates (broadphase
  managers, hierarchy trees, interval tree, box merge and overlap) is modelled
  over `Z`.  Every finite double is an integer multiple of 2^-1074 and
  comparison/min/max are exact, so this loses no finite behaviour.  NaN and
  infinities are outside the model unless a definition says otherwise.
  Code that does real arithmetic (distances, projections, bounding volumes,
  Taylor models) is modelled over the mathematical reals `R`: rounding is *not*
  modelled.  `std::numeric_limits<S>::max()` sentinels are modelled where
  behaviour depends on them.
* **Objects** are `nat` identifiers (pointers); the AABB of an object is a
  function from identifiers to boxes that changes over a history.
* **Callbacks** are arbitrary state transformers
  `cb : St -> obj -> obj -> St * bool` (`true` = stop), so all stateful user
  callbacks are covered.  Distance callbacks additionally read and write the
  running minimum.
* **Library algorithms** whose result is not determined by the C++ standard
  (`std::sort`, `nth_element`, `partial_sort`, tie orders) are modelled by any
  function meeting the standard's contract (universally quantified parameter).
* **Undefined behaviour** (out-of-bounds write, use after erase, null
  dereference, infinite loop) is a separate outcome of the model, never silently
  totalised.
* **Fuel** is only used where the C++ recursion is not structural; running out of
  fuel is an error outcome excluded by the statement.
* **Refutations.**  Where the code as written violates the property, the theorem
  `..._refuted` exhibits a concrete input, and the property that does hold (with
  its extra hypothesis) is proved separately.

## Property by property: what is modelled, how it is proved

Model and lemmas are in `X.v`, the theorems claimed in `MANIFEST.json` in
`P_X.v`, each followed by `Print Assumptions` and accompanied by `Example`s that
instantiate its hypotheses.

| id | model | proof |
|----|-------|-------|
| C01, C02 | `AabbZ.v`: AABB over Z | direct order reasoning, `lia`; folds by list induction |
| C03 | `AabbDist.v`: distance over R with and without nearest points | per-axis gap lemma, squares, sqrt monotone |
| C04, C05, C06 | `Broadphase.v` (callback iteration with early stop), `QueryComb.v`, `Naive.v`, and every manager below | a query is characterised as "replay the callback over a fixed list of pairs until it says stop" |
| C07-C10 | `SSaP.v`, `SortSearch.v`, `QueryOpt.v` | sortedness and binary search bounds; sweep by list induction; the growing box by a measure (termination) and a loop invariant (non-termination) |
| C11-C16 | `HTree.v`, `HTreeRun.v` (functional tree = shape of pointer tree), `DynTree.v` | structural induction, permutation of leaves, induction over histories |
| C17 | `HTreeArray.v` | simulation with the pointer tree while nothing is renumbered; refutations by history |
| C18 | `IntervalTree.v`: red-black tree with the shared coloured sentinel | search-tree and max-high invariants over zippers, induction over the query recursion |
| C19, C20 | `IntervalManager.v` | refinement of the three endpoint lists and trees to a list of objects; sweep by induction over sorted endpoints |
| C21, C22 | `SpatialHash.v` | floor/ceiling cell arithmetic; Helly's property of boxes; table invariant over histories |
| C23 | `SaP.v`: endpoint lists, and update_ on explicit pointers | invariants over histories; refutations by history |
| C24 | `Morton.v` | bit-level lemmas over N |
| C25 | `BvhModel.v`: build state machine with array sizes, UB outcome | invariants by induction over call sequences |
| C26, C27 | `BvhBuild.v` | induction over the recursive build with an arbitrary split rule and arbitrary enclosing fit |
| C28-C32 | `Traversal.v`, `TraversalDist.v`, `TraversalMesh.v` | induction on pairs of trees with an arbitrary descent rule; front lists as cuts of the product tree |
| C33-C35, C52 | `Results.v` | list induction; case analysis on the modelled narrowphase outcome |
| C36, C53 | `Interval.v` | real algebra, image of an interval by intermediate values |
| C37-C39, C54 | `Taylor.v` | real algebra, mean value theorem, alternating series |
| C40 | `KDop.v` | linear arithmetic, induction over point lists |
| C41, C42 | `Obb.v`, `Fit.v` (distant merge) | separating-axis algebra; exact characterisation of merge_smalldist |
| C43, C44 | `Octree.v` | induction over octrees with a solver parameter |
| C45 | `Project.v` | variational inequality of the nearest point, face by face |
| C46-C50 | `Prim.v` | real algebra on nearest points |
| C51 | `Poly.v` | real algebra and trigonometry |
| C55, C56 | `Motion.v` | Rodrigues' formula, derivative bounds |
| C57 | `MotionTaylor.v` | C37-C39, C54 composed |
| C58 | `Advance.v` | induction on steps, speed bound |
| C59 | `Eigen3.v` | rotations preserve the Jacobi invariant `M V = V D` |
| C60, C61 | `Fit.v` | orthonormal coordinates; list folds; the strip/corner adjustment of the RSS fit by invariants |
| C62, C63 | `Convert.v` | orthonormal changes of frame |
| C64 | `ExpandDist.v` | one search with parameters, instantiated for three managers |
| C65 | `ShapeBV.v`: AABB and OBB of placed shapes, local boxes, object boxes | per-component bounds; convex hull as the intersection of half-spaces |
| C66 | `BoundVerts.v`: bound vertices of shapes and volumes fitted to them | support of icosahedron and hexagon (sum-of-squares algebra); hull arguments |
| C67 | `HalfBV.v`: boxes, kDOPs, RSS and kIOS of half-spaces and planes | case analysis of the cascade of tests on the normal; exact characterisation |
| C68 | `HalfQuery.v`: shapes against half-spaces, with and without contacts | the half-space in the shape's frame; support bounds; explicit deepest points |
| C69 | `HalfQuery.v`: shapes against planes | range of signed distances and convexity; a common lemma for three points |
| C70 | `ShapeMesh.v`: meshes of boxes, spheres, ellipsoids, cylinders, cones; addTriangles | `MeshWeb.v`: an abstract web of rings and fans, edges matched case by case, carried over by a numbering; triple products of a surface of revolution; the C25 protocol for the model |
| C71 | `TriDist.v`: segPoints, triDistance with and without a pose | `TriGeom.v`: existence of closest pairs; a local minimum argument (slide towards the boundary) shows that a closest pair has an edge pair, or a vertex over a face; support planes for separation |
| C72 | `Support.v`: getSupport, MinkowskiDiff, libccd support and centre callbacks | one extremality lemma per shape, reusing the bounds of C68/C69; adjoint of the rotations for the difference |
| C73 | `ConvexMesh.v`: Convex constructor, FindVertexNeighbors, ValidateTopology, findExtremeVertex | sets as ascending lists, the packed array block by block, the edge map as an association list; the walk by the invariant "everything marked is below"; integer meshes checked by computation and carried to the reals |
| C74 | `MassProps.v`: volume, center of mass and inertia of shapes, BVH models and Convex; inertia about the center of mass | `Integral.v`: iterated Riemann integrals (Coquelicot) of quadratic functions over boxes, stacks of ellipses and the simplex; meshes as sums of signed tetrahedra, a cocycle identity and the pairing of sides remove the apex |
| C75 | `Gjk.v`: GJK evaluate, appendVertex, removeVertex, encloseOrigin, the distance query of the independent solver | the support function is a parameter; slots of store_v as indices with an explicit free list, well formed = permutation of the four slots; the loop by an invariant (ray = convex combination of the vertices, vertices independent, ray nearest in their hull); the wrong answers by tracing the loop symbolically |
| C76 | `Epa.v`: EPA (face lists, bind, newFace, getEdgeDist, findBest, expand, evaluate) and the intersection query of the independent solver | faces as a map from indices to records with arbitrary initial contents, hull and stock as lists; expand with fuel, shown never to run out since every call marks or removes a face; invariant: links are an involution that reverses the corners, except along one open path of sides during an expansion; the wrong depth by tracing one run |
| C77 | `CcdGjk.v`: doSimplex2/3/4 and __ccdGJK of the libccd extension | the support function, the point-triangle distance and ccdVec3Eq are parameters; the simplex is a list; the result keeps apart the reasons that the code maps to -1; invariant: a one-point simplex has direction minus the point, a triangle its normal with the origin above it by more than -CCD_EPS |
| C78 | `CcdGjk.v`: simplexReduceToTriangle, extractClosestPoints, _ccdDist, ccdGJKDist2 of the libccd extension | a variable that the code may leave unwritten is an option; reading it is a separate outcome, as is normalising a zero vector; the loop by an invariant (the simplex consists of support points, the last distance is the length of a difference) |
| C79 | `CcdPoly.v`: ComputeVisiblePatch and expandPolytope on libccd's ccd_pt_t, the initial polytopes of convert2SimplexToTetrahedron and simplexToPolytope2/4 | vertices, edges and faces are identifiers with maps; an edge has at most two faces; a failed add or delete is a failed step; the hash sets are duplicate-free lists, the order of the border edges is arbitrary; the recursion by fuel, shown to suffice |
| C80 | `CcdEpa.v`: faceNormalPointingOutward, isOutsidePolytopeFace, supportEPADirection, nextSupport, expandPolytope, validateNearestFeatureOfPolytopeBeingEdge of the libccd extension | release build; the distance and witness of an element are computed when read, libccd stores them; convexity as an invariant: no vertex above the plane of a face, some vertex below; the hull is given by its supporting half-spaces |
| C81 | `CcdEpa.v`: simplexToPolytope2/4, convert2SimplexToTetrahedron, __ccdEPA, penEPAPosClosest, ccdGJKSignedDist of the libccd extension | exception and undefined behaviour are separate outcomes; ccdPtNearest is an arbitrary choice of an element in each turn; the unbounded loop by fuel, a statement is about runs that end; points_on_sphere is a list of directions; `P_EpaStart.v` holds the theorems on the start polytope and the visible patch |
| C82 | `Zonotope.v`, `BoxBox.v`: boxBox2 and boxBoxIntersect | the variables of boxBox2 as one record per state; normalR and normalC in one field; epsilon and numeric_limits::max are parameters; 0.0001f is 1/10000; that the fifteen axes suffice is proved (`fifteen`), not assumed |
| C83 | `BoxBox.v`, `BoxClip.v`: lineClosestApproach, intersectRectQuad2, cullPoints2 and the contacts of boxBox2 | the buffers of intersectRectQuad2 are lists, the limit of eight points is kept; the available flags of cullPoints2 are a function; that no intermediate polygon reaches eight points (the function would return early) is proved from convexity |
| C84 | `SphereTri.v`: sphere_triangle-inl.h | the seven regions are kept; repeated leaves are shared; 0 times infinity is "not a number" and comparisons with it are false; the overload with points uses projectTriangle of C45 |
| C85 | `TriSat.v`: Intersect::intersect_Triangle with project6, computeDeepestPoints, buildTrianglePlane | the tests for one axis after the other are `forallb` over the list of axes; an unset plane is `None`; numeric_limits::max is a parameter; that the seventeen axes suffice is proved (`enough`) by moving a separating direction to a corner of the polyhedron of separating directions |
| C86 | `MeshCollide.v`: MeshCollisionTraversalNode, meshCollisionOrientedNodeLeafTesting and their initialize, put on top of C28 and C29 (traversal), C85 (leaf) and the model building | the node has the triangles, the hierarchies and the leaf function of the code; which of the two hierarchies is descended is any function of the sizes of the volumes; `to_world` is the list of calls made by initialize; no cost sources, no front list |
| C87 | `MeshShape.v`: MeshShapeCollisionTraversalNode, its OBB variant and their initialize, with the sphere test of C84 as leaf test | the second tree is one leaf; the volume of the shape is a constant of the volume test; any other leaf test fits the model (`shape_core`), only the sphere is instantiated; no cost sources, no front list |
| C88 | `Dispatch.v`: CollisionFunctionMatrix, DistanceFunctionMatrix, ConservativeAdvancementFunctionMatrix and the calls through them | the tables are the lists of assignments of the constructors, in their order; a call is the function with its arguments, not its result; the domain is finite and the proof goes through all classes |
| C89 | `MeshFlat.v`: the OBB mesh-shape node with the triangle tests of half-spaces (C68, C69) and planes as leaf tests; `leaf_routine`: the specializations of shapeTriangleIntersect in both solvers | as C87; the range of the numbers is `big`; `leaf_routine` says which routine runs, not what it computes |
| C90 | `ShapePair.v`: ShapeShapeCollide, ShapeCollisionTraversalNode::leafTesting, the choice of the algorithm in shapeIntersect, flipNormal | an algorithm is its answers with and without contacts (C46-C50, C68, C69); partial_sort is a parameter with the specification `partial_sorted`; box-box, libccd, GJK/EPA and cost sources are left out |
| C91 | `Splitter.v`: BVSplitter::computeRule (mean, median, centre) and apply for aligned and oriented volumes; the recursion is that of `BvhBuild.v` | a volume is its centre, sides and first axis; sort is a parameter with the specification `sorts`; the depth of the recursion is the fuel of `build_rec` |
| C92 | `ShapeDist.v`: ShapeShapeDistance, leafTesting of ShapeDistanceTraversalNode, DistanceResult::update, the specializations of shapeDistance and shapeSignedDistance of both solvers; the pair algorithms are those of `Prim.v` | the general algorithms are only named (`dist_routine`); b1 and b2 of the result left out; the correction of the signed distance after the query is C52 |
| C93 | `Kios.v`: kIOS (encloseSphere, overlap, contain, +=, +, distance, the forms with a motion, translate), kIOS_fit_functions::fit1, fit2, fit3, fitn, FitImpl of kIOS, circumCircleComputation, maximumDistance | a volume is the list of its first num_spheres balls and a box; the sum of boxes is a parameter (C42, C60); the float variable in encloseSphere is real; spheres beyond num_spheres are undefined |
| C94 | `RectSeg.v`: clipToRange, segCoords, inVoronoi, rectDistance, RSS::overlap and RSS::distance, overlap and distance with a relative position | when no pair of sides is chosen only the lower bound is proved; the overload of rectDistance with a transform is not modelled separately; real arithmetic |
| C95 | `ObbRss.v`: OBBRSS overlap, contain, distance, translate; RSS volume, size, translate (center, width, height, depth are in `Convert.v`) | the sums are those of the parts (C42, C61); real arithmetic |

## Trusted base

* The Coq 8.16.1 kernel (and `coqchk`).
* What `Print Assumptions` prints beneath each property theorem.  Theorems over
  `Z`/`nat`/lists are closed under the global context.  Theorems over `R` use
  the axioms of the standard library's reals (`ClassicalDedekindReals.sig_forall_dec`,
  `sig_not_dec`, `FunctionalExtensionality.functional_extensionality_dep`,
  and where stated `Classical_Prop.classic`).
* The transcription from C++ to Gallina, checked by eye; every definition carries
  its source lines.

* Library contracts that are hypotheses or parameters of theorems: `std::sort`
  and friends return a sorted permutation; `std::unordered_map` is a finite map;
  Eigen's `AngleAxis`/`Quaternion` conversions satisfy Rodrigues' formula; the
  callback, the narrowphase solver, BV fitters and split rules are arbitrary
  functions, restricted only by what a theorem says.

## What is modelled and what is not, module by module

Everywhere outside: floating point rounding, NaN and infinities, memory
exhaustion, concurrency, libccd, octomap's own storage, Eigen's internals,
statistics and timing counters, messages on cerr.

* **Broadphase managers** (`Naive`, `SSaP`, `SaP`, `IntervalManager`,
  `SpatialHash`, `DynTree`, `HTreeArray`).  Histories of register / unregister /
  setup / update / clear, and all collision and distance queries.  Not modelled:
  the octree branches of the dynamic tree managers
  (`octree_as_geometry_* = false`), `computeBound` of the spatial hash, overflow
  of the `int` cell numbers, deallocation.
* **Hierarchy tree** (`HTree`): insert, remove, update, refit, balance bottom-up /
  top-down / Morton, incremental balance.  The one-node free list is not
  observable and is left out; velocity and margin variants of `update` ignore
  their argument in the code.
* **Interval tree**: `detail::IntervalTree` with insertion, deletion and query as
  in the code including the sentinel's colour.
* **BVH model**: construction protocol, build, refit.  Not modelled: copy
  constructor, `makeParentRelative`.
* **Traversal**: collision, self, distance (recursive and queue), front lists.
  Not modelled: the front list of a distance query (nothing consumes it); the
  oriented node variants differ only in the volume test, which is a parameter.
* **Bounding volumes** (`KDop`, `Obb`, `Fit`, `Convert`): kDOP, OBB, RSS, the fits
  of one, two, three and n points, merges, conversions.  Not modelled: RSS
  distance (`rectDistance`), kDOP `width/height/depth/volume/size/center`.
* **Continuous collision** (`Interval`, `Taylor`, `Motion`, `MotionTaylor`,
  `Advance`): the mesh variants of conservative advancement are modelled at the
  leaf step only; `continuousCollideBVHPolynomial` and the rotational part of the
  spline bound are not modelled.
* **Narrowphase primitives** (`Project`, `Prim`, `Poly` and the modules listed
  under new properties).  GJK and EPA of the independent solver are modelled
  (C75, C76), of libccd the support functions (C72) and GJK with its distance
  iteration (C77, C78), the expansion of its polytope (C79, C80), and EPA with the
  signed distance (C81).  Box-box is modelled completely (C82, C83),
  as are sphere-triangle (C84) and the triangle test of mesh collision (C85), on which the
  end-to-end statement about two meshes rests (C86).

## Behaviours of the code found on the way

Items with a theorem are marked with its name; the others were noticed while
reading and are not claims.

* Broadphase: `SaP::empty()` is inverted (`sap_empty_refuted`); SaP
  `unregisterObject` writes through end(); the growing-box distance queries of
  SSaP, SaP, interval tree and spatial hash do not return when the query object
  is alone (`*_distance_alone_refuted`) or flat; interval tree deletion corrupts
  the tree (`interval_delete_refuted`); spatial hash loses flat and touching
  objects (`h_flat_refuted`, `h_touching_refuted`); the array tree keeps dangling
  indices on growth (`array_growth_refuted`).
* BVH: requested rel_err/abs_err are ignored for mesh distances; the front list
  reports pairs twice (`front_list_once_refuted`); OBB `collide2` with R, T uses
  `R.transpose()*axis` but is never called.
* Interval/Taylor: `IMatrix3::getLow` returns highs (`imatrix_low_refuted`);
  compound operators on themselves (`interval_self_refuted`); free
  `rotationConstrain` drops entries (`imatrix_constrain_free_refuted`);
  `Matrix3 * TVector` uses the wrong column (`matrix_taylor_refuted`);
  `TaylorModel(S coeffs[3])` reads `coeffs[3]`.
* Motions: pure translation screw (`screw_translation_refuted`);
  `InterpMotion(tf1,tf2,O)` and `SplineMotion(tf1,tf2)` leave members
  uninitialised; `TranslationMotion::getTaylorModel` does nothing; the spline's
  Taylor constant includes `Td[3]` (`spline_model_refuted`);
  `SplineMotion::computeDWMax` uses `a[0]*tf_t^3`.
* Conservative advancement: motions are not rewound (`advancement_stale_refuted`),
  touching is missed (`advancement_touch_refuted`), mesh leaf uses n instead of
  -n (`advancement_direction_refuted`), `conservativeAdvancement<BV>` transforms
  the vertices again on every step, `TBVMotionBoundVisitor` is 0 for BVs other
  than RSS.
* Bounding volumes: OBB `merge_smalldist` loses b1's first vertex
  (`merge_smalldist_refuted`); `merge_largedist` for flat boxes
  (`obb_plus_far_refuted`); `fit3` of collinear points (`obb_fit3_line_refuted`,
  `rss_fit3_line_refuted`); RSS `+`/`+=` (`rss_add_*_refuted`,
  `rss_merge_refuted`); kDOP and OBB `distance()` are not implemented.
* Shapes: `constructBox(OBB, tf)` ignores tf, `constructBox(RSS)` uses a corner as
  centre (`construct_box_*_refuted`).
  A convex polytope's OBB is placed with the axes overwritten instead of composed
  (`convex_obb_refuted`); `CollisionObject::computeAABB` tests the rotation with a
  tolerance and then drops it (`object_aabb_refuted`).
* Half-spaces and planes: the kDOP of a half-space with normal along (1,0,1) has
  none of its interior (`half_kdop_xz_refuted`); 24-DOPs use direction 9 for
  normals along (1,-1,-1) (`half_kdop_ppm_refuted`, `plane_kdop_ppm_refuted`); the
  16-DOP of a plane sets the wrong lower bound (`plane_kdop_refuted`); the RSS of a
  plane is orthogonal to it (`plane_rss_refuted`). A cone whose axis points against
  the normal is tested with its radius (`cone_half_down_refuted`); tests of
  opposite half-spaces are inverted (`half_half_opposite_refuted`,
  `plane_half_refuted`); the contact-free cylinder-plane test does not halve the
  length (`cyl_plane_test_refuted`); touching cones and triangles are missed
  (`cone_plane_touch_refuted`, `tri_plane_touch_refuted`); flipped normals
  (`capsule_plane_refuted`, `cyl_plane_touch_refuted`).
* Meshes of shapes: the number of triangles of a ball grows with the square of
  what is documented (`ball_face_count_refuted`); small balls get flat meshes
  (`sphere_mesh_flat_refuted`), thin cylinders and cones two isolated points
  (`tube_mesh_thin_refuted`); unsigned `ring - 1` / `h_num - 1` wrap
  (`ball_no_rings_refuted`, `cylinder_no_layers_refuted`).
* Triangle distance: the face of a triangle with squared normal up to 1e-15 is
  skipped, so the distance of small separate triangles is wrong, even 0
  (`tri_distance_small_refuted`, `tri_distance_zero_refuted`); over the reals the
  result `sqrt(mindd)` after `shown_disjoint` arises only then.  `VEC` of segPoints
  is not the vector between the points (`seg_points_vec_refuted`).
* Convex: `findExtremeVertex` can stop at a lowest vertex of a mesh that meets all
  documented requirements (`find_extreme_refuted`); a face with two vertices counts
  as watertight (`watertight_two_faces_refuted`).  `getSupport` of spheres and
  capsules relies on unit directions (`get_support_length_refuted`).
* Primitives: tetrahedron projection beyond the face abc (`tetra_refuted`);
  sphere-capsule and sphere-box contact positions (`sc_contact_refuted`,
  `sb_position_refuted`); short segments treated as parallel (`segseg_refuted`);
  `PolySolver::cbrt` returns bool (`cubic_refuted`); triangle-triangle
  intersection in contact mode reads uninitialised normals of degenerate
  triangles; `clipPolygonByPlane` reads `polygon_points[num]`.
* Octree: a cell at the default threshold 0 is occupied and free
  (`octree_threshold_refuted`); null roots (`octree_null_refuted`);
  `MeshOcTreeDistance` passes its arguments in the wrong order and cannot be
  instantiated; octree-shape collision computes the overlap part but never adds
  the cost source of an existing cell.
* Mass properties: `Convex::computeMomentofInertia` divides by the volume, no
  other geometry does, so `computeMomentofInertiaRelatedToCOM` mixes the two
  (`convex_inertia_refuted`, `ex_tet_rel`).
* GJK: the test for a repeated support point compares with the last four with a
  squared distance below the tolerance.  A vertex found long before may come back
  while the ray is still far from the nearest point, so overlapping shapes are
  reported apart (`repeat_refuted`), and bodies smaller than the square root of the
  tolerance always are (`tiny_refuted`).  If the origin is enclosed in the last
  iteration the status Inside is overwritten by Failed.  `encloseOrigin` only tests
  that the four points are not in a plane (`enclose_far`).
* EPA (C76): `getEdgeDist` returns the length of a cross product without dividing
  by the length of the side (`edge_dist_scaled`), so a face may get the smallest
  distance wrongly and the search stops with half the depth (`depth_refuted`).
  `shapeIntersect` reports a contact whatever EPA's status is, with minus the
  depth, and with a normal that was not turned into the world frame
  (`intersect_frame`, `normal_refuted`).  A simplex of one vertex gives depth 0 and
  normal (1,0,0) (`early_contact`).  An expansion fails whenever the faces seen from
  the new vertex go around a vertex.
* **libccd GJK (C77).**  The tests of `doSimplex3` compare products of four and six
  lengths with CCD_EPS, so overlapping shapes of size below 7e-5 are reported as
  apart (`small_overlap_refuted`); a first support point in the origin ends the
  search with "apart" (`first_origin_refuted`).  `doSimplex4` never tests the face
  opposite the new point and takes two signs "zero" as equal.
* **libccd distance (C78).**  `_ccdDist` stops when the new support point has the same
  length as the nearest point, so the distance can be too large by any factor
  (`early_stop_refuted`).  `simplexReduceToTriangle` leaves the witness unwritten when
  nothing improves; this is the normal end of a search on a face, and the points on the
  objects are then computed from an uninitialised vector (`copy_unset`,
  `face_unset_refuted`).
* Polytope of the libccd extension (C79): if the border of the visible patch passes
  through a vertex twice, `expandPolytope` attaches two pairs of faces to one new edge
  and the polytope is no longer closed.  `ComputeVisiblePatchRecursiveSanityCheck` does
  not notice (`pinched_open`, `pinch_refuted`).  libccd's `ccd_pt_t` is outside the
  repository; it is modelled after its documented behaviour.
* EPA of the libccd extension (C81): the `while (1)` of `__ccdEPA` has no iteration
  limit; a vertex as nearest element ends the search without a look at the support
  function; separated objects with a gap below 2 eps can get a negative signed distance
  (`pen_apart_refuted`); three simplex points on a line make the support function be
  asked in the direction zero.
* Box-box collision (C82): boxes touching along an edge are "intersecting" but have no
  contact, so a query without contacts stores a (dummy) contact for them and a query
  with contacts stores none; the padding makes boxes up to 40 epsilon apart intersect.
* Sphere against triangle (C84): a triangle with collinear corners collides with every
  sphere and its distance is never positive; the penetration depth has the opposite sign
  of all other primitives and is passed on to the contacts of sphere-mesh collision;
  the last edge within reach decides the contact, not the nearest.
* Triangle-triangle (C85): collinear triangles in one plane always intersect
  (`tri_test_flat`); with contacts, a collinear triangle makes the code use normals and
  offsets that were never written (`tri_contact_refuted`).
* Mesh-sphere (C87): the triangle test has a margin, the volume test has none, so whether a
  triangle within the margin is reported depends on the hierarchy
  (`mesh_sphere_margin_refuted`).
* Dispatch (C88): the distance table has no entry for a half-space and an ellipsoid in this
  order (distance_func_matrix-inl.h 565-572), but one for the other order; triangles
  (TriangleP) and pairs of meshes with different volumes get "no contact" with a warning only.
* Mesh against half-space or plane (C89): shapeTriangleIntersect for a triangle in the world frame has no
  specialization for Halfspace and Plane in either solver, so a mesh with AABB or k-DOP
  volumes calls libccd with null support functions (gjk_libccd.h 76-92), or GJK with a support
  function that always returns zero (`mesh_flat_leaf_refuted`); the oriented nodes are correct.
* Two shapes (C90): the specializations for half-spaces and planes among themselves ignore the
  contact vector (gjk_solver_libccd-inl.h 269-345), so with enable_contact such a pair never
  collides (`flat_pairs_refuted`). convexPlaneIntersect (plane-inl.h 641-697) is not registered in
  either solver, so a convex and a plane reach libccd with null support functions
  (`convex_plane_refuted`).
* Split rules (C91): computeSplitValue_bvcenter (BV_splitter-inl.h 549-554) returns the first
  coordinate of the centre, but apply compares it with the projection on the split vector
  (`center_split_oriented_refuted`); it should be the projection of the centre. With the mean rule the
  recursion depth can be the number of primitives (`mean_depth_refuted`).
* ShapeShapeCollide (collision_func_matrix-inl.h 294-302) calls enableCachedGuess(true) also when
  the request has no cached guess, so such a request starts from the last guess of the solver.
* Distance of shapes (C92): for a sphere in contact with another shape the nearest points of the
  result are set to the origin (shape_distance_traversal_node-inl.h 83-84, `meeting_points_refuted`).
  The distance table has entries for planes and half-spaces, but neither solver has an algorithm or a
  support function for them: libccd is called with null function pointers (`distance_flat_refuted`).
* kIOS::distance takes both spheres for the points P and Q from the first volume
  (`spheres[id_b]` instead of `other.spheres[id_b]`, kIOS-inl.h 236-241, `kios_points_refuted`);
  translate(kIOS) drops the translated box (kIOS-inl.h 312, `kios_translate_refuted`); contain does not
  look at the box (`contain_outside`); encloseSphere returns a ball of twice the radius needed
  (kIOS-inl.h 70, `enclose_sphere_encloses`) and computes the distance as a float.
* rectDistance: when no pair of sides is chosen, one of P and Q is the corner at the origin of its
  rectangle and the other lies on the normal through it (RSS-inl.h 1182-1217), so that it is not a point
  of the other rectangle in general (`rect_points_refuted`), though the number returned is a lower bound.
* RSS::volume is `l0 l1 2r + 4 pi r^3` (RSS-inl.h 401-405): the half cylinders at the sides are missing
  and the ball counts three times (`rss_volume_refuted`).
