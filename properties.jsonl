{"id": "C01", "title": "AABB overlap test is exact", "statement": "For two axis-aligned boxes, overlap() returns true exactly when some point lies in both boxes; it is symmetric; when it is true, overlap(other, part) fills part with exactly the set of common points; axisOverlap agrees per axis.", "quantifier": "all pairs of non-empty boxes with finite coordinates", "why_tests_cant": "infinitely many coordinate combinations, including touching faces, edges, points and degenerate (flat) boxes", "anchors": ["include/fcl/math/bv/AABB-inl.h: AABB::overlap, AABB::axisOverlap, AABB::contain"]}
{"id": "C02", "title": "AABB merge is the least enclosing box", "statement": "Merging a box with a point or another box (+=, +) gives a box containing both arguments, contained in every box containing both; the default constructed box is a neutral element; box containment is transitive and agrees with point containment; expand by a non-negative delta only enlarges.", "quantifier": "all boxes, points and finite sequences of merges in any order", "why_tests_cant": "order independence and minimality quantify over all merge sequences", "anchors": ["include/fcl/math/bv/AABB-inl.h: AABB::operator+=, operator+, contain, expand, AABB::AABB"]}
{"id": "C03", "title": "AABB distance is the true minimum distance", "statement": "AABB::distance(other) is the minimum Euclidean distance between a point of one box and a point of the other, it is attained, it is symmetric, and it is zero exactly when the boxes overlap. The nearest points reported by the three-argument form are always at that distance from each other. They belong to their boxes if on every axis the box that starts first also ends first; otherwise a reported point can lie outside its box.", "quantifier": "all pairs of non-empty boxes", "why_tests_cant": "needs a comparison with every pair of points of the two boxes", "anchors": ["include/fcl/math/bv/AABB-inl.h: AABB::distance(const AABB&, Vector3*, Vector3*), AABB::distance(const AABB&)"]}
{"id": "C04", "title": "Brute-force manager enumerates every overlapping pair once", "statement": "NaiveCollisionManager::collide(callback) calls the callback on each unordered pair of registered objects with overlapping AABBs exactly once (if never told to stop), and on no other pair; collide(obj) calls it on each registered object.", "quantifier": "all registered object lists, all AABBs, all stateful callbacks", "why_tests_cant": "all histories and callback behaviours", "anchors": ["include/fcl/broadphase/broadphase_bruteforce-inl.h: NaiveCollisionManager::collide"]}
{"id": "C05", "title": "A callback that returns true ends the query", "statement": "In every broadphase manager's collide and distance query, once the user callback returns true the callback is never called again during that query.", "quantifier": "all managers modelled, all contents, all stateful callbacks", "why_tests_cant": "quantifies over arbitrary user callbacks and contents", "anchors": ["include/fcl/broadphase/broadphase_bruteforce-inl.h", "include/fcl/broadphase/broadphase_SSaP-inl.h", "include/fcl/broadphase/broadphase_dynamic_AABB_tree-inl.h", "include/fcl/broadphase/broadphase_interval_tree-inl.h", "include/fcl/broadphase/broadphase_SaP-inl.h", "include/fcl/broadphase/broadphase_spatialhash-inl.h"]}
{"id": "C06", "title": "Managers are faithful containers", "statement": "After any legal sequence of registration / clear / setup / update (and unregistration, where it is defined) on a manager, size() and getObjects() describe exactly the objects registered and not since removed, and so does empty() except in SaPCollisionManager, where it is inverted in every state. Unregistration is exact in the naive, SSaP, dynamic tree and spatial hash managers; in the interval tree manager it can corrupt the tree and in SaP it is undefined behaviour.", "quantifier": "all finite histories of operations, for every manager kind", "why_tests_cant": "quantifies over unbounded histories", "anchors": ["include/fcl/broadphase/broadphase_bruteforce-inl.h", "include/fcl/broadphase/broadphase_SSaP-inl.h", "include/fcl/broadphase/broadphase_SaP-inl.h: empty, size", "include/fcl/broadphase/broadphase_dynamic_AABB_tree-inl.h", "include/fcl/broadphase/broadphase_interval_tree-inl.h", "include/fcl/broadphase/broadphase_spatialhash-inl.h"]}
{"id": "C07", "title": "SSaP single-object query is exact", "statement": "After setup, SSaPCollisionManager::collide(obj) calls the callback exactly once on each registered object other than obj whose AABB overlaps obj's, and on nothing else, whatever axis and search strategy it picks.", "quantifier": "all object sets (both below and above the internal cutoff), all query boxes", "why_tests_cant": "quantifies over all scenes and all sorted orders allowed by std::sort ties", "anchors": ["include/fcl/broadphase/broadphase_SSaP-inl.h: SSaPCollisionManager::collide_, checkColl"]}
{"id": "C08", "title": "SSaP self query is exact", "statement": "After setup, SSaPCollisionManager::collide(callback) calls the callback exactly once for every unordered pair of registered objects with overlapping AABBs and for no other pair.", "quantifier": "all object sets, all tie orders of the sort", "why_tests_cant": "all scenes, including touching boxes and ties", "anchors": ["include/fcl/broadphase/broadphase_SSaP-inl.h: SSaPCollisionManager::collide(void*, CollisionCallBack), selectOptimalAxis"]}
{"id": "C09", "title": "SSaP removal removes exactly the object", "statement": "As long as no registered object has moved since the last update(), SSaPCollisionManager::unregisterObject(obj) removes obj and no other object from all three sorted vectors. When an object moved without update(), the object can stay registered in some of the vectors and be missing from others.", "quantifier": "all registered sets and all geometric positions, including objects that moved since the last update", "why_tests_cant": "depends on the relation between stored order and current AABBs in every history", "anchors": ["include/fcl/broadphase/broadphase_SSaP-inl.h: SSaPCollisionManager::unregisterObject"]}
{"id": "C10", "title": "SSaP distance queries find the minimum, and when they terminate", "statement": "Whenever SSaPCollisionManager::distance (obj, self, or against another manager) returns, it has called the callback on an object realising the minimum distance, for every callback that never reports less than the AABB distance. It returns if the query box has extent on every axis and some other registered object is at a distance below numeric_limits::max(). It never returns if the only registered object is the query object itself, or if the query box has no extent and every object lies to its right.", "quantifier": "all scenes, all lower-bounded distance callbacks", "why_tests_cant": "termination for every scene cannot be tested", "anchors": ["include/fcl/broadphase/broadphase_SSaP-inl.h: distance_"]}
{"id": "C11", "title": "Dynamic AABB tree keeps its hierarchy invariant", "statement": "After any history of insertions, removals, updates (with or without fat margins), incremental balancing, top-down and bottom-up rebuilding and refitting, the hierarchy holds exactly the live objects, once each, and every inner box contains all the boxes below it.", "quantifier": "all finite histories of tree operations on arbitrary boxes", "why_tests_cant": "invariant over unbounded histories", "anchors": ["include/fcl/broadphase/detail/hierarchy_tree-inl.h: HierarchyTree::insertLeaf, removeLeaf, update, balance*, refit, topdown_*, bottomup"]}
{"id": "C12", "title": "Dynamic AABB tree single-object query is exact", "statement": "DynamicAABBTreeCollisionManager::collide(obj) calls the callback exactly once for each registered object whose stored box overlaps obj's AABB, and on no others; in particular no registered object overlapping obj is missed.", "quantifier": "all tree shapes reachable by any history, all query boxes, all callbacks", "why_tests_cant": "all histories and shapes", "anchors": ["include/fcl/broadphase/broadphase_dynamic_AABB_tree-inl.h: detail::dynamic_AABB_tree::collisionRecurse, DynamicAABBTreeCollisionManager::collide"]}
{"id": "C13", "title": "Dynamic AABB tree self query is exact", "statement": "DynamicAABBTreeCollisionManager::collide(callback) calls the callback exactly once for each unordered pair of registered objects whose stored boxes overlap.", "quantifier": "all tree shapes reachable by any history", "why_tests_cant": "all histories and shapes", "anchors": ["include/fcl/broadphase/broadphase_dynamic_AABB_tree-inl.h: detail::dynamic_AABB_tree::selfCollisionRecurse"]}
{"id": "C14", "title": "Dynamic AABB tree manager-manager query is exact", "statement": "collide(other, callback) between two distinct tree managers calls the callback exactly once for each pair (object of this, object of other) with overlapping stored boxes.", "quantifier": "all pairs of reachable trees", "why_tests_cant": "all pairs of histories", "anchors": ["include/fcl/broadphase/broadphase_dynamic_AABB_tree-inl.h: collisionRecurse(node1,node2)"]}
{"id": "C15", "title": "Dynamic AABB tree distance query finds the minimum", "statement": "distance(obj / self / other) ends with a minimum distance no greater than the callback distance of any candidate pair, provided the callback never reports less than the AABB distance and never increases the running minimum; pruning loses nothing.", "quantifier": "all reachable trees, all query objects, all such callbacks", "why_tests_cant": "all trees and all callbacks", "anchors": ["include/fcl/broadphase/broadphase_dynamic_AABB_tree-inl.h: distanceRecurse, selfDistanceRecurse"]}
{"id": "C16", "title": "Updating a moved object keeps queries correct", "statement": "After an object moves and update(obj) / update() is called, the tree manager's stored box for it contains its current AABB (up to the documented tolerance of AABB::equal), so no overlapping pair is lost.", "quantifier": "all sequences of motions and updates", "why_tests_cant": "all histories", "anchors": ["include/fcl/broadphase/broadphase_dynamic_AABB_tree-inl.h: update_, update", "include/fcl/broadphase/detail/hierarchy_tree-inl.h: HierarchyTree::update"]}
{"id": "C17", "title": "Array tree agrees with the pointer tree over every history", "statement": "DynamicAABBTreeCollisionManager_Array, after any history of register, unregister, update and setup in which the node array never has to grow under an insertion, no manager of one object updates that single object, and setup never rebuilds top-down, still updates and removes the node that belongs to the object it was asked about and answers queries like the pointer tree manager. Each of the three conditions is needed: without it the code reads freed memory, loses the object, or acts on another object's node.", "quantifier": "all finite histories", "why_tests_cant": "all histories, in particular those that interleave rebalancing and updates", "anchors": ["include/fcl/broadphase/broadphase_dynamic_AABB_tree_array-inl.h", "include/fcl/broadphase/detail/hierarchy_tree_array-inl.h: balanceTopdown, balanceBottomup"]}
{"id": "C18", "title": "Interval tree query is exact, and when deletion corrupts the tree", "statement": "After every sequence of IntervalTree::insert and deleteNode(interval) calls in which no rotation was made around the nil sentinel, query(low, high) with low > -numeric_limits<double>::max() returns exactly the stored intervals that intersect [low, high], each once, and every node's max_high is the largest upper end below it. Insertions never rotate around the sentinel. Deletions can: insert paints parent and uncle red where it should paint them black, and a history of eleven calls on stored intervals then makes deleteFixup rotate around nil and lose nodes. Deleting an interval that is not stored deletes the sentinel. A query with low = -max() misses intervals.", "quantifier": "all sequences of insert/delete, all intervals, all queries", "why_tests_cant": "all histories and queries", "anchors": ["include/fcl/broadphase/detail/interval_tree-inl.h: IntervalTree::insert, deleteNode, query, fixupMaxHigh"]}
{"id": "C19", "title": "Interval-tree manager removal and update: when they are correct", "statement": "IntervalTreeCollisionManager::unregisterObject(obj) leaves every other object registered and detectable if all endpoints are current and no registered AABB reaches beyond obj's in the positive direction of any axis, and the interval trees are not corrupted. Otherwise it can keep obj and lose another object. After update(obj), collide(obj2) uses the new AABBs of all updated objects. collide() does not: update(obj) leaves the object's max endpoint at its old value, so overlapping pairs are missed and disjoint pairs reported until the next update().", "quantifier": "all registered sets and motions", "why_tests_cant": "all histories", "anchors": ["include/fcl/broadphase/broadphase_interval_tree-inl.h: unregisterObject, update(CollisionObject*)"]}
{"id": "C20", "title": "Interval-tree manager queries report all overlapping pairs", "statement": "After setup, collide(obj) on the interval-tree manager reports exactly the other registered objects whose AABB overlaps obj's, each once. collide(callback) reports every pair of registered objects with overlapping AABBs exactly once if no AABB begins where one ends on the same axis. Two AABBs that touch on the sweep axis can be missed, and a flat AABB can be reported with one it does not touch. collide(other) reports each overlapping pair exactly twice.", "quantifier": "all scenes, including touching AABBs and all tie orders of std::sort", "why_tests_cant": "all scenes and tie orders", "anchors": ["include/fcl/broadphase/broadphase_interval_tree-inl.h: collide(void*, CollisionCallBack), collide_"]}
{"id": "C21", "title": "Spatial hash cells cover the box", "statement": "The keys computed for an AABB contain the key of the cell of each of its points, except points on a maximal face lying in a plane of the grid. Two AABBs that overlap each other and the scene share a key unless their common part inside the scene is flat and lies in a plane of the grid; in particular AABBs whose interiors meet inside the scene do. Distinct cells of the scene have distinct keys while there are at most 2^32 of them. A flat AABB in a grid plane has no key at all, and AABBs touching in a grid plane share none.", "quantifier": "all boxes, all scene limits and cell sizes", "why_tests_cant": "all positions relative to the grid", "anchors": ["include/fcl/broadphase/detail/spatial_hash-inl.h: SpatialHash::operator()", "include/fcl/broadphase/detail/simple_hash_table-inl.h"]}
{"id": "C22", "title": "When the spatial-hash manager never loses an overlapping object", "statement": "After any history in which objects are registered at most once at a time, unregistered or updated only while registered, unregistered only if not moved since the manager was last told, and the manager is cleared only when no registered object straddles the scene limit: collide(obj), collide() and collide(other) call the callback at most once per pair, only on registered objects, and on every pair of registered objects whose AABBs overlap, unless the common part of the AABBs inside the scene is flat and lies in a plane of the grid. Each condition is needed: flat or touching AABBs in a grid plane are missed, clear() leaves straddling objects to be reported, an object moved before unregisterObject stays in the table, and update(obj) of an unregistered object erases an end iterator.", "quantifier": "all scenes, all histories of register/unregister/update/clear", "why_tests_cant": "all histories and positions relative to the grid", "anchors": ["include/fcl/broadphase/broadphase_spatialhash-inl.h: collide_, registerObject, unregisterObject, update, clear"]}
{"id": "C23", "title": "SaP manager: exact object queries; when the list of overlapping pairs is exact", "statement": "After any sequence of single or bulk registrations, setup and clear, the endpoint lists are sorted and complete; collide(obj) and collide(other) report exactly the overlapping pairs; collide() reports only overlapping pairs. collide() is exact after a bulk registration when no box begins where a box ends, and complete (each pair once or twice) when each object registered singly begins on x no later than the others. In general registration one by one misses and repeats pairs, bulk registration can miss touching pairs, and update_ breaks the endpoint lists or leaves the cached box stale unless the box moves without changing direction at both ends.", "quantifier": "all sequences of registrations", "why_tests_cant": "all histories", "anchors": ["include/fcl/broadphase/broadphase_SaP-inl.h: registerObject, registerObjects, update_, collide_, collide, updateVelist"]}
{"id": "C24", "title": "Morton codes interleave coordinates", "statement": "morton_code(x,y,z) on 10-bit coordinates puts bit i of x, y, z at bits 3i, 3i+1, 3i+2; morton_code60 does so for 20-bit coordinates; codes are injective and monotone in each coordinate; quantize maps [0,1] into [0,n-1] monotonically. The functors give every point of a box with extent on all axes a code that is monotone in the point, and the bitset functor agrees with the integer ones. On a box without extent on some axis, and for coordinates of -1/n and below, the conversion to uint32 is undefined.", "quantifier": "all coordinate values of the stated width; all reals in [0,1]", "why_tests_cant": "2^30 and 2^60 inputs", "anchors": ["src/broadphase/detail/morton.cpp: morton_code, morton_code60", "include/fcl/broadphase/detail/morton-inl.h: quantize, morton_functor"]}
{"id": "C25", "title": "BVH model construction protocol: when it is memory safe and consistent", "statement": "Every sequence of building calls in which addTriangle and addSubModel occur only in states BEGUN and PROCESSED, triangle indices refer to vertices of their sub-model, and no more than num_vertices positions are written while replacing or updating, stays inside its arrays, returns the documented codes and leaves exactly the added vertices and triangles. Calls rejected for their state leave the model unchanged, except beginModel on a non-empty model, which drops everything. Outside these conditions the code writes or reads past its arrays: addTriangle or addSubModel on a fresh model, too many replaceVertex or updateVertex calls, invalid triangle indices, triangles added while replacing; triangles without vertices are accepted without building a hierarchy.", "quantifier": "all finite sequences of API calls and sizes", "why_tests_cant": "all call histories and reallocation points", "anchors": ["include/fcl/geometry/bvh/BVH_model-inl.h: BVHModel::beginModel, addVertex, addTriangle, addSubModel, endModel, replaceVertex, updateVertex"]}
{"id": "C26", "title": "BVH hierarchy is a partition of the primitives", "statement": "After endModel, the hierarchy has 2n-1 nodes, every primitive sits in exactly one leaf below the root, and every node's bounding volume encloses all vertices of all primitives below it, whatever split rule is used.", "quantifier": "all meshes and all split rules", "why_tests_cant": "all meshes, all degenerate splits", "anchors": ["include/fcl/geometry/bvh/BVH_model-inl.h: BVHModel::buildTree, recursiveBuildTree"]}
{"id": "C27", "title": "BVH refit encloses moved vertices", "statement": "After endReplaceModel or endUpdateModel with refitting (bottom-up or top-down), every node's bounding volume encloses all new (and, for update, previous) vertex positions of the primitives below it.", "quantifier": "all meshes, all vertex motions, all enclosing fit/merge operators", "why_tests_cant": "all motions", "anchors": ["include/fcl/geometry/bvh/BVH_model-inl.h: refitTree, recursiveRefitTree_bottomup, refitTree_topdown"]}
{"id": "C28", "title": "BVH collision traversal is complete and sound", "statement": "Collision traversal of two hierarchies performs the primitive test on every pair of primitives whose volumes overlap all the way up, at most once per pair and on nothing else; if no early stop is triggered every intersecting pair of primitives is reported, and a collision is reported iff some primitive pair intersects.", "quantifier": "all pairs of hierarchies with enclosing volumes, all descent rules, all primitive tests", "why_tests_cant": "all trees and descent choices", "anchors": ["include/fcl/narrowphase/detail/traversal/traversal_recurse-inl.h: collisionRecurse", "include/fcl/narrowphase/detail/traversal/collision/mesh_collision_traversal_node-inl.h: leafTesting, canStop"]}
{"id": "C29", "title": "Contact limit is respected", "statement": "collide() never leaves more than num_max_contacts contacts in a result that started with no more than that, reports a collision iff one exists whenever num_max_contacts >= 1, and finds min(limit, number available) contacts.", "quantifier": "all hierarchies, requests and contact generators", "why_tests_cant": "all contact counts and limits", "anchors": ["include/fcl/narrowphase/detail/traversal/collision/mesh_collision_traversal_node-inl.h: leafTesting", "include/fcl/narrowphase/collision_request-inl.h: isSatisfied", "include/fcl/narrowphase/collision-inl.h: collide"]}
{"id": "C30", "title": "BVH distance traversal returns the minimum", "statement": "Distance traversal through distance() (recursive or priority-queue variant, any queue size, any priority queue, any tie-breaking) of two hierarchies ends with the minimum primitive-pair distance when the error tolerances are zero, and within the absolute and relative error otherwise. distanceQueueRecurse called directly with a queue size of 0 or 1 never returns on hierarchies of more than one pair.", "quantifier": "all hierarchies with lower-bounding volume distances, all queue sizes, all tolerances", "why_tests_cant": "all trees, queue sizes and visiting orders", "anchors": ["include/fcl/narrowphase/detail/traversal/traversal_recurse-inl.h: distanceRecurse, distanceQueueRecurse"]}
{"id": "C31", "title": "Front-list coherence loses no collisions", "statement": "Reusing a front list produced by an earlier query, after the volumes have been refitted any number of times, tests every primitive pair whose volumes currently overlap all the way up and no pair whose volumes are disjoint, and leaves a front list that is again complete. It can test a pair, and report its contact, twice, never more often.", "quantifier": "all hierarchies, all sequences of refits and queries", "why_tests_cant": "all histories of reuse", "anchors": ["include/fcl/narrowphase/detail/traversal/traversal_recurse-inl.h: propagateBVHFrontListCollisionRecurse, collisionRecurse"]}
{"id": "C32", "title": "Self-collision traversal covers each pair once", "statement": "selfCollisionRecurse performs the primitive test on each unordered pair of distinct primitives of the model whose volumes overlap all the way up, at most once, and never pairs a primitive with itself.", "quantifier": "all hierarchies", "why_tests_cant": "all trees", "anchors": ["include/fcl/narrowphase/detail/traversal/traversal_recurse-inl.h: selfCollisionRecurse"]}
{"id": "C33", "title": "Cost sources keep the most expensive regions", "statement": "After any sequence of addCostSource calls with limit k, the result holds at most k sources, all offered, from the most expensive down; every source offered is there, or one with the same total cost, density and lower corner is, or all k places are held by sources that cost at least as much. Two different regions that agree in total cost, density and lower corner count as one, so a region can be dropped although there is room.", "quantifier": "all sequences of sources", "why_tests_cant": "all sequences and ties", "anchors": ["include/fcl/narrowphase/collision_result-inl.h: addCostSource", "include/fcl/narrowphase/cost_source-inl.h: operator<"]}
{"id": "C34", "title": "Distance result keeps the nearest pair", "statement": "After any sequence of update calls, DistanceResult is unchanged if no offer is below its distance, and otherwise holds the first of the smallest offers: distance, objects, primitives, and its nearest points if it was offered with points. An offer without points, and clear(), leave the nearest points of an earlier pair in place.", "quantifier": "all sequences of updates", "why_tests_cant": "all sequences", "anchors": ["include/fcl/narrowphase/distance_result-inl.h: update, clear"]}
{"id": "C35", "title": "Default broadphase callbacks honour their contract", "statement": "DefaultCollisionFunction keeps the first num_max_contacts contacts of the pairs it is given, requests termination exactly when the request is satisfied and then never queries again; a manager query that calls back every pair of a set reports a collision iff some pair of the set has a contact. DefaultContinuousCollisionFunction never requests termination. DefaultDistanceFunction keeps the minimum over the pairs visited and stops only at a distance not above zero, so with non-negative distances it ends with the minimum over all pairs; with signed distances it can stop at a pair that is not the deepest.", "quantifier": "all sequences of pairs and narrowphase outcomes", "why_tests_cant": "all sequences", "anchors": ["include/fcl/broadphase/default_broadphase_callbacks.h: DefaultCollisionFunction, DefaultDistanceFunction, DefaultContinuousCollisionFunction"]}
{"id": "C36", "title": "Interval arithmetic is exact on intervals", "statement": "Interval +, -, unary -, *, scalar * and / (by an interval without zero) return exactly the interval of all results of the operation on points of the operands; overlap, intersect, contains and bound are the set operations; getAbsLower is the distance to zero. getAbsUpper is the largest absolute value only if the interval reaches at least as far up as down, and negative otherwise. a -= a and a *= a on the object itself give wrong intervals when it is negative, and division by an interval with zero inside gives an empty one.", "quantifier": "all intervals and all members", "why_tests_cant": "all reals", "anchors": ["include/fcl/math/motion/taylor_model/interval-inl.h: Interval"]}
{"id": "C37", "title": "Taylor model arithmetic encloses, and where it does not", "statement": "Taylor models closed under +, -, unary -, scalar operations and, over a time interval that does not begin before zero, * enclose the function built by the same operations; getBound(t) and getBound(t0,t1) with 0 <= t0 enclose its values. Over a time interval with zero inside the powers of time, the product and getBound(t0,t1) are wrong. getBound() adds the first-order coefficient instead of the constant: it encloses if that is not smaller, and misses every positive constant. m -= m on the object itself is wrong.", "quantifier": "all functions, coefficients, remainders, time intervals [l,r] with 0<=l<=r", "why_tests_cant": "all functions and times", "anchors": ["include/fcl/math/motion/taylor_model/taylor_model-inl.h: operator+,-,*, getBound", "include/fcl/math/motion/taylor_model/time_interval-inl.h"]}
{"id": "C38", "title": "Taylor model tight bound encloses", "statement": "getTightBound(t0,t1) encloses every function modelled over the part of [t0,t1] inside the time interval, for all coefficients; with a zero remainder both ends are values of the function, so it is the exact range of the polynomial.", "quantifier": "all cubic polynomials, remainders and time ranges", "why_tests_cant": "all reals", "anchors": ["include/fcl/math/motion/taylor_model/taylor_model-inl.h: getTightBound"]}
{"id": "C39", "title": "Taylor models of cosine and sine: when they enclose", "statement": "generateTaylorModelForLinearFunc is exact. generateTaylorModelForCosFunc and ForSinFunc enclose cos(wt+q0) and sin(wt+q0) over the time interval when the function keeps its sign there (by 1e-15), or for w = 0 (for sine only if the model's old remainder contains 0, which it never resets). When the sign changes one side of the remainder is cut to 0: over [0,1] with phase 0, as the screw and interpolated motions use it, the sine model never encloses the sine.", "quantifier": "all w, q0 and time intervals", "why_tests_cant": "all reals", "anchors": ["include/fcl/math/motion/taylor_model/taylor_model-inl.h: generateTaylorModelForCosFunc, generateTaylorModelForSinFunc, generateTaylorModelForLinearFunc"]}
{"id": "C40", "title": "kDOPs are the smallest of their kind and conservative", "statement": "For N=16,18,24 a KDOP fitted to points contains them (and every convex combination) and lies in every KDOP containing them; the point constructor contains exactly its point, the default constructor nothing; inside decides membership; merge contains both operands and is the smallest; translate moves the set exactly; a KDOP that went through any history of additions, merges and translations contains every added point as moved since; two KDOPs with a common point overlap. The converse is false: for each N the KDOPs of two segments overlap without a common point.", "quantifier": "all points and kDOPs", "why_tests_cant": "all reals", "anchors": ["include/fcl/math/bv/kDOP-inl.h: KDOP"]}
{"id": "C41", "title": "OBB disjointness test is conservative and not exact", "statement": "If obbDisjoint reports two oriented boxes disjoint then they have no common point; OBB::overlap and overlap(R0,T0,b1,b2) never miss an intersection; OBB::contain decides membership. The converse is false: boxes without a common point can be reported overlapping, because of the 1e-6 added to the axes.", "quantifier": "all rotations, translations and non-negative extents", "why_tests_cant": "all orientations", "anchors": ["include/fcl/math/bv/OBB-inl.h: obbDisjoint, OBB::overlap, overlap(R0,T0,b1,b2)"]}
{"id": "C42", "title": "OBB merge: when the sum encloses both boxes", "statement": "merge_smalldist contains every point of both boxes iff, on every merged axis, some vertex other than the first vertex of the first box is at least as low; boxes with equal axes (so also += of a near point) always satisfy this, others can fail. merge_largedist, used when the centres are further apart than twice the sum of the largest extents, contains both boxes if the first has positive extents (exact arithmetic); for flat boxes, such as two points, its axes need not be orthogonal and the sum can miss both.", "quantifier": "all oriented boxes", "why_tests_cant": "all orientations", "anchors": ["include/fcl/math/bv/OBB-inl.h: merge_smalldist, merge_largedist, computeVertices, operator+"]}
{"id": "C43", "title": "Octree child boxes tile the parent", "statement": "The eight child boxes computed by computeChildBV cover the parent box exactly, no point is strictly inside one and in another, each has half the parent's sides, and the cells at the depth the root box was made for have the resolution as sides.", "quantifier": "all boxes", "why_tests_cant": "all reals", "anchors": ["include/fcl/geometry/octree/octree-inl.h: computeChildBV, getRootBV"]}
{"id": "C44", "title": "Octree traversal reaches every occupied cell, and when it does not", "statement": "For trees whose nodes have at least the log-odds of their children: octree-shape, octree-mesh and octree-octree collision report at most max contacts, each from an occupied leaf, and if there is room left every contact the narrow phase gives for an occupied, not also free leaf (pair) with a common point. With costs enabled a cost source is added for every missing cell, and for meshes and octrees every cell that is not free, that touches the other object; octree-shape never adds one for an existing cell. Octree distance is the least value over the occupied cells, or some value not above zero. With the default thresholds (both 0) a cell of log-odds 0 below a node of log-odds 0 is never tested for collision though distance measures it; without max-propagation cells are missed; an empty tree adds a cost source even when costs are disabled and its distance query dereferences null.", "quantifier": "all octrees with max-propagated occupancy, all shapes and meshes", "why_tests_cant": "all trees", "anchors": ["include/fcl/narrowphase/detail/traversal/octree/octree_solver-inl.h"]}
{"id": "C45", "title": "Projection onto a segment, triangle or tetrahedron: when it is the nearest point", "statement": "projectLine and projectTriangle return, for distinct end points and non-zero area, the least squared distance with parameters that are non-negative, sum to one, give the nearest point and are zero where the encode bit is clear; degenerate input returns -1. projectTetrahedra does the same for non-zero volume and a point on d's side of the plane abc, or beyond it and inside the other three faces; elsewhere beyond abc the answer can be far from the minimum. The Origin variants agree with p = 0.", "quantifier": "all simplices and points", "why_tests_cant": "all reals", "anchors": ["include/fcl/math/detail/project-inl.h: Project"]}
{"id": "C46", "title": "Sphere-sphere queries are exact", "statement": "sphereSphereIntersect is true iff the balls share a point; the reported position lies in both balls, the depth is the least translation that separates them and, for distinct centres, the normal is unit and moving by depth along it separates them (concentric spheres get a zero normal). sphereSphereDistance is the true distance with attained nearest points, and fails iff the balls meet.", "quantifier": "all spheres and poses", "why_tests_cant": "all reals", "anchors": ["include/fcl/narrowphase/detail/primitive_shape_algorithm/sphere_sphere-inl.h"]}
{"id": "C47", "title": "Sphere-capsule queries are exact", "statement": "sphereCapsuleIntersect is true iff ball and capsule share a point; sphereCapsuleDistance is the true distance with attained nearest points. Off the capsule's axis the normal is unit, depth along it separates the shapes and no shorter move does. With n the distance from the sphere's centre to the axis, the contact position lies in the capsule iff r1 <= n and in the ball iff r2/2 <= n <= r1 + r2/2; so it can lie in neither.", "quantifier": "all spheres, capsules and poses", "why_tests_cant": "all reals", "anchors": ["include/fcl/narrowphase/detail/primitive_shape_algorithm/sphere_capsule-inl.h"]}
{"id": "C48", "title": "Sphere-box queries are exact", "statement": "sphereBoxIntersect is true iff ball and box share a point; sphereBoxDistance is the true distance with attained nearest points; nearestPointInBox is the nearest point of the box and its flag says whether the point was outside. The contact normal is unit, depth along it separates the shapes, and no move shorter than depth - 2 eps does. The contact position lies in the ball if depth <= 4 r; otherwise it can lie outside the ball, and for thin boxes outside the box.", "quantifier": "all spheres, boxes and poses", "why_tests_cant": "all reals", "anchors": ["include/fcl/narrowphase/detail/primitive_shape_algorithm/sphere_box-inl.h"]}
{"id": "C49", "title": "Sphere-cylinder queries are exact", "statement": "sphereCylinderIntersect is true iff ball and cylinder share a point; sphereCylinderDistance is the true distance with attained nearest points; nearestPointInCylinder is the nearest point and its flag says whether the point was outside. The contact normal is unit, depth along it separates the shapes up to eps, and no move shorter than depth - 2 eps does.", "quantifier": "all spheres, cylinders and poses", "why_tests_cant": "all reals", "anchors": ["include/fcl/narrowphase/detail/primitive_shape_algorithm/sphere_cylinder-inl.h"]}
{"id": "C50", "title": "Capsule-capsule distance: exact away from its thresholds", "statement": "closestPtSegmentSegment always returns points of the segments, and the nearest ones if both squared lengths and the squared sine term are each zero or above k^2; then capsuleCapsuleDistance is <= 0 iff the capsules meet and otherwise the true distance with attained points (k below the axis distance). For every 0 < k < 1/2 there are segments, the shorter of length 2k, for which the squared distance returned is at least twice the true one.", "quantifier": "all pairs of segments", "why_tests_cant": "all reals", "anchors": ["include/fcl/narrowphase/detail/primitive_shape_algorithm/capsule_capsule-inl.h"]}
{"id": "C51", "title": "Polynomial solver: which roots are right", "statement": "Away from the thresholds solveLinear and solveQuadric return every real root exactly once (a double root once); between them solveQuadric returns one value within sqrt(th) of every real root. solveCubic is exact for three distinct real roots and for a triple root. Because cbrt returns bool, with one real root the value returned is the root iff D = (1-|q|)^2, and with a double root the answer is right iff q = -1; x^3 = 8 yields 1.", "quantifier": "all coefficients", "why_tests_cant": "all reals", "anchors": ["include/fcl/math/detail/polysolver-inl.h: PolySolver"]}
{"id": "C52", "title": "What the signed-distance workaround reports", "statement": "distance() with enable_signed_distance for colliding meshes or octrees sets result.min_distance to minus the depth of the first contact collide() finds and both nearest points to its position; this is the maximal depth if it is the only contact, and changes nothing if the distance is not negative, for two primitive shapes, or when not requested. It is not the maximal depth when a deeper contact is found later, the value returned by distance() is not result.min_distance, and reusing a result for a pair that does not collide overwrites the earlier depth or reads the last contact of an empty list.", "quantifier": "all narrowphase outcomes", "why_tests_cant": "all outcomes", "anchors": ["include/fcl/narrowphase/distance-inl.h: distance", "include/fcl/narrowphase/distance_request.h: enable_signed_distance"]}
{"id": "C53", "title": "Interval vectors and matrices enclose", "statement": "IVector3 and IMatrix3 sums, differences, dot, cross and matrix products enclose the result for all real vectors and matrices enclosed by the operands; IVector3 bound encloses both, overlap and contain are the set relations; the member rotationConstrain keeps every enclosed matrix with entries in [-1,1]. The free rotationConstrain returns zero for entries already inside [-1,1], and IMatrix3::getLow returns the upper ends.", "quantifier": "all interval vectors and matrices, all enclosed reals", "why_tests_cant": "continuous operands", "anchors": ["include/fcl/math/motion/taylor_model/interval_vector-inl.h: dot, cross, bound, overlap, contain", "include/fcl/math/motion/taylor_model/interval_matrix-inl.h: operator *, rotationConstrain, getLow"]}
{"id": "C54", "title": "Taylor vectors and matrices enclose, and the product that does not", "statement": "TVector3 and TMatrix3 sums, differences, dot, cross, matrix products and tight bounds enclose the vector or matrix valued functions built by the same operations, over a time interval that does not begin before zero. Matrix3 * TaylorModel does not: its second column is the third of the matrix and its third is zero, so it encloses the product with a non-zero function only if both columns of the matrix vanish. TMatrix3::rotationConstrain keeps an entry enclosed if its remainder already lies in [-1,1] or covers it, and not in general; the free rotationConstrain returns the zero model for every exact entry.", "quantifier": "all models, all enclosed functions, all times", "why_tests_cant": "continuous operands", "anchors": ["include/fcl/math/motion/taylor_model/taylor_vector-inl.h: dot, cross, getTightBound", "include/fcl/math/motion/taylor_model/taylor_matrix-inl.h: operator *, rotationConstrain"]}
{"id": "C55", "title": "Motions join their end transforms rigidly, and the screw motion that does not", "statement": "InterpMotion moves rigidly from tf1 to tf2 and carries its reference point along the straight segment; ScrewMotion with a rotation angle of at least 1e-10 moves rigidly from tf1 to tf2, turning about and sliding along one fixed line; TranslationMotion is linear and joins the transforms iff they have the same rotation; SplineMotion is rigid and its translation stays in the convex hull of its control points. ScrewMotion with a smaller angle (a pure translation) uses the unnormalised difference as axis and ends at norm(d) times the displacement d, so it reaches tf2 only if norm(d) is 0 or 1.", "quantifier": "all transforms, reference points, control points and times", "why_tests_cant": "continuous parameters", "anchors": ["include/fcl/math/motion/interp_motion-inl.h: integrate, computeVelocity", "include/fcl/math/motion/screw_motion-inl.h: integrate, computeScrewParameter", "include/fcl/math/motion/translation_motion-inl.h: integrate", "include/fcl/math/motion/spline_motion-inl.h: integrate"]}
{"id": "C56", "title": "Motion bounds bound the motion", "statement": "For TranslationMotion, ScrewMotion and InterpMotion, the bound returned by the triangle and RSS motion bound visitors along a direction n, times the remaining time, is at least the displacement along n of every point of the triangle or RSS over the rest of the motion (exact for a translation). SplineMotion::computeTBound is exactly the largest displacement along n still to come; it is a distance and not a speed, and a spline can move further than the elapsed share of it.", "quantifier": "all motions, triangles, rectangle swept spheres, directions, times and points", "why_tests_cant": "continuous parameters", "anchors": ["include/fcl/math/motion/tbv_motion_bound_visitor-inl.h", "include/fcl/math/motion/triangle_motion_bound_visitor-inl.h", "include/fcl/math/motion/spline_motion-inl.h: computeTBound"]}
{"id": "C57", "title": "Taylor models of motions and the swept AABB of a continuous object", "statement": "ContinuousCollisionObject::computeAABB encloses every position of every point of the local box over the time interval whenever the motion's Taylor models enclose its rotation and translation. InterpMotion without rotation is modelled exactly. With a rotation by 0 < w <= pi about any axis the rotation model made by InterpMotion and ScrewMotion never encloses the rotation, and the swept AABB can miss the body (a rod along y turning about z gets a box without depth). SplineMotion's translation model encloses the translation iff its last control point is the origin.", "quantifier": "all models, boxes, points, times, axes, angles and control points", "why_tests_cant": "continuous parameters", "anchors": ["include/fcl/narrowphase/continuous_collision_object-inl.h: computeAABB", "include/fcl/math/motion/interp_motion-inl.h: getTaylorModel", "include/fcl/math/motion/screw_motion-inl.h: getTaylorModel", "include/fcl/math/motion/spline_motion-inl.h: getTaylorModel"]}
{"id": "C58", "title": "Conservative advancement never steps over a contact, and when it does", "statement": "conservativeAdvancement of two convex shapes, started with the motions at time 0, returns after at most 100001 rounds; the shapes are apart at every time before the one returned; a contact at any time before the end is reported, not later than it happens; a reported time is a contact or leaves a distance of at most 1e-5 times the approach bound. This holds for translation, interpolated and screw motions with any RSS around the shapes. It fails when the motions are not at time 0 at the call, when the distance function reports 0 instead of a negative value at a contact (triangle meshes), when both visitors are given the same direction (generic mesh node), and for a contact exactly at the end. continuousCollideNaive returns the first colliding sample i/(n-1) and finds every contact lasting at least one step; shorter contacts are missed for every n, num_max_iterations overrides toc_err, and one iteration divides 0 by 0.", "quantifier": "all convex bodies, motions, motion bounds, distance oracles, numbers of rounds and samples", "why_tests_cant": "continuous time", "anchors": ["include/fcl/narrowphase/detail/conservative_advancement_func_matrix-inl.h: conservativeAdvancement", "include/fcl/narrowphase/detail/traversal/distance/shape_conservative_advancement_traversal_node-inl.h: leafTesting", "include/fcl/narrowphase/detail/traversal/distance/mesh_conservative_advancement_traversal_node-inl.h: leafTesting", "include/fcl/narrowphase/continuous_collision-inl.h: continuousCollideNaive"]}
{"id": "C59", "title": "The Jacobi eigensolver returns orthonormal vectors and exact eigenpairs", "statement": "Whenever eigen_old returns, its vectors are orthonormal whatever the floating point shortcut tests decide, and so are the axes axisFromEigen makes of them; with exact arithmetic and a symmetric matrix every returned pair is an exact eigenpair; the index selection orders the eigenvalues; a diagonal matrix is returned unchanged. If the sweeps run out nothing is written.", "quantifier": "all 3x3 matrices and all outcomes of the shortcut tests", "why_tests_cant": "continuous matrices", "anchors": ["include/fcl/math/geometry-inl.h: eigen_old, axisFromEigen"]}
{"id": "C60", "title": "Boxes and rectangle swept spheres fitted to points enclose them", "statement": "Whenever the eigensolver returns, the OBB and the RSS fitted by fitn (and by the BVH fitter) contain all the points and have orthonormal axes; getExtentAndCenter and getRadiusAndOriginAndRectangleSize enclose for any orthonormal axes; fit1, fit2 of distinct points and fit3 of three points not on a line enclose. fit3 of three points on a line that does not pass through the origin contains none of them, for OBB and RSS, and OBB::overlap can then miss an intersection with the triangle.", "quantifier": "all finite point lists, all axes, all outcomes of the eigensolver's shortcut tests", "why_tests_cant": "continuous points", "anchors": ["include/fcl/math/geometry-inl.h: getExtentAndCenter_pointcloud, getRadiusAndOriginAndRectangleSize, generateCoordinateSystem", "include/fcl/math/bv/utility-inl.h: OBB_fit_functions, RSS_fit_functions"]}
{"id": "C61", "title": "RSS contain, += and +: when they are right", "statement": "RSS::contain only accepts points closer than r to the rectangle and accepts all of them off the four lines bounding the rectangle; the middle of an edge is refused when r is small. += of a point, with axes along the world axes, keeps the old points and adds the new one if it is nearer than r to the plane of the rectangle and not beyond a corner with mixed signs; beyond such a corner, or at r or further from the plane, the point is never in the result; with turned axes even near points can be lost. operator + encloses both operands if its axes come out orthonormal; they need not, since it uses the rows of the eigenvector matrix and the third axis of the first operand, and the sum can then miss points of an operand.", "quantifier": "all rectangle swept spheres and points", "why_tests_cant": "continuous parameters", "anchors": ["include/fcl/math/bv/RSS-inl.h: contain, operator +=, operator +"]}
{"id": "C62", "title": "Conversions between bounding volumes enclose", "statement": "convertBV of an AABB, OBB or RSS under any rigid transform to an AABB, OBB or RSS encloses every moved point of the source; AABB to OBB, OBB to OBB and RSS to RSS are exact (same points); conversions through the generic centre-and-dimensions route enclose whenever the source lies in the box about center() with width(), height(), depth() in its axes.", "quantifier": "all volumes, rigid transforms and points", "why_tests_cant": "continuous parameters", "anchors": ["include/fcl/math/bv/utility-inl.h: ConvertBVImpl"]}
{"id": "C63", "title": "constructBox: which box it makes", "statement": "constructBox(AABB, tf) and constructBox(OBBRSS, tf) make a box with exactly the moved points of the volume. constructBox(OBB, tf) ignores tf, so its box has the points of the unmoved volume; constructBox(RSS, tf) uses the corner of the rectangle as the centre and always misses points of the volume when the first side is longer than twice the radius.", "quantifier": "all volumes, rigid transforms and points", "why_tests_cant": "continuous parameters", "anchors": ["include/fcl/geometry/shape/utility-inl.h: constructBox"]}
{"id": "C64", "title": "Distance queries of the SaP, interval-tree and spatial-hash managers", "statement": "Whenever distance (obj, self, or against another manager) returns, the callback has been called on a pair realising the minimum distance, and only on pairs of distinct registered (or registered and query) objects, for every symmetric distance not below the AABB distance. SaP: for the boxes the manager last cached. Interval tree: after setup and updates, while the search box stays above -numeric_limits::max(). Spatial hash: if the objects' boxes have extent and lie inside or outside the scene limit; a flat box in a grid plane is missed and a farther object is reported. distance(obj) returns if the query box has extent and another object is at finite distance; if the only object registered is the query object, distance(obj) and distance() never return, nor does SaP's for a query box without extent that meets no other box.", "quantifier": "all histories of registrations and updates, all boxes, callbacks and distances", "why_tests_cant": "unbounded histories; non-termination", "anchors": ["include/fcl/broadphase/broadphase_SaP-inl.h: distance_", "include/fcl/broadphase/broadphase_interval_tree-inl.h: distance_", "include/fcl/broadphase/broadphase_spatialhash-inl.h: distance_"]}
{"id": "C65", "title": "Bounding boxes of placed shapes and of collision objects", "statement": "For every pose with orthonormal rotation and non-negative sizes: computeBV<AABB> of a box, sphere, capsule, convex polytope and triangle is the least axis-parallel box containing the placed shape, and that of a cylinder, cone and ellipsoid contains it; computeBV<OBB> contains the placed shape (and equals it for a box), except that for a convex polytope this holds only if the axes fitted to the vertices are the identity: a 2x4x2 brick is not contained in its OBB. computeLocalAABB gives a box containing the geometry and a centre and radius whose ball contains it. CollisionObject::computeAABB contains the placed geometry if the identity test is exact; with Eigen's tolerance a rotation close to the identity is dropped and a far vertex is left outside.", "quantifier": "all shapes, sizes, poses and vertex lists", "why_tests_cant": "all poses and sizes; vertex lists of any length", "anchors": ["include/fcl/geometry/shape/utility-inl.h: computeBV", "include/fcl/geometry/shape/box-inl.h: computeLocalAABB", "include/fcl/narrowphase/collision_object-inl.h: computeAABB"]}
{"id": "C66", "title": "Bound vertices of shapes and the volumes fitted to them", "statement": "For non-negative sizes and every pose, the convex hull of getBoundVertices contains the placed shape: exactly the box; the icosahedra contain balls up to exactly the sphere's (capsule's) radius and the hexagonal prisms (pyramids) contain cylinders (cones) up to exactly the given radius. Hence the kDOP computed from them contains the shape, and so does the RSS whenever the eigensolver returns.", "quantifier": "all shapes, sizes, poses", "why_tests_cant": "convex hull inclusion for all sizes and poses", "anchors": ["include/fcl/geometry/shape/sphere-inl.h: getBoundVertices", "include/fcl/geometry/shape/capsule-inl.h: getBoundVertices", "include/fcl/geometry/shape/cone-inl.h: getBoundVertices", "include/fcl/geometry/shape/ellipsoid-inl.h: getBoundVertices", "include/fcl/geometry/shape/utility-inl.h: computeBV"]}
{"id": "C67", "title": "Bounding volumes of half-spaces and planes", "statement": "Normalising a non-zero normal keeps the point set, and transform() gives the image of the half-space or plane. Among the points bounded by numeric_limits::max(): the AABB is the half-space (plane) itself if the placed normal is along an axis and everything otherwise; the kDOP likewise along its recognised directions, unless the normal is along (1,0,1) (half-space: no interior point is in the kDOP), along (1,-1,-1) (24-DOP: another direction is bounded and points are lost) or along (0,1,1) (plane, 16-DOP: a wrong lower bound loses points). The OBB of a half-space contains everything, that of a plane is the plane within bounded tangents, the kIOS contains the points of the OBB within the sphere; the RSS of a half-space contains the ball about the origin, but that of a plane contains only a segment of the plane.", "quantifier": "all unit normals, offsets, poses and points", "why_tests_cant": "all normals; the failing normals are measure zero", "anchors": ["include/fcl/geometry/shape/utility-inl.h: ComputeBVImpl for Halfspace and Plane", "include/fcl/geometry/shape/halfspace-inl.h: unitNormalTest, transform", "include/fcl/geometry/shape/plane-inl.h: unitNormalTest, transform"]}
{"id": "C68", "title": "Contacts of shapes with half-spaces", "statement": "For every pose, the sphere, ellipsoid, box, capsule, cylinder, convex polytope and triangle functions report a contact exactly if the shape has a point in the half-space; the depth is then that of a deepest point of the shape, and the contact point lies half that depth above a deepest point. For capsules, cylinders and the box's point this holds whenever no cosine lies within the tolerance of the special value it is taken for; inside the tolerance a capsule's depth is short by less than tol*lz/2, and long capsules and cylinders are missed. For cones it holds only if the axis does not point against the normal: otherwise the radius is compared with the distance and cones are missed or reported wrongly. Non-parallel half-spaces (a plane and a half-space) meet and the reported line is their boundaries' intersection; for opposite normals the answers are inverted, and a plane on the boundary of a half-space is missed.", "quantifier": "all shapes, sizes, unit normals, poses, tolerances", "why_tests_cant": "exact extremal points for all poses; false answers need particular orientations", "anchors": ["include/fcl/narrowphase/detail/primitive_shape_algorithm/halfspace-inl.h: sphereHalfspaceIntersect", "include/fcl/narrowphase/detail/primitive_shape_algorithm/halfspace-inl.h: ellipsoidHalfspaceIntersect", "include/fcl/narrowphase/detail/primitive_shape_algorithm/halfspace-inl.h: boxHalfspaceIntersect", "include/fcl/narrowphase/detail/primitive_shape_algorithm/halfspace-inl.h: capsuleHalfspaceIntersect", "include/fcl/narrowphase/detail/primitive_shape_algorithm/halfspace-inl.h: cylinderHalfspaceIntersect", "include/fcl/narrowphase/detail/primitive_shape_algorithm/halfspace-inl.h: coneHalfspaceIntersect", "include/fcl/narrowphase/detail/primitive_shape_algorithm/halfspace-inl.h: convexHalfspaceIntersect", "include/fcl/narrowphase/detail/primitive_shape_algorithm/halfspace-inl.h: halfspaceTriangleIntersect", "include/fcl/narrowphase/detail/primitive_shape_algorithm/halfspace-inl.h: planeHalfspaceIntersect", "include/fcl/narrowphase/detail/primitive_shape_algorithm/halfspace-inl.h: halfspaceIntersect"]}
{"id": "C69", "title": "Contacts of shapes with planes", "statement": "For every pose, the sphere, ellipsoid, box, convex polytope and (without contacts) capsule functions report exactly the shapes with a point in the plane, and two planes are reported exactly if they meet. A reported contact point lies in the plane, the depth is how far the shape reaches to the side the normal names, and it reaches at least as far to the other. Capsules with contacts: the same unless the ends are within the tolerance on opposite sides (thin capsules are missed) or the first end is in the plane and the second below (flipped normal). Cylinders with contacts: the same away from the tolerances unless the plane touches from below (flipped normal); without contacts no cylinder is missed but those up to |cos|*lz/2 further away are reported. Cones and triangles are reported exactly if they have points strictly on both sides (cones at a right angle: exactly if they meet), so touching is missed.", "quantifier": "all shapes, sizes, unit normals, poses, tolerances", "why_tests_cant": "exact extremal points for all poses; false answers need touching or nearly parallel placements", "anchors": ["include/fcl/narrowphase/detail/primitive_shape_algorithm/plane-inl.h: spherePlaneIntersect", "include/fcl/narrowphase/detail/primitive_shape_algorithm/plane-inl.h: ellipsoidPlaneIntersect", "include/fcl/narrowphase/detail/primitive_shape_algorithm/plane-inl.h: boxPlaneIntersect", "include/fcl/narrowphase/detail/primitive_shape_algorithm/plane-inl.h: capsulePlaneIntersect", "include/fcl/narrowphase/detail/primitive_shape_algorithm/plane-inl.h: cylinderPlaneIntersect", "include/fcl/narrowphase/detail/primitive_shape_algorithm/plane-inl.h: conePlaneIntersect", "include/fcl/narrowphase/detail/primitive_shape_algorithm/plane-inl.h: convexPlaneIntersect", "include/fcl/narrowphase/detail/primitive_shape_algorithm/plane-inl.h: planeTriangleIntersect", "include/fcl/narrowphase/detail/primitive_shape_algorithm/plane-inl.h: planeIntersect"]}
{"id": "C70", "title": "Triangle meshes made from shapes", "statement": "For at least 3 vertices on a circle and 1 ring (layer), positive sizes and every proper pose, the mesh that generateBVHModel makes from a box, sphere, ellipsoid, cylinder or cone is a closed oriented surface: every directed edge is used by one triangle and its reverse by one other, the surface is connected and has Euler number 2, every vertex number is in range, every triangle faces away from the centre and lies in the shape, and every vertex is on the shape's surface. Any sequence of such calls on a fresh model, the last one finalising it, succeeds and stores all vertices and triangles renumbered. When the resolution is derived from a count N for the unit shape the mesh is good if sqrt(N/2) r^2 > 2 (sphere) or N r >= 3 (cylinder, cone); a sphere below that gets a flat mesh, a cylinder or cone with N r < 1 becomes a point cloud of two points, and a ball with s = r^2 > 1 (or the p-mean) gets at least N s^2 triangles instead of the documented N s. With 0 rings the triangles refer to vertices that do not exist, and 0 layers ask for 2^32 - 1 rows of vertices.", "quantifier": "all sizes, resolutions and proper poses", "why_tests_cant": "combinatorial closure for all resolutions; the failing resolutions are small", "anchors": ["include/fcl/geometry/geometric_shape_to_BVH_model-inl.h: generateBVHModel", "include/fcl/geometry/geometric_shape_to_BVH_model-inl.h: addTriangles", "include/fcl/geometry/geometric_shape_to_BVH_model.h: generateBVHModel"]}
{"id": "C71", "title": "Distance of two triangles", "statement": "For all triangles whose squared normal is zero or above 1e-15, with or without a transformation of the second one, the triangle distance is the smallest distance of a point of one and a point of the other, symmetric in the triangles, and zero exactly if they meet; if it is positive the two reported points realise it. For every pair of triangles, degenerate or not, the reported points belong to the triangles, the result is zero or their distance, and triangles that meet get 0. The segment routine returns a closest pair of the two segments. Triangles with a squared normal in (0, 1e-15] have their face skipped: whenever the closest pair is unique and interior to that face the distance is wrong, and separate triangles are reported at distance 0. The segment routine's third output is not, as documented, the vector between the two points.", "quantifier": "all triangles, segments and rigid transformations", "why_tests_cant": "closest features over a continuum of pairs; the wrong results need small faces and interior closest points", "anchors": ["include/fcl/narrowphase/detail/primitive_shape_algorithm/triangle_distance-inl.h: segPoints", "include/fcl/narrowphase/detail/primitive_shape_algorithm/triangle_distance-inl.h: triDistance", "include/fcl/narrowphase/detail/primitive_shape_algorithm/triangle_distance.h: TriangleDistance"]}
{"id": "C72", "title": "Support functions of shapes and of their Minkowski difference", "statement": "For every shape of positive size with a support function (triangle, box, sphere, ellipsoid, capsule, cone, cylinder, convex polytope) and every unit direction, getSupport returns a point of the shape that no other point of the shape exceeds along the direction; a sphere asked along a longer vector gives a point outside. MinkowskiDiff::support, with the two transformations as the solver sets them from the poses, returns in the first shape's frame an extreme point of the differences of points of the two placed shapes, also when the first shape is swept along a velocity, and the two points it subtracts belong to the two placed shapes. The callbacks handed to libccd return, for every nonzero direction and pose, an extreme point of the placed shape; for cylinders the point is on the shape and short of the extreme by at most eps (r + lz/2). The centre handed to libccd is a point of the placed shape.", "quantifier": "all shapes, sizes, poses and directions", "why_tests_cant": "extremality is a statement about all points of the shape for all directions and poses", "anchors": ["include/fcl/narrowphase/detail/convexity_based_algorithm/minkowski_diff-inl.h: getSupport", "include/fcl/narrowphase/detail/convexity_based_algorithm/minkowski_diff-inl.h: MinkowskiDiff::support", "include/fcl/narrowphase/detail/gjk_solver_indep-inl.h: ShapeIntersectIndepImpl", "include/fcl/narrowphase/detail/convexity_based_algorithm/gjk_libccd-inl.h: supportBox, supportCap, supportCyl, supportCone, supportSphere, supportEllipsoid, supportConvex, supportTriangle", "include/fcl/narrowphase/detail/convexity_based_algorithm/gjk_libccd-inl.h: centerShape, centerConvex, centerTriangle"]}
{"id": "C73", "title": "Adjacency, validation and extreme vertices of Convex", "statement": "For every encoded list of faces whose numbers are those of vertices the constructor is defined, and the packed array lists for each vertex exactly the vertices that follow or precede it in a face, ascending and once. It throws exactly if asked to and some edge does not have exactly two sides or some vertex is in no face; the neighbours are walked exactly if there are more than 32 vertices and the mesh is closed in this sense (which a single face with two vertices also is, so two different faces per edge are not ensured). findExtremeVertex always ends; the linear search returns an extreme vertex; the walk returns one that no neighbour exceeds, and an extreme one if at every vertex the edges span the mesh, hence the libccd support of the placed polytope. The documented guarantee fails for a mesh that meets every documented requirement: with two vertices inside the bottom face the walk returns a lowest vertex instead of a highest.", "quantifier": "all face lists, vertices, directions", "why_tests_cant": "every mesh and direction; the failing case needs vertices inside a face and a direction orthogonal to it", "anchors": ["include/fcl/geometry/shape/convex-inl.h: Convex::Convex", "include/fcl/geometry/shape/convex-inl.h: FindVertexNeighbors", "include/fcl/geometry/shape/convex-inl.h: ValidateTopology", "include/fcl/geometry/shape/convex-inl.h: findExtremeVertex", "include/fcl/geometry/shape/convex.h: Convex"]}
{"id": "C74", "title": "Volume, center of mass and inertia", "statement": "For every box, sphere, ellipsoid, capsule, cone and cylinder of nonnegative size (positive where it divides) computeVolume, computeCOM and computeMomentofInertia are the volume integrals of 1, of the coordinates and of the inertia of a point about the origin over the points of the shape. For every closed triangle mesh with nonzero volume the functions of BVHModel are those integrals over what the mesh encloses, whatever point the tetrahedra are spanned from; moving the mesh moves the center of mass along; if some point sees all triangles from behind the volume is positive and the center of mass is in the convex hull of that point and the corners. computeMomentofInertiaRelatedToCOM is the inertia about the center of mass whenever the other three are right. For every Convex whose face sides cancel volume and center of mass are the integrals, but the inertia is divided by the volume, so it is wrong unless the volume is 1, and so is the one about the center of mass.", "quantifier": "all shapes of the six kinds, all closed triangle lists with nonzero volume, all face lists whose sides cancel, all apex points and displacements", "why_tests_cant": "Tests compare numbers for a few shapes with the same closed formulas; that the formulas are the integrals, and that the mesh sums do not depend on where the origin lies, holds for all parameters and meshes only by proof.", "anchors": ["include/fcl/geometry/collision_geometry-inl.h:121-172", "include/fcl/geometry/shape/box-inl.h:99-117", "include/fcl/geometry/shape/capsule-inl.h:83-103", "include/fcl/geometry/shape/cone-inl.h:83-104", "include/fcl/geometry/shape/cylinder-inl.h:83-97", "include/fcl/geometry/shape/ellipsoid-inl.h:90-107", "include/fcl/geometry/shape/sphere-inl.h:79-91", "include/fcl/geometry/shape/convex-inl.h:111-247", "include/fcl/geometry/bvh/BVH_model-inl.h:766-829"]}
{"id": "C75", "title": "GJK iteration and distance", "statement": "For every support function GJK::evaluate ends and never takes a vertex from an empty free list; its ray is a convex combination, with the stored weights, of at most four support points of unit directions; with the status Valid of at most three, and the ray is at least the tolerance long. If the support function is that of a set, Inside means that the combination is shorter than the tolerance, and Valid means that no point of the set is nearer to the origin than (1 - tolerance) times the ray, or that the last support point repeated one of the last four within the square root of the tolerance; then the bound holds up to that root if the repeated point is not nearer than the ray. The distance query returns points of the two shapes whose distance is the one reported. Both the reported distance and the answer that the shapes are apart are wrong for a tetrahedron with a vertex at the centre of a box, for every tolerance up to 1/9 and every limit from 4 on, and for equal concentric spheres smaller than the square root of the tolerance. A larger iteration limit changes no answer but Failed. encloseOrigin returns four independent vertices that begin with the old ones, or restores the simplex; it does succeed if the set is in no plane; it does not test whether the origin is inside.", "quantifier": "all support functions, sets, tolerances, limits, guesses, shapes and placements", "why_tests_cant": "The repeat test compares with the last four support points, three of which are at first all equal to the first point; that it can fire early needs a particular geometry; soundness of the stop condition is for all convex sets.", "anchors": ["include/fcl/narrowphase/detail/convexity_based_algorithm/gjk-inl.h:82-295", "include/fcl/narrowphase/detail/gjk_solver_indep-inl.h:120-162", "include/fcl/narrowphase/detail/gjk_solver_indep-inl.h:596-646"]}
{"id": "C76", "title": "EPA and the intersection query", "statement": "From the first tetrahedron on, and whatever the support function answers, every face is in the hull or in the stock and every side of every face of the hull is bound to exactly one side of another one with the same two corners in the opposite order; the loop ends, and unless an expansion fails with such a surface and its face of least recorded distance. EPA always answers: the normal is a unit vector, the weights are those of a convex combination of support points; AccuracyReached means that the whole set is below depth + tolerance along the normal. If the origin projects into the face the depth is the distance of its plane and the contact point is midway between points of the two shapes that differ by the depth along the normal. The recorded distance of a face beside the origin's projection is that of the side, times the length of the side if the projection falls inside the side; therefore EPA gives up on a tetrahedron of 15 cm at once and reports about half of its depth. shapeIntersect says yes exactly if GJK says Inside, also after a failed expansion; the contact has minus the depth, a point half the depth before a point of the first shape, and the normal in the frame of the first shape: moving both shapes by a rigid motion moves the point and leaves the normal as it was, so for every contact there is a rotation of the scene that makes the reported normal the opposite of the right one. If the first support point is nearer than GJK's tolerance the contact has depth 0 and normal (1,0,0).", "quantifier": "all support functions, tolerances, limits, initial contents of the faces, simplices, shapes, placements and rigid motions", "why_tests_cant": "The consistency of the links is an invariant of a recursive expansion over a pointer structure of any size; the wrong distance needs an origin that projects beside a face; tests place the first shape without rotation.", "anchors": ["include/fcl/narrowphase/detail/convexity_based_algorithm/epa-inl.h:46-430", "include/fcl/narrowphase/detail/gjk_solver_indep-inl.h:111-163"]}
{"id": "C77", "title": "GJK of the libccd extension", "statement": "For every support function __ccdGJK runs at most max_iterations times, never violates the assertion of doSimplex2, never writes past the four places of the simplex, and hands on one to four support points. It answers \"intersecting\" only if the Minkowski difference has a point within machine epsilon of the origin, or within eps times the length of one of its points, or four of its points span a tetrahedron with six times the volume below CCD_EPS in absolute value and likewise with the origin in place of each of three corners, or its points include some a and r a with 0 <= r < 1/3 where r times six times the volume of a tetrahedron is below CCD_EPS. If it stopped because a support point was behind the origin, two shapes other than cylinders have no common point. The converse fails: it answers \"not intersecting\" if the first support point is the origin, and for shapes smaller than about 7e-5 that overlap deeply; and it answers \"intersecting\" for objects of size m that are up to about m eps apart. A step of doSimplex keeps the point added last, in the last place, and drops a point of a tetrahedron only if the origin is not on its side of the plane of the other three.", "quantifier": "for all support functions, tolerances, iteration limits, first directions, point-triangle distances that return a point of the triangle", "why_tests_cant": "a test sees single pairs of shapes; the wrong answers need shapes near a threshold", "anchors": ["include/fcl/narrowphase/detail/convexity_based_algorithm/gjk_libccd-inl.h:354-616", "include/fcl/narrowphase/detail/convexity_based_algorithm/gjk_libccd-inl.h:1626-1680"]}
{"id": "C78", "title": "Distance of the libccd extension", "statement": "ccdGJKDist2 always answers. A distance it returns is the length of a difference of points of the two objects, so it is never below the true distance; the points returned with it are points of the two shapes (any shape, cylinders included) and differ by that vector, up to 2 eps if it is on a segment of support points that agree within eps in each coordinate, and unless it is in a triangle of support points without area by the test of the code; that test means that two corners coincide with the first up to eps or that the sine of the angle at the first is below eps, and if the triangle has no area at all the points are right as well. It returns -1 only if GJK said \"intersecting\" or (max_iterations - 1) dist_tolerance is at most the length of the longest difference. If the new support point is on the current simplex the distance is exact; if it is in the current triangle, the query ends with the nearest point not written and the points on the objects undefined, as a full run on a triangle shows. The distance is not accurate: for every q > 0 there is a triangle with a point nearer than q times the distance reported, since the search stops as soon as a new support point is as far away as the nearest point found.", "quantifier": "for all shapes, placements, tolerances, iteration limits, point-triangle and point-segment distances that return a point of the triangle or segment", "why_tests_cant": "a test sees single pairs; the early stop needs a support point of the same length, the unset points need the value left in memory", "anchors": ["include/fcl/narrowphase/detail/convexity_based_algorithm/gjk_libccd-inl.h:231-261", "include/fcl/narrowphase/detail/convexity_based_algorithm/gjk_libccd-inl.h:1837-2150", "include/fcl/narrowphase/detail/convexity_based_algorithm/gjk_libccd-inl.h:2280-2290"]}
{"id": "C79", "title": "Polytope expansion of the libccd extension", "statement": "On a closed triangular polytope, and whatever the visibility test says about each face, ComputeVisiblePatch ends without meeting a missing face or classifying an edge twice; the faces it finds are the start face and the faces reached from it over edges it classified as internal, the border edges are the edges with one face inside and one outside, the internal edges those with both inside, and the sanity check succeeds. expandPolytope then gives a closed polytope (every edge has two distinct faces, every face is a triangle of three edges, one new vertex) if and only if no vertex is an end of more than two border edges; otherwise some edge has more or fewer than two faces (an octahedron with such a test exists). The initial polytopes with four and with six vertices are closed.", "quantifier": "for all closed polytopes, start faces, visibility tests and orders of the border edges", "why_tests_cant": "a test needs a visibility test that is wrong by rounding in a particular pattern of faces", "anchors": ["include/fcl/narrowphase/detail/convexity_based_algorithm/gjk_libccd-inl.h:620-722", "include/fcl/narrowphase/detail/convexity_based_algorithm/gjk_libccd-inl.h:1146-1373", "include/fcl/narrowphase/detail/convexity_based_algorithm/gjk_libccd-inl.h:1402-1510"]}
{"id": "C80", "title": "Convexity of the polytope of the libccd extension", "statement": "If a closed polytope contains the origin and all its vertices are on one side of the plane of a face, faceNormalPointingOutward returns a normal of that face with no vertex above it, whatever the tolerance. If all faces of such a polytope are of this kind and none is degenerate, and the patch that expandPolytope removes consists of exactly the faces that the new point is outside of, the new polytope is convex around the origin in the same sense. In such a polytope validateNearestFeatureOfPolytopeBeingEdge does not throw: it keeps the edge if its squared distance is below 4 eps^2, and otherwise returns the one of its two faces whose plane is nearer to the origin. A support point that nextSupport adds for a face is outside of that face, if the point of the face nearest to the origin is the foot of the perpendicular. The tetrahedra of the initial polytopes, if not flat and around the origin, are convex in this sense.", "quantifier": "for all closed polytopes, faces, edges, new points and orders of the border edges", "why_tests_cant": "a test sees single expansions; a wrong normal shows only after later expansions", "anchors": ["include/fcl/narrowphase/detail/convexity_based_algorithm/gjk_libccd-inl.h:820-935", "include/fcl/narrowphase/detail/convexity_based_algorithm/gjk_libccd-inl.h:1013-1130", "include/fcl/narrowphase/detail/convexity_based_algorithm/gjk_libccd-inl.h:1402-1510", "include/fcl/narrowphase/detail/convexity_based_algorithm/gjk_libccd-inl.h:1520-1623", "include/fcl/narrowphase/detail/convexity_based_algorithm/gjk_libccd-inl.h:1699-1777"]}
{"id": "C81", "title": "EPA and signed distance of the libccd extension", "statement": "On a closed polytope expandPolytope gives a new polytope, except that it throws if the nearest element is a vertex or an edge with the new point outside of neither of its faces; it takes away the face it starts from and otherwise only faces that the new point is above of or over whose edge it spans no area, and keeps no face next to a removed one that the point is above of. The first polytope is the tetrahedron of the simplex if the origin is away from its faces, else it is made from a face within eps of the origin and the farther one of the two support points perpendicular to it; for a segment it is an octahedron with the ends of the segment as opposite corners. Where the distance query returns a distance, ccdGJKSignedDist returns the same. If ccdGJKSignedDist returns a penetration, GJK said \"intersecting\", and unless the support function was asked in the direction zero or a patch was pinched on the way (C79): the depth is the length of a difference of points of the two shapes, the points returned are points of the shapes at that distance up to 2 eps (unless the triangle they are taken from is without area by the test of the code), and either translating the second shape by more than the depth plus the larger of the EPA tolerance and sqrt(CCD_EPS) in some direction separates the shapes, or the search ended on a support point within the tolerance of the nearest element, on a vertex, or on a segment that is not expanded. A penetration does not mean that the shapes overlap: a segment that passes at a distance of at least g/3, g < 2 eps, gets a signed distance of at most -g/3.", "quantifier": "for all shapes of the library, placements, tolerances, iteration limits, orders of hash sets, choices of the nearest element, point-triangle and point-segment distances that return a point of the triangle or segment", "why_tests_cant": "a test sees single pairs of shapes; the wrong sign needs a gap near the tolerance", "anchors": ["include/fcl/narrowphase/detail/convexity_based_algorithm/gjk_libccd-inl.h:620-935", "include/fcl/narrowphase/detail/convexity_based_algorithm/gjk_libccd-inl.h:1402-1623", "include/fcl/narrowphase/detail/convexity_based_algorithm/gjk_libccd-inl.h:1699-1832", "include/fcl/narrowphase/detail/convexity_based_algorithm/gjk_libccd-inl.h:2162-2261"]}
{"id": "C82", "title": "Intersection test and depth of two boxes", "statement": "boxBox2 returns the code 0 only for boxes without a common point. With any other code the boxes have a common point, or the cross product of an edge of one and an edge of the other separates them by not more than the padding of the code (10 epsilon times the larger of 1 and the half sides, times the four half sides involved). Moving the second box along the returned unit normal by more than the depth separates the boxes, and any translation w that separates them is longer than the depth, or longer than depth/1.05 minus the padding over the length of the cross product, or some cross product has a length in (0, epsilon]. The answer is not exact: two boxes of side 2 a gap of up to 40 epsilon apart get a code other than 0. Boxes that touch along an edge get the code 1 and no contact, so that a query with contacts enabled stores nothing for them.", "quantifier": "for all boxes with positive sides, rotations, translations, epsilon >= 0 and limits on the number of contacts", "why_tests_cant": "a test needs poses for which the right one of fifteen axes decides; completeness of the fifteen axes is a statement about all pairs of boxes", "anchors": ["include/fcl/narrowphase/detail/primitive_shape_algorithm/box_box-inl.h:248-569", "include/fcl/narrowphase/detail/primitive_shape_algorithm/box_box-inl.h:857-881"]}
{"id": "C83", "title": "Contacts of two boxes", "statement": "If the axis chosen by boxBox2 is a face normal, every contact has this normal, a depth between 0 and the depth of C82, and is the midpoint of a point of the first and a point of the second box that differ by the depth times the normal. The clipped incident face consists of at most eight points, which are in the quadrangle and in the rectangle, and every half-plane that contains them contains the part of the quadrangle inside of the rectangle. The selection gives distinct points, as many as asked for (at least one) or as there are, among them a deepest; so for every point of the incident face over the inside of the reference face and not above it there is a contact at least as deep. If the axis is the cross product of two edges, there is one contact, with the depth of C82; it is the midpoint of a point on the line of an edge of the first box and one on the line of an edge of the second, both in the supporting planes of their box along the normal, and if the lines are not parallel (within 1e-4) these points differ by the depth without its padding times the normal.", "quantifier": "for all boxes with positive sides, rotations, translations, epsilon >= 0, limits on the number of contacts and functions atan2", "why_tests_cant": "a test sees single poses; the number of points and the order of the four cuts depend on the pose", "anchors": ["include/fcl/narrowphase/detail/primitive_shape_algorithm/box_box-inl.h:85-246", "include/fcl/narrowphase/detail/primitive_shape_algorithm/box_box-inl.h:569-836"]}
{"id": "C84", "title": "Sphere against triangle", "statement": "For a triangle whose corners are not collinear: sphereTriangleDistance returns false exactly if the ball and the triangle have a common point, and otherwise their distance, in all three overloads; the points returned are a point of the sphere (in the frame of the sphere) and the nearest point of the triangle (in its frame) at this distance. sphereTriangleIntersect returns true exactly if a point of the triangle is nearer to the center than radius plus epsilon; the contact is a point of the triangle that near, the normal is the unit vector from the center to it (perpendicular to the triangle if the center is the contact), and the depth is the distance minus the radius, so negative for an overlap, unlike every other primitive test. The contact is the nearest point of the triangle if the center is over the inside of the triangle or not more than one edge is within reach; with two edges within reach the last one tested wins, and the contact can be five times as far away as the nearest point. A triangle with collinear corners is reported to be in contact with every sphere, wherever it is, by all of these functions (by sphereTriangleIntersect with the center as contact and a zero normal).", "quantifier": "for all spheres, triangles, rotations, translations and epsilon with radius + epsilon > 0", "why_tests_cant": "a test would have to meet flat triangles and spheres near two edges; the seven regions of the closest point computation depend on the triangle", "anchors": ["include/fcl/narrowphase/detail/primitive_shape_algorithm/sphere_triangle-inl.h:79-482", "include/fcl/narrowphase/detail/traversal/collision/mesh_shape_collision_traversal_node-inl.h:92-104"]}
{"id": "C85", "title": "Intersection test of two triangles", "statement": "For two triangles whose corners are not collinear, Intersect::intersect_Triangle returns true exactly if they have a common point, coplanar triangles included, and so do the overloads that place the second triangle by a rotation and a translation; triangles with a common point are never missed, even if they are flat. If contacts are asked for, the normal is a unit vector and perpendicular to one of the triangles, the contact points are one or two corners of the other triangle, the first at exactly the reported depth behind the plane and the second within 1e-6 of it, and translating the second triangle along the normal by more than the depth separates the triangles. Triangles with collinear corners that lie in one plane are reported to intersect however far apart they are, and one collinear triangle next to a proper one can be enough; with a collinear triangle the contacts are computed from a plane that was never set. The depth is not the least translation that separates the triangles: it can be ten times as large.", "quantifier": "for all six corners, rotations and translations", "why_tests_cant": "seventeen axes have to suffice for every position; a test suite does not contain degenerate triangles of scanned meshes", "anchors": ["include/fcl/narrowphase/detail/traversal/collision/intersect-inl.h:596-641", "include/fcl/narrowphase/detail/traversal/collision/intersect-inl.h:726-884", "include/fcl/narrowphase/detail/traversal/collision/intersect-inl.h:1031-1106"]}
{"id": "C86", "title": "Collision of two triangle meshes", "statement": "Two models are built by any proper sequences of calls (beginModel, addVertex, addTriangle, addSubModel, endModel, replacements and, for AABB, refitting) with OBB or AABB as volumes and any split rule, and have no triangle with collinear corners. Then collide() of the two models under rigid placements terminates with at most as many contacts as asked for, and with at least one exactly if some point of the first placed surface is a point of the second. Every contact names a pair of triangles of the input that intersect, with a unit normal and a depth such that moving the second triangle by more than the depth along the normal separates them (C85). If there are fewer contacts than asked for, every intersecting pair of triangles has a contact. For AABB this includes that the vertices are first moved to the world frame by a replacement, and for OBB that the hierarchy is traversed with the relative transform.", "quantifier": "for all sequences of calls, numbers of triangles, split rules, traversal choices, enclosing OBB fits and rigid placements", "why_tests_cant": "a wrong skip in the traversal, a stale volume after the replacement or a frame mixed up on the way shows only for some pairs deep in a hierarchy", "anchors": ["include/fcl/narrowphase/detail/traversal/collision/mesh_collision_traversal_node-inl.h:61-262", "include/fcl/narrowphase/detail/traversal/collision/mesh_collision_traversal_node-inl.h:526-613", "include/fcl/narrowphase/detail/collision_func_matrix-inl.h:526-650"]}
{"id": "C87", "title": "Collision of a triangle mesh with a sphere", "statement": "A model is built by any proper sequence of calls with OBB or AABB as volumes and any split rule, and has no triangle with collinear corners. Then collide() of the model and a sphere of radius r under rigid placements terminates with at most as many contacts as asked for. If the closed ball meets the placed surface there is a contact. Every contact names a triangle of the input, no triangle twice; its position is a point of this placed triangle nearer to the center of the sphere than r + epsilon, its normal is the unit vector from the position to the center, and its depth is the distance minus r. If there are fewer contacts than asked for, every triangle the ball meets has a contact. Between r and r + epsilon the answer depends on the hierarchy: the triangle test accepts such a triangle, but the volume of the sphere is computed without the margin, and a mesh of one such triangle is reported to be free.", "quantifier": "for all sequences of calls, numbers of triangles, split rules, enclosing OBB fits, spheres and rigid placements", "why_tests_cant": "a skipped subtree or a mixed up frame shows only for some triangles deep in a hierarchy; the margin is of the order of the rounding unit", "anchors": ["include/fcl/narrowphase/detail/traversal/collision/mesh_shape_collision_traversal_node-inl.h:61-295", "include/fcl/narrowphase/detail/traversal/collision/bvh_shape_collision_traversal_node-inl.h:64-92", "include/fcl/narrowphase/detail/gjk_solver_libccd-inl.h:402-500", "include/fcl/narrowphase/detail/traversal/traversal_node_base-inl.h:78-140"]}
{"id": "C88", "title": "The function called for a pair of geometries", "statement": "collide(), distance() and continuous collision by conservative advancement look up a function in a table indexed by the node types of the two geometries, and the function casts its arguments without a check. For every pair of geometries: whenever a function is called, both arguments have exactly the class they are cast to, each with its own placement; collide() and distance() pass a mesh before a shape and otherwise keep the order, so the contacts of a shape and a mesh name the mesh first whichever way they are given. collide() is supported exactly for the nine shapes other than the triangle, meshes and (with octomap) octrees, where two meshes must have the same kind of volume; distance() needs for two meshes also AABB, RSS, kIOS or OBBRSS as this volume; conservative advancement does not support ellipsoids and octrees. All other pairs get no call and the answer \"no contact\". collide() and conservative advancement support a pair in both orders or in none; distance() does not: an ellipsoid and a half-space are supported, a half-space and an ellipsoid are not, and this is the only such pair.", "quantifier": "for all pairs of geometries, placements and contact limits, with and without octomap", "why_tests_cant": "there are 587 table entries, and a wrong one is undefined behaviour for one pair only; a missing one silently means no contact", "anchors": ["include/fcl/narrowphase/detail/collision_func_matrix-inl.h:663-904", "include/fcl/narrowphase/detail/distance_func_matrix-inl.h:474-707", "include/fcl/narrowphase/detail/conservative_advancement_func_matrix-inl.h:778-1017", "include/fcl/narrowphase/collision-inl.h:92-150", "include/fcl/narrowphase/distance-inl.h:91-140", "include/fcl/narrowphase/continuous_collision-inl.h:305-334"]}
{"id": "C89", "title": "Collision of a triangle mesh with a half-space or plane", "statement": "A model is built by any proper sequence of calls without refitting, with OBB as volume and any split rule; its triangles may be flat. Then collide() of the model and a half-space or plane with unit normal under rigid placements terminates with at most as many contacts as asked for, each with a triangle of the input, no triangle twice. For a half-space, a triangle is only reported if it meets the half-space, and with room left every triangle that meets it within the range of the numbers is reported; the normal is the reversed outer normal, the depth that of a deepest point of the triangle, the position half way from this point to the boundary. For a plane the same holds for the triangles with points strictly on both sides; the position is in the plane, and the depth is the reach on the side where the triangle reaches less far, towards which the normal points. For meshes whose node type moves the model into the world frame (AABB, KDOP) collide() accepts half-spaces and planes too, but the leaf test has no routine for them: libccd is called with null function pointers, the other solver tests the origin.", "quantifier": "all sequences of calls, split rules, meshes, unit normals, offsets, rigid placements, contact limits; all volumes, shapes and both solvers for the choice of the leaf test", "why_tests_cant": "tests use a few meshes with one kind of volume; a mesh with another volume compiles and is accepted by the table", "anchors": ["include/fcl/narrowphase/detail/traversal/collision/mesh_shape_collision_traversal_node-inl.h:187-300", "include/fcl/narrowphase/detail/gjk_solver_libccd-inl.h:345-543", "include/fcl/narrowphase/detail/gjk_solver_indep-inl.h:352-590", "include/fcl/narrowphase/detail/collision_func_matrix-inl.h:313-524", "include/fcl/narrowphase/detail/convexity_based_algorithm/gjk_libccd.h:74-170"]}
{"id": "C90", "title": "Collision of two shapes", "statement": "collide() of two shapes appends to the result as many contacts of the pair algorithm as there is room for, and never omits a contact that is deeper than an appended one; without enable_contact it appends one contact if the algorithm says yes and there is room. For a sphere with a sphere, capsule, box or cylinder, for a sphere, ellipsoid, box, capsule, cylinder, cone or convex with a half-space, and for a sphere, ellipsoid, box or capsule with a plane, in either order, with or without enable_contact and outside of the tolerances of the algorithms, the empty result stays empty exactly if the placed shapes have no common point. For all pairs with an algorithm of their own, except box-box, exchanging the two shapes gives the same contacts with reversed normals (two spheres of radius zero excepted). Two half-spaces, two planes, or a plane and a half-space never get a contact with enable_contact, although they get one without it and meet, whenever the normals are not parallel. Of all accepted pairs of shapes only a convex with a plane has neither an algorithm of its own nor support functions: libccd is called with null function pointers, and the other solver uses the origin for the plane.", "quantifier": "all pairs of shapes, sizes, rigid placements, contact limits, previous results, both values of enable_contact, both solvers for the choice of the algorithm, every implementation of partial_sort", "why_tests_cant": "tests compare a few placements; whether an algorithm is registered for a pair, and whether it fills in contacts, is decided by template specialization and nothing fails to compile if one is missing", "anchors": ["include/fcl/narrowphase/detail/traversal/collision/shape_collision_traversal_node-inl.h:50-150", "include/fcl/narrowphase/detail/collision_func_matrix-inl.h:278-311", "include/fcl/narrowphase/detail/gjk_solver_libccd-inl.h:110-345", "include/fcl/narrowphase/detail/gjk_solver_indep-inl.h:110-350", "include/fcl/narrowphase/contact_point-inl.h:87-91"]}
{"id": "C91", "title": "Split rules and depth of the mesh hierarchy", "statement": "The split direction is a coordinate axis along a longest side of the volume, or the first axis of an oriented volume. By the mean rule the left side is never empty, and the right side is empty only if the middles of all primitives are on the same level along the split direction. By the median rule at most half of the primitives are on the right side, and exactly half (rounded down) if no two middles are on the same level. By the centre rule the exact box of a point cloud is split into two non-empty sides unless all points are equal. For oriented volumes the centre rule compares the level with the first world coordinate of the centre: the sides are those of the plane through the centre if this coordinate is the level of the centre, but if they differ by at least the half-length of the box, all of its points are on the same side. With the median rule and no two middles on the same level the construction for n primitives never nests more than 1 + log2 n (rounded up) calls; with the mean rule, the default, there are for every n points, no two on the same level, for which n calls are nested.", "quantifier": "all lists of triangles or points, volumes, numbers of primitives, every implementation of sort", "why_tests_cant": "tests build meshes of some hundred triangles with the default rule; the sides of a split only affect the speed and the stack, not the result", "anchors": ["include/fcl/geometry/bvh/detail/BV_splitter-inl.h:77-657", "include/fcl/geometry/bvh/BVH_model-inl.h:867-937"]}
{"id": "C92", "title": "Distance between two shapes", "statement": "ShapeShapeDistance for a sphere with a sphere, box, capsule or cylinder, in either order, and for two capsules: a result whose min_distance is not positive is left as it is; otherwise min_distance ends not positive exactly if the two sets have a point in common, and if they have none it ends as the smaller one of what it was and the least distance of the two sets, with the two objects and a point of each set at that distance if that is smaller.  For shapes apart the distance does not depend on the order, and unless the shapes are of the same kind the points are exchanged with them.  Shapes in contact, one of them a sphere, give -1 with the origin as both nearest points, so the nearest points are right only for shapes apart.  Each pair the distance table accepts has an algorithm (special, or with support functions of both shapes) exactly if none of the two is a plane or half-space; the table accepts those too.", "quantifier": "all placements, sizes that are not negative, previous results; all pairs of shapes for the choice of the algorithm", "why_tests_cant": "the special cases cover eight of eighty-one pairs; the tests of planes and half-spaces only collide them, and the tests of touching shapes look at the sign of the distance", "anchors": ["include/fcl/narrowphase/detail/distance_func_matrix-inl.h:207-226", "include/fcl/narrowphase/detail/traversal/distance/shape_distance_traversal_node-inl.h:70-103", "include/fcl/narrowphase/distance_result-inl.h:84-105", "include/fcl/narrowphase/detail/gjk_solver_libccd-inl.h:546-819", "include/fcl/narrowphase/detail/gjk_solver_indep-inl.h:590-853"]}
{"id": "C93", "title": "kIOS bounding volume", "statement": "A kIOS is the set of points that are in all of its balls and in its box. Volumes with a common point overlap, also with the second one moved rigidly, and overlap is true exactly if each ball of one meets each ball of the other and the boxes overlap. contain is true exactly for the points that are in all balls; it does not look at the box, so points outside of the volume can be contained. The ball encloseSphere makes of two balls encloses both, but if none of the two encloses the other, a ball of half its radius does so too. The sum of two volumes, and of a volume and a point, encloses the balls of both, with as many balls as the smaller number; it encloses both if the sum of the boxes does. The distance of two volumes, also with the second one moved, is at most the distance of any two of their points, and is the largest distance of two balls. The nearest points are not those of the two volumes: both are made of balls of the first one, and for volumes with one ball each that are apart a division by zero makes them undefined. translate moves the balls but not the box: a point is lost if the displacement along an axis of the box is more than the size of the box. A volume fitted to one point is that point; one fitted to two different points, to three points that are not on a line, or to any number of points if the eigensolver returns, encloses them, has one, three or five balls, and orthonormal axes.", "quantifier": "all volumes with non-negative radii, points, rigid motions, finite lists of points below the largest number, every unitOrthogonal and every choice of the shortcuts of the eigensolver", "why_tests_cant": "tests build kIOS trees of one mesh and only check the final collision result, where a volume that misses a corner, or is twice as large as needed, seldom shows; the nearest points and translate are never called by a test", "anchors": ["include/fcl/math/bv/kIOS-inl.h:51-318", "include/fcl/math/bv/kIOS.h:51-121", "include/fcl/math/bv/utility-inl.h:291-457", "include/fcl/geometry/bvh/detail/BV_fitter-inl.h:358-445", "include/fcl/math/geometry-inl.h:148-228", "include/fcl/math/geometry-inl.h:1277-1299"]}
{"id": "C94", "title": "Distance of two rectangles and of two RSS", "statement": "segCoords returns a nearest pair of points of two segments with unit directions, parallel ones included. If inVoronoi is true and the second segment has an end outside of (or on) the plane through the first one with the given outer normal, then in each nearest pair the point of the second segment is outside of or on the plane. If it is false, the second segment is not nearly parallel to the plane, and has an end inside or on it, then some pair with the second point not outside has a squared distance that is larger than that of any pair with the second point not inside by at most 2e-7 times the length of the second segment. If rectDistance returns in one of its sixteen cases (pairs of sides), the points are points of the two rectangles, the number returned is their distance, and no two points of the rectangles are nearer. In all cases the number returned is not negative and not larger than the distance of any two points of the rectangles. RSS::distance is not negative and not larger than the distance of any two points of the volumes, and RSS::overlap is true if they have a common point; if a pair of sides is chosen, two points of the volumes have exactly the distance returned, and overlap is true only if there is a common point; the same holds for the functions overlap and distance that move the second volume by a rotation and translation. If no pair of sides is chosen, the points P and Q written by rectDistance need not be points of the rectangles.", "quantifier": "all lengths and radii that are not negative, all unit directions, normals and positions; all orthogonal orientations and side lengths", "why_tests_cant": "tests of RSS only compare collision and distance of whole meshes, where a wrong pair of sides in one of the sixteen cases changes the pruning of a traversal, and rarely its result", "anchors": ["include/fcl/math/bv/RSS-inl.h:108-118", "include/fcl/math/bv/RSS-inl.h:432-509", "include/fcl/math/bv/RSS-inl.h:512-1222", "include/fcl/math/bv/RSS-inl.h:1937-1974"]}
{"id": "C95", "title": "OBBRSS volumes, and size, extents and volume of RSS", "statement": "RSS::size is the largest distance of two points of the volume; width, height and depth are its exact lengths along its axes, and it is symmetric about center(). RSS::volume is not the volume: for a ball it is three times the volume, and for a capsule it does not depend on the length. OBBRSS: overlap is true if there is a common point of both volumes, and false if the boxes are apart along an axis of the first one by more than its half length and 1 + 1e-6 times the sum of the half lengths of the second one; contain is true exactly for the points of the box; distance is not negative and not larger than the distance of any two points, also when the second volume is moved by a rotation and translation, and is attained by the swept rectangles if a pair of sides is chosen; translate moves exactly the points of the volume.", "quantifier": "all volumes with orthonormal axes and lengths and radii that are not negative, all points and all orthogonal motions", "why_tests_cant": "no test compares volume() or size() of RSS with the set of points, and OBBRSS is only tested inside of whole mesh queries", "anchors": ["include/fcl/math/bv/OBBRSS-inl.h:55-74", "include/fcl/math/bv/OBBRSS-inl.h:146-181", "include/fcl/math/bv/RSS-inl.h:379-420", "include/fcl/math/bv/RSS-inl.h:1977-1983"]}
