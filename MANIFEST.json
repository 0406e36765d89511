{
 "claims": [
  {
   "property": "C01",
   "status": "proved",
   "theorems": [
    "aabb_overlap_exact",
    "aabb_overlap_sym",
    "aabb_overlap_part_exact",
    "aabb_axis_overlap"
   ],
   "note": ""
  },
  {
   "property": "C02",
   "status": "proved",
   "theorems": [
    "aabb_contain_exact",
    "aabb_merge_least",
    "aabb_merge_order",
    "aabb_points_least",
    "aabb_expand_enlarges",
    "aabb_expand_ratio_refuted"
   ],
   "note": "expand(core, ratio) is not part of the statement; aabb_expand_ratio_refuted records that it can shrink the box"
  },
  {
   "property": "C03",
   "status": "proved",
   "theorems": [
    "aabb_distance_is_min",
    "aabb_distance_zero",
    "aabb_nearest_points_distance",
    "aabb_nearest_points_inside",
    "aabb_nearest_points_refuted"
   ],
   "note": "exact real arithmetic; that the reported points always belong to the boxes is false (aabb_nearest_points_refuted)"
  },
  {
   "property": "C04",
   "status": "proved",
   "theorems": [
    "naive_self_exact",
    "naive_obj_exact",
    "naive_other_exact",
    "naive_distance_obj_min",
    "naive_distance_self_min",
    "naive_distance_other_min"
   ],
   "note": "registered objects assumed distinct for the self query"
  },
  {
   "property": "C05",
   "status": "proved",
   "theorems": [
    "sap_distance_stop_is_final",
    "im_distance_stop_is_final",
    "h_distance_stop_is_final",
    "sap_obj_exact",
    "sap_self_sound",
    "sap_other_exact",
    "h_obj_complete",
    "h_self_complete",
    "h_other_complete",
    "im_obj_exact",
    "im_self_exact",
    "im_other_twice",
    "ssap_obj_exact",
    "ssap_self_exact",
    "ssap_other_exact",
    "ssap_distance_stop_is_final",
    "stop_is_final",
    "naive_distance_stop_is_final",
    "dyn_distance_stop_is_final",
    "dyn_obj_exact",
    "dyn_self_exact",
    "dyn_other_exact"
   ],
   "note": "the collision theorems give it through [replays]: the callback sees a prefix of a fixed list of pairs, cut after the first true; the array-based dynamic tree manager through C17"
  },
  {
   "property": "C06",
   "status": "proved",
   "theorems": [
    "sap_faithful_container",
    "sap_empty_refuted",
    "h_faithful_container",
    "im_faithful_container",
    "im_unregister_refuted",
    "ssap_faithful_container",
    "naive_faithful_container",
    "dyn_faithful_container",
    "dyn_double_register_refuted"
   ],
   "note": "the unconditional claim is false: SaP empty() is inverted in every state (sap_empty_refuted), SaP unregisterObject is undefined behaviour on every call (modelled as None), interval tree unregisterObject corrupts the tree (im_unregister_refuted), double registration in the dynamic tree manager (dyn_double_register_refuted)"
  },
  {
   "property": "C07",
   "status": "proved",
   "theorems": [
    "ssap_obj_exact",
    "ssap_other_exact"
   ],
   "note": ""
  },
  {
   "property": "C08",
   "status": "proved",
   "theorems": [
    "ssap_self_exact"
   ],
   "note": ""
  },
  {
   "property": "C09",
   "status": "proved",
   "theorems": [
    "ssap_unregister_exact",
    "ssap_unregister_stale_refuted"
   ],
   "note": "the unconditional claim is false: after objects moved without update() the binary search may miss the object (ssap_unregister_stale_refuted)"
  },
  {
   "property": "C10",
   "status": "proved",
   "theorems": [
    "ssap_distance_obj_min",
    "ssap_distance_obj_terminates",
    "ssap_distance_self_min",
    "ssap_distance_self_terminates",
    "ssap_distance_other_min",
    "ssap_distance_alone_refuted",
    "ssap_distance_flat_refuted"
   ],
   "note": "exact arithmetic; the unconditional termination claim is false (ssap_distance_alone_refuted, ssap_distance_flat_refuted)"
  },
  {
   "property": "C11",
   "status": "proved",
   "theorems": [
    "hierarchy_invariant",
    "hierarchy_progress",
    "topdown1_same_centre_refuted"
   ],
   "note": "progress assumes boxes of finite size, and distinct centres when topdown level 1 is chosen (topdown1_same_centre_refuted shows the loop otherwise)"
  },
  {
   "property": "C12",
   "status": "proved",
   "theorems": [
    "dyn_obj_exact",
    "dyn_obj_complete",
    "dyn_runs"
   ],
   "note": "octree geometries with octree_as_geometry_collide=false are outside"
  },
  {
   "property": "C13",
   "status": "proved",
   "theorems": [
    "dyn_self_exact",
    "dyn_self_complete",
    "dyn_runs"
   ],
   "note": ""
  },
  {
   "property": "C14",
   "status": "proved",
   "theorems": [
    "dyn_other_exact",
    "dyn_other_itself_refuted"
   ],
   "note": "the statement is for two distinct managers; collide(this) is not special-cased (dyn_other_itself_refuted)"
  },
  {
   "property": "C15",
   "status": "proved",
   "theorems": [
    "dyn_distance_obj_min",
    "dyn_distance_self_min",
    "dyn_distance_other_min",
    "dyn_distance_current"
   ],
   "note": "AABB::distance enters only through its order: any symmetric monotone function"
  },
  {
   "property": "C16",
   "status": "proved",
   "theorems": [
    "dyn_update_tracks",
    "dyn_obj_complete",
    "dyn_self_complete"
   ],
   "note": ""
  },
  {
   "property": "C17",
   "status": "proved",
   "theorems": [
    "array_store",
    "array_agrees",
    "array_lone_update_refuted",
    "array_growth_refuted",
    "array_bulk_growth_refuted",
    "array_stale_table_refuted"
   ],
   "note": "The unconditional claim is false of the code; the refuted theorems give the failing histories (growth: any nine registrations, or any registration after a bulk one; update of a lone object; rebuild in setup). Memory reuse is modelled as undefined ([None])."
  },
  {
   "property": "C18",
   "status": "proved",
   "theorems": [
    "interval_query_exact",
    "interval_tree_content",
    "interval_insert_total",
    "interval_delete_absent_refuted",
    "interval_delete_refuted",
    "interval_query_lowest_refuted"
   ],
   "note": "the unconditional claim is false: interval_delete_refuted (repainting bug in insert, then a rotation around the sentinel), interval_delete_absent_refuted, interval_query_lowest_refuted"
  },
  {
   "property": "C19",
   "status": "proved",
   "theorems": [
    "im_faithful_container",
    "im_obj_exact",
    "im_no_removal_total",
    "im_unregister_refuted",
    "im_update_obj_misses_refuted",
    "im_update_obj_extra_refuted",
    "im_before_setup_refuted"
   ],
   "note": "the unconditional claims are false: see the refuted theorems"
  },
  {
   "property": "C20",
   "status": "proved",
   "theorems": [
    "im_obj_exact",
    "im_self_exact",
    "im_other_twice",
    "im_self_touching_refuted",
    "im_self_flat_refuted"
   ],
   "note": "coordinates above -numeric_limits::max(); the unconditional claim for collide() is false (im_self_touching_refuted, im_self_flat_refuted)"
  },
  {
   "property": "C21",
   "status": "proved",
   "theorems": [
    "hash_cells_cover",
    "hash_overlap_share_key",
    "hash_interiors_share_key",
    "hash_cells_in_scene",
    "hash_key_injective",
    "hash_flat_refuted",
    "hash_touching_refuted"
   ],
   "note": "exact arithmetic"
  },
  {
   "property": "C22",
   "status": "proved",
   "theorems": [
    "h_obj_complete",
    "h_self_complete",
    "h_other_complete",
    "h_legal_total",
    "h_flat_refuted",
    "h_touching_refuted",
    "h_clear_refuted",
    "h_unregister_moved_refuted",
    "h_update_unregistered_refuted"
   ],
   "note": "the unconditional claim is false: see the refuted theorems"
  },
  {
   "property": "C23",
   "status": "proved",
   "theorems": [
    "sap_obj_exact",
    "sap_other_exact",
    "sap_self_sound",
    "sap_self_bulk_exact",
    "sap_self_tame",
    "sap_lists_sorted",
    "sap_legal_total",
    "sap_one_by_one_refuted",
    "sap_inside_refuted",
    "sap_twice_refuted",
    "sap_bulk_touching_refuted",
    "sap_update_grow_refuted",
    "sap_update_fixed_low_refuted",
    "sap_update_shrink_refuted"
   ],
   "note": "the unconditional claim is false: see the refuted theorems"
  },
  {
   "property": "C24",
   "status": "proved",
   "theorems": [
    "morton_code_bits",
    "morton_code60_bits",
    "morton_code_injective",
    "morton_code60_injective",
    "morton_code_monotone",
    "morton_code60_monotone",
    "quantize_cells",
    "quantize_monotone",
    "functor32_total",
    "functor32_monotone",
    "functor64_total",
    "functor64_monotone",
    "functor_bitset_agrees",
    "quantize_negative_refuted",
    "functor_flat_refuted"
   ],
   "note": "exact real arithmetic for quantize; a box without extent on an axis makes the functors convert NaN to uint32"
  },
  {
   "property": "C25",
   "status": "proved",
   "theorems": [
    "bvh_protocol",
    "bvh_soup",
    "bvh_rejects",
    "bvh_begin_clears",
    "bvh_add_fresh_refuted",
    "bvh_add_accepted_refuted",
    "bvh_overrun_refuted",
    "bvh_bad_index_refuted",
    "bvh_add_replacing_refuted",
    "bvh_unknown_type_refuted"
   ],
   "note": "allocation never fails; copy constructor not modelled; the unconditional claim is false: see the refuted theorems"
  },
  {
   "property": "C26",
   "status": "proved",
   "theorems": [
    "bvh_processed",
    "bvh_partition",
    "bvh_aabb"
   ],
   "note": "for every split rule and every fit that encloses the points it is given"
  },
  {
   "property": "C27",
   "status": "proved",
   "theorems": [
    "bvh_processed",
    "bvh_updated",
    "bvh_root_encloses",
    "bvh_aabb"
   ],
   "note": "for every fit that encloses its points and every operator + that encloses both operands"
  },
  {
   "property": "C28",
   "status": "proved",
   "theorems": [
    "collision_traversal",
    "mesh_collision_exact"
   ],
   "note": "for every descent rule, volume test and primitive test; the primitive test itself (triangle intersection) is a parameter"
  },
  {
   "property": "C29",
   "status": "proved",
   "theorems": [
    "contact_limit",
    "contact_count",
    "contact_never_exceeds"
   ],
   "note": "contacts a pair yields are a parameter; collide() answers 0 without traversal for num_max_contacts = 0; queries without a front list except contact_never_exceeds"
  },
  {
   "property": "C30",
   "status": "proved",
   "theorems": [
    "mesh_distance_tolerance",
    "mesh_distance_exact",
    "distance_queue_small_refuted"
   ],
   "note": "distances on an integer grid, relative tolerance a fraction"
  },
  {
   "property": "C31",
   "status": "proved",
   "theorems": [
    "front_list_complete",
    "front_list_once_refuted",
    "front_list_contact_refuted"
   ],
   "note": "no pair is lost; that each pair is tested only once is false"
  },
  {
   "property": "C32",
   "status": "proved",
   "theorems": [
    "self_collision"
   ],
   "note": ""
  },
  {
   "property": "C33",
   "status": "proved",
   "theorems": [
    "cost_sources_top",
    "cost_sources_distinct_refuted"
   ],
   "note": "that distinct regions are kept apart is false (cost_sources_distinct_refuted)"
  },
  {
   "property": "C34",
   "status": "proved",
   "theorems": [
    "distance_result_min",
    "distance_result_merge",
    "distance_result_points_refuted"
   ],
   "note": "that the points always belong to the distance is false (distance_result_points_refuted)"
  },
  {
   "property": "C35",
   "status": "proved",
   "theorems": [
    "default_collision_run",
    "default_collision_done",
    "default_collision_manager",
    "default_continuous_all",
    "default_distance_run",
    "default_distance_min",
    "default_distance_signed_refuted"
   ],
   "note": "the narrowphase outcome of a pair is a parameter"
  },
  {
   "property": "C36",
   "status": "proved",
   "theorems": [
    "interval_add_exact",
    "interval_sub_exact",
    "interval_neg_exact",
    "interval_scale_exact",
    "interval_mul_exact",
    "interval_mul_assign",
    "interval_div_exact",
    "interval_overlap_exact",
    "interval_intersect_exact",
    "interval_contains_exact",
    "interval_bound_hull",
    "interval_bound_point",
    "interval_abs_lower",
    "interval_abs_upper",
    "interval_abs_upper_refuted",
    "interval_self_refuted",
    "interval_div_zero_refuted"
   ],
   "note": "exact real arithmetic; getAbsUpper and the aliased compound operators are wrong: see the refuted theorems"
  },
  {
   "property": "C37",
   "status": "proved",
   "theorems": [
    "time_interval_powers",
    "taylor_arithmetic",
    "taylor_product",
    "taylor_bound",
    "taylor_bound_all",
    "time_interval_negative_refuted",
    "taylor_product_negative_refuted",
    "taylor_bound_negative_refuted",
    "taylor_bound_all_refuted",
    "taylor_self_refuted"
   ],
   "note": "exact real arithmetic; the unconditional claim is false: see the refuted theorems"
  },
  {
   "property": "C38",
   "status": "proved",
   "theorems": [
    "taylor_tight",
    "taylor_tight_all"
   ],
   "note": "exact real arithmetic"
  },
  {
   "property": "C39",
   "status": "proved",
   "theorems": [
    "taylor_linear",
    "taylor_cos",
    "taylor_sin",
    "taylor_cos_fourth",
    "taylor_sin_refuted",
    "taylor_sin_zero_refuted"
   ],
   "note": "exact real arithmetic; the unconditional claim is false: see the refuted theorems"
  },
  {
   "property": "C40",
   "status": "proved",
   "theorems": [
    "kdop_inside_exact",
    "kdop_empty",
    "kdop_point_exact",
    "kdop_two",
    "kdop_add_point",
    "kdop_fit",
    "kdop_convex",
    "kdop_merge",
    "kdop_overlap_sound",
    "kdop_overlap_planes",
    "kdop_overlap_exact_refuted",
    "kdop_translate",
    "kdop_histories"
   ],
   "note": "exact real arithmetic; width, height, depth, volume, size, center and distance (which is not implemented and returns 0) are not modelled"
  },
  {
   "property": "C41",
   "status": "proved",
   "theorems": [
    "obb_overlap_sound",
    "obb_overlap_rt_sound",
    "obb_contain_exact",
    "obb_overlap_exact_refuted"
   ],
   "note": "exact real arithmetic; overlap(R0,T0,b1,b2) as written; the exactness claim is false"
  },
  {
   "property": "C42",
   "status": "proved",
   "theorems": [
    "merge_smalldist_iff",
    "merge_smalldist_same_axes",
    "merge_smalldist_refuted",
    "merge_largedist_encloses",
    "obb_plus_far_encloses",
    "obb_plus_far_refuted"
   ],
   "note": "exact real arithmetic; Eigen quaternion conversion is a contract; the unconditional claim is false"
  },
  {
   "property": "C43",
   "status": "proved",
   "theorems": [
    "child_boxes_cover",
    "child_boxes_disjoint",
    "child_box_side",
    "octree_resolution"
   ],
   "note": ""
  },
  {
   "property": "C44",
   "status": "proved",
   "theorems": [
    "octree_shape_collide",
    "octree_shape_costs",
    "octree_mesh_collide",
    "octree_mesh_costs",
    "octree_octree_collide",
    "octree_octree_costs",
    "octree_shape_no_costs",
    "octree_shape_distance",
    "octree_mesh_distance",
    "octree_octree_distance",
    "octree_threshold_refuted",
    "octree_maxprop_refuted",
    "octree_null_refuted"
   ],
   "note": "the narrow-phase solver is a parameter; the unconditional claim is false (refuted theorems)"
  },
  {
   "property": "C45",
   "status": "proved",
   "theorems": [
    "line_nearest",
    "line_degenerate",
    "triangle_nearest",
    "triangle_degenerate",
    "tetra_nearest",
    "outside_d_meaning",
    "tetra_beyond_abc",
    "tetra_refuted",
    "tetra_flat",
    "origin_variants"
   ],
   "note": "segment and triangle: nearest point, convex parameters and encode bits for every non-degenerate simplex. The unconditional claim is false for the tetrahedron: beyond the plane abc only the face abc is considered (tetra_refuted); proved on d's side of that plane and, beyond it, inside the three other faces. Degenerate simplices return distance -1."
  },
  {
   "property": "C46",
   "status": "proved",
   "theorems": [
    "ss_intersect_iff",
    "ss_contact_ok",
    "ss_concentric_refuted",
    "ss_distance_exact"
   ],
   "note": "exact real arithmetic. The normal is not unit for concentric spheres (it is zero): ss_concentric_refuted"
  },
  {
   "property": "C47",
   "status": "proved",
   "theorems": [
    "sc_intersect_iff",
    "sc_distance_exact",
    "sc_contact_separates",
    "sc_contact_position",
    "sc_contact_refuted"
   ],
   "note": "the original claim about the contact position is false; sc_contact_position says exactly when it holds"
  },
  {
   "property": "C48",
   "status": "proved",
   "theorems": [
    "npb_nearest",
    "sb_intersect_iff",
    "sb_distance_exact",
    "sb_contact_separates",
    "sb_contact_in_ball",
    "sb_position_refuted"
   ],
   "note": "eps is a parameter; the contact position may lie outside either shape"
  },
  {
   "property": "C49",
   "status": "proved",
   "theorems": [
    "npc_nearest",
    "sy_intersect_iff",
    "sy_distance_exact",
    "sy_contact_separates"
   ],
   "note": "eps is a parameter"
  },
  {
   "property": "C50",
   "status": "proved",
   "theorems": [
    "segseg_range",
    "segseg_exact",
    "segseg_refuted",
    "cc_distance_exact"
   ],
   "note": "the claim of correctness within the degeneracy tolerance is false (segseg_refuted); exact away from the thresholds"
  },
  {
   "property": "C51",
   "status": "proved",
   "theorems": [
    "linear_roots",
    "quadric_roots",
    "quadric_near",
    "cubic_three_roots",
    "cubic_triple_root",
    "cubic_double_root_iff",
    "cubic_single_root_iff",
    "cubic_refuted",
    "small_leading"
   ],
   "note": "exact real arithmetic, threshold as parameter. The original claim is false for the cubic: cbrt returns bool"
  },
  {
   "property": "C52",
   "status": "proved",
   "theorems": [
    "signed_distance_first",
    "signed_distance_single",
    "signed_distance_off",
    "signed_distance_deepest_refuted",
    "signed_distance_return_refuted",
    "signed_distance_reuse_refuted"
   ],
   "note": "the originally intended claim is false: see the refuted theorems"
  },
  {
   "property": "C53",
   "status": "proved",
   "theorems": [
    "ivector_ops",
    "ivector_sets",
    "ivector_overlap",
    "ivector_contain",
    "imatrix_ops",
    "imatrix_constrain",
    "imatrix_constrain_free_refuted",
    "imatrix_low_refuted"
   ],
   "note": "exact real arithmetic"
  },
  {
   "property": "C54",
   "status": "proved",
   "theorems": [
    "tvector_ops",
    "tvector_tight",
    "tmatrix_ops",
    "taylor_constrain",
    "matrix_taylor_refuted",
    "matrix_taylor_needs",
    "taylor_constrain_refuted",
    "taylor_constrain_free_refuted"
   ],
   "note": "exact real arithmetic"
  },
  {
   "property": "C55",
   "status": "proved",
   "theorems": [
    "translation_motion",
    "interp_motion",
    "screw_motion",
    "screw_translation_refuted",
    "spline_motion"
   ],
   "note": "exact real arithmetic; Eigen AngleAxis is a contract (aa_of); the claim is false for screw motions without rotation"
  },
  {
   "property": "C56",
   "status": "proved",
   "theorems": [
    "motion_bound_translation",
    "motion_bound_screw_triangle",
    "motion_bound_screw_rss",
    "motion_bound_interp_triangle",
    "motion_bound_interp_rss",
    "spline_tbound_exact",
    "spline_speed_refuted"
   ],
   "note": "exact real arithmetic; the rotational part of the spline bound is not modelled"
  },
  {
   "property": "C57",
   "status": "proved",
   "theorems": [
    "swept_encloses",
    "translation_model",
    "rotation_model_refuted",
    "swept_refuted",
    "spline_model_refuted"
   ],
   "note": "exact real arithmetic; the unconditional claim is false: see the refuted theorems. TranslationMotion::getTaylorModel does nothing and the rotational part of the spline model is not modelled"
  },
  {
   "property": "C58",
   "status": "proved",
   "theorems": [
    "advancement_sound",
    "advancement_complete",
    "advancement_close",
    "advancement_terminates",
    "advancement_motions",
    "advancement_stale_refuted",
    "advancement_touch_refuted",
    "advancement_direction_refuted",
    "advancement_end_refuted",
    "naive_exact",
    "naive_finds",
    "naive_tunnel_refuted",
    "naive_accuracy_refuted"
   ],
   "note": "exact real arithmetic; shapeDistance and collide are contracts; the hierarchy traversal of the mesh variants is not modelled, only their leaf step"
  },
  {
   "property": "C59",
   "status": "proved",
   "theorems": [
    "eigen_old_orthonormal",
    "eigen_old_exact",
    "select_sorts",
    "eigen_old_diagonal"
   ],
   "note": "real arithmetic; the tests abs(x)+g==abs(x) are an oracle; convergence within 50 sweeps is not proved (None)"
  },
  {
   "property": "C60",
   "status": "proved",
   "theorems": [
    "obb_fit1_encloses",
    "obb_fit2_encloses",
    "obb_fit3_encloses",
    "rss_fit3_encloses",
    "obb_fitn_encloses",
    "rss_fitn_encloses",
    "obb_fit3_line_refuted",
    "rss_fit3_line_refuted",
    "obb_fit3_overlap_refuted"
   ],
   "note": "exact real arithmetic except the shortcut tests of the eigensolver, which are an oracle; fit6 is fit3 twice and a merge (C42, C61); RSS fit1/fit2 not modelled"
  },
  {
   "property": "C61",
   "status": "proved",
   "theorems": [
    "rss_contain_sound",
    "rss_contain_complete",
    "rss_contain_edge_refuted",
    "rss_add_near",
    "rss_add_far_refuted",
    "rss_add_corner_refuted",
    "rss_add_turned_refuted",
    "rss_merge_encloses",
    "rss_merge_refuted"
   ],
   "note": "exact real arithmetic; the unconditional claim is false"
  },
  {
   "property": "C62",
   "status": "proved",
   "theorems": [
    "aabb_aabb_encloses",
    "aabb_obb_exact",
    "obb_obb_exact",
    "rss_rss_exact",
    "rss_obb_encloses",
    "obb_aabb_encloses",
    "rss_aabb_encloses",
    "any_aabb_encloses",
    "any_obb_encloses",
    "obb_rss_encloses",
    "aabb_rss_encloses"
   ],
   "note": "kIOS and KDOP sources appear only through the generic route with its hypothesis"
  },
  {
   "property": "C63",
   "status": "proved",
   "theorems": [
    "construct_box_aabb",
    "construct_box_obbrss",
    "construct_box_obb",
    "construct_box_obb_refuted",
    "construct_box_rss_refuted"
   ],
   "note": ""
  },
  {
   "property": "C64",
   "status": "proved",
   "theorems": [
    "sap_distance_obj_min",
    "sap_distance_self_min",
    "sap_distance_other_min",
    "sap_distance_obj_terminates",
    "sap_distance_alone_refuted",
    "sap_distance_flat_refuted",
    "im_distance_obj_min",
    "im_distance_self_min",
    "im_distance_other_min",
    "im_distance_obj_terminates",
    "im_distance_alone_refuted",
    "h_distance_obj_min",
    "h_distance_self_min",
    "h_distance_other_min",
    "h_distance_obj_terminates",
    "h_distance_alone_refuted",
    "h_distance_flat_refuted"
   ],
   "note": "exact arithmetic; the unconditional claims are false: the search does not return when the query object is alone or (SaP) without extent, and the spatial hash misses flat objects in a grid plane"
  },
  {
   "property": "C65",
   "status": "proved",
   "theorems": [
    "box_aabb_least",
    "sphere_aabb_least",
    "capsule_aabb_least",
    "cyl_aabb_encloses",
    "cone_aabb_encloses",
    "ell_aabb_encloses",
    "convex_aabb_least",
    "tri_aabb_least",
    "box_obb_exact",
    "capsule_obb_encloses",
    "cyl_obb_encloses",
    "cone_obb_encloses",
    "ell_obb_encloses",
    "sphere_obb_encloses",
    "convex_obb_encloses",
    "convex_obb_refuted",
    "shape_locals_sound",
    "mesh_local_sound",
    "object_aabb_encloses",
    "object_aabb_exact_test",
    "object_aabb_refuted"
   ],
   "note": "exact arithmetic; the unconditional claim is false for the OBB of a convex polytope and for the nearly-identity test (refuted theorems)"
  },
  {
   "property": "C66",
   "status": "proved",
   "theorems": [
    "box_verts_exact",
    "sphere_verts_exact",
    "ell_verts_enclose",
    "capsule_verts_exact",
    "cone_verts_exact",
    "cyl_verts_exact",
    "bound_vertices_enclose",
    "shape_kdop_encloses",
    "shape_rss_encloses"
   ],
   "note": "exact arithmetic; kIOS fits are not covered"
  },
  {
   "property": "C67",
   "status": "proved",
   "theorems": [
    "unit_normal_same",
    "flat_transform_exact",
    "half_aabb_exact",
    "plane_aabb_exact",
    "half_kdop_exact",
    "half_kdop_xz_refuted",
    "half_kdop_ppm_refuted",
    "plane_kdop_exact",
    "plane_kdop_refuted",
    "plane_kdop_ppm_refuted",
    "half_obb_encloses",
    "half_rss_encloses",
    "plane_obb_exact",
    "plane_rss_refuted",
    "kios_encloses"
   ],
   "note": "exact arithmetic, numeric_limits::max() an arbitrary bound; the unconditional claim is false (refuted theorems)"
  },
  {
   "property": "C68",
   "status": "proved",
   "theorems": [
    "sphere_half_exact",
    "ell_half_exact",
    "box_half_exact",
    "box_half_answer",
    "capsule_half_exact",
    "capsule_half_small_refuted",
    "capsule_half_near",
    "cyl_half_exact",
    "cyl_half_small_refuted",
    "cone_half_exact",
    "cone_half_down_refuted",
    "convex_half_exact",
    "convex_half_test_exact",
    "tri_half_exact",
    "cross_line_exact",
    "half_half_exact",
    "half_half_opposite_refuted",
    "plane_half_exact",
    "plane_half_refuted"
   ],
   "note": "exact arithmetic; the unconditional claim is false (refuted theorems)"
  },
  {
   "property": "C69",
   "status": "proved",
   "theorems": [
    "sphere_plane_exact",
    "ell_plane_exact",
    "box_plane_exact",
    "capsule_plane_test_exact",
    "capsule_plane_exact",
    "capsule_plane_refuted",
    "cyl_plane_test_sound",
    "cyl_plane_test_refuted",
    "cyl_plane_exact",
    "cyl_plane_touch_refuted",
    "cone_plane_exact",
    "cone_plane_touch_refuted",
    "convex_plane_exact",
    "tri_plane_exact",
    "tri_plane_touch_refuted",
    "plane_plane_exact"
   ],
   "note": "exact arithmetic; the unconditional claim is false (refuted theorems)"
  },
  {
   "property": "C70",
   "status": "proved",
   "theorems": [
    "box_mesh",
    "box_mesh_corners",
    "sphere_mesh",
    "sphere_mesh_surface",
    "ellipsoid_mesh",
    "ellipsoid_mesh_surface",
    "cylinder_mesh",
    "cylinder_mesh_surface",
    "cone_mesh",
    "cone_mesh_surface",
    "generate_union",
    "generate_shape",
    "sphere_mesh_by_count",
    "sphere_mesh_flat_refuted",
    "ball_face_count",
    "ball_face_count_refuted",
    "ball_no_rings_refuted",
    "cylinder_no_layers_refuted",
    "tube_mesh_by_count",
    "tube_mesh_thin_refuted"
   ],
   "note": "real arithmetic, vertex numbers below 2^31; the unconditional claim is false (refuted theorems)"
  },
  {
   "property": "C71",
   "status": "proved",
   "theorems": [
    "tri_distance_points",
    "tri_distance_meet",
    "tri_distance_exact",
    "tri_distance_small_refuted",
    "tri_distance_zero_refuted",
    "seg_points_closest",
    "seg_points_vec_refuted",
    "tri_distance_sym",
    "tri_distance_tf_exact"
   ],
   "note": "real arithmetic; the unconditional claim is false for triangles with a small normal (refuted theorems)"
  },
  {
   "property": "C72",
   "status": "proved",
   "theorems": [
    "get_support_extreme",
    "get_support_length_refuted",
    "support_extreme",
    "support_parts",
    "support_v_extreme",
    "mdiff_world_same",
    "ccd_support_extreme",
    "ccd_support_cylinder",
    "ccd_center_inside"
   ],
   "note": "real arithmetic; sphere and capsule support need a unit direction (refuted otherwise); libccd quaternions are taken as exact rotations"
  },
  {
   "property": "C73",
   "status": "proved",
   "theorems": [
    "decode_encode",
    "find_neighbors_correct",
    "find_neighbors_defined",
    "construct_spec",
    "construct_undefined",
    "watertight_two_faces_refuted",
    "find_index_ends",
    "find_extreme_correct",
    "convex_support_extreme",
    "find_extreme_refuted"
   ],
   "note": "the unconditional guarantee of findExtremeVertex is false (find_extreme_refuted); indices are natural numbers, real arithmetic"
  },
  {
   "property": "C74",
   "status": "proved",
   "theorems": [
    "shape_mass",
    "rel_com_correct",
    "shape_rel_com",
    "enclosed_apex",
    "mesh_mass",
    "open_mesh_mass",
    "mesh_rel_com",
    "mesh_move",
    "mesh_com_inside",
    "convex_mass",
    "convex_inertia_refuted"
   ],
   "note": "the inertia of Convex is not the documented one (convex_inertia_refuted); the integral over what a mesh encloses is by definition the sum of the signed integrals over the tetrahedra spanned with an apex; density 1, real arithmetic"
  },
  {
   "property": "C75",
   "status": "proved",
   "theorems": [
    "evaluate_combined",
    "evaluate_answer",
    "repeat_bound",
    "shape_distance_points",
    "inside_near",
    "repeat_refuted",
    "tiny_refuted",
    "evaluate_more",
    "enclose_frame",
    "enclose_complete"
   ],
   "note": "the unconditional accuracy of the distance is false (repeat_refuted, tiny_refuted); real arithmetic; support functions of the shapes as in C72; the cached guess is off"
  },
  {
   "property": "C76",
   "status": "proved",
   "theorems": [
    "polytope_closed",
    "epa_answer",
    "face_point",
    "edge_dist_scaled",
    "depth_refuted",
    "intersect_contact",
    "contact_midway",
    "intersect_frame",
    "normal_refuted",
    "early_contact"
   ],
   "note": "the unconditional accuracy of depth and normal is false (depth_refuted, normal_refuted, early_contact); no lower bound of the depth is claimed; real arithmetic; support functions of the shapes as in C72; the cached guess is off; shapeTriangleIntersect is not modelled"
  },
  {
   "property": "C77",
   "status": "proved",
   "theorems": [
    "gjk_answer",
    "gjk_shapes_apart",
    "simplex_step",
    "simplex_drop",
    "first_origin_refuted",
    "small_overlap_refuted",
    "gap_refuted"
   ],
   "note": "the unconditional equivalence with intersection is false in both directions (first_origin_refuted, small_overlap_refuted, gap_refuted); completeness for shapes that are not small is not claimed; real arithmetic; libccd itself (point-triangle distance, ccdVec3Eq, first_dir) is a parameter"
  },
  {
   "property": "C78",
   "status": "proved",
   "theorems": [
    "dist_answer",
    "shapes_dist",
    "area_zero_iff",
    "collinear_points",
    "copy_exact",
    "copy_unset",
    "early_stop_refuted",
    "face_unset_refuted"
   ],
   "note": "the unconditional accuracy of the distance and of the points is false (early_stop_refuted, face_unset_refuted); no upper bound of the error is claimed; real arithmetic; libccd itself (point-triangle and point-segment distance, first_dir) is a parameter"
  },
  {
   "property": "C79",
   "status": "proved",
   "theorems": [
    "patch_classified",
    "expand_closed",
    "pinched_open",
    "expansion",
    "pinch_refuted",
    "tetra_closed",
    "octa_closed"
   ],
   "note": "the unconditional claim that an expansion leaves a closed polytope is false (pinched_open, pinch_refuted): it does exactly if no vertex is on more than two edges of the border; the visibility test is arbitrary here; the ccd_pt_t data structure of libccd, which is not in the repository, is modelled after its documented behaviour"
  },
  {
   "property": "C80",
   "status": "proved",
   "theorems": [
    "normal_outward",
    "expand_solid",
    "validate_solid",
    "start_outside",
    "tetra_solid"
   ],
   "note": "conditional on the patch being exactly the faces the new point is outside of (the recursion also takes a face whose edge is in line with the point, C79); real arithmetic; release build; no claim about the octahedron of a two-point simplex"
  },
  {
   "property": "C81",
   "status": "proved",
   "theorems": [
    "expand_runs",
    "expand_sees",
    "from3_farther",
    "from4_faces",
    "from2_opposite",
    "signed_agrees",
    "signed_shapes",
    "signed_answer",
    "shapes_depth",
    "pen_apart_refuted"
   ],
   "note": "the unconditional claim that a depth means overlap is false (pen_apart_refuted); excluded are runs that ask the support function in the direction zero (blind) and runs with a pinched patch (pinches, C79); no lower bound of the depth is claimed; the loop has no iteration limit and need not end; ccdPtNearest of libccd is a parameter that returns an element of the polytope"
  },
  {
   "property": "C82",
   "status": "proved",
   "theorems": [
    "box_box_apart",
    "box_box_meet",
    "depth_separates",
    "depth_small",
    "box_box_gap_refuted",
    "box_box_touch_refuted"
   ],
   "note": "the unconditional claim that the answer is exact is false (box_box_gap_refuted), as is the claim that intersecting boxes have a contact (box_box_touch_refuted); real arithmetic; numeric_limits::max is any number above the sum of the half sides used"
  },
  {
   "property": "C83",
   "status": "proved",
   "theorems": [
    "rect_quad_sound",
    "rect_quad_exact",
    "face_contacts",
    "contact_count",
    "deepest_found",
    "select_spec",
    "edge_contacts"
   ],
   "note": "real arithmetic; atan2 is an arbitrary function; contacts of two edges: no claim that the two points are on the edges themselves (with the factor 1.05 they need not be), and none about the points if the edges are parallel within 1e-4; that there is a contact at all is claimed only for points of the incident face over the inside of the reference face (without such a point there may be none, C82)"
  },
  {
   "property": "C84",
   "status": "proved",
   "theorems": [
    "st_distance_exact",
    "st_distance_flat",
    "st_distance_refuted",
    "st_points_exact",
    "st_points_flat",
    "st_placed_exact",
    "st_intersect_exact",
    "st_contact",
    "st_contact_nearest",
    "st_contact_over",
    "st_intersect_flat",
    "st_intersect_refuted",
    "st_nearest_refuted"
   ],
   "note": "the unconditional claims are false: flat triangles (st_distance_refuted, st_intersect_refuted), nearest contact (st_nearest_refuted); the depth has the opposite sign of the other primitives (st_contact); real arithmetic, with the quotient by zero of a flat triangle as \"not a number\""
  },
  {
   "property": "C85",
   "status": "proved",
   "theorems": [
    "tri_test_sound",
    "tri_test_exact",
    "tri_test_placed",
    "tri_test_flat",
    "tri_test_refuted",
    "tri_test_half_flat_refuted",
    "tri_contact_spec",
    "tri_contact_refuted",
    "tri_depth_refuted"
   ],
   "note": "exactness without conditions is false: triangles with collinear corners (tri_test_flat, tri_test_refuted, tri_test_half_flat_refuted); the reported depth is not the least translation (tri_depth_refuted), and with a flat triangle it is computed from variables that were never set (tri_contact_refuted); real arithmetic"
  },
  {
   "property": "C86",
   "status": "proved",
   "theorems": [
    "mesh_obb_collide",
    "mesh_aabb_collide"
   ],
   "note": "triangles with collinear corners are excluded (for them the claim is false, C85); OBB models that were refitted are excluded, as operator + of OBB does not enclose (C42); cost sources and the front list are not modelled; real arithmetic"
  },
  {
   "property": "C87",
   "status": "proved",
   "theorems": [
    "mesh_obb_sphere",
    "mesh_aabb_sphere",
    "mesh_sphere_margin_refuted"
   ],
   "note": "the exact claim (reported iff the ball meets the surface) is false because of the margin of the triangle test; with the margin it is not exact either, since the volume of the sphere does not have it (mesh_sphere_margin_refuted); triangles with collinear corners are excluded (C84), and so are refitted OBB models (C42); cost sources and the front list are not modelled; real arithmetic"
  },
  {
   "property": "C88",
   "status": "proved",
   "theorems": [
    "collide_dispatch",
    "distance_dispatch",
    "advance_dispatch",
    "collide_order",
    "advance_order",
    "distance_order",
    "distance_order_refuted"
   ],
   "note": "that the order of the arguments never matters is false for distance() (distance_order_refuted); only the choice of the function and its arguments is modelled here; a class that returns another node type than its own is not modelled"
  },
  {
   "property": "C89",
   "status": "proved",
   "theorems": [
    "mesh_obb_half",
    "mesh_obb_plane",
    "mesh_shape_leaf",
    "mesh_flat_leaf_refuted"
   ],
   "note": "that every supported pair of a mesh and a shape reaches a leaf test for this shape is false (mesh_flat_leaf_refuted); a triangle that only touches the plane is not reported (C69); the contacts are those of the OBB node, with the volumes of C67 of size big; refitted OBB models are excluded (C42); cost sources and the front list are not modelled; real arithmetic"
  },
  {
   "property": "C90",
   "status": "proved",
   "theorems": [
    "pair_contacts",
    "collide_pairs",
    "collide_exchange",
    "flat_pairs_refuted",
    "pair_algorithm",
    "convex_plane_refuted"
   ],
   "note": "that collide() finds a contact whenever two shapes with an algorithm of their own meet is false for pairs of half-spaces and planes with enable_contact (flat_pairs_refuted), and that every accepted pair has an algorithm is false for a convex and a plane (convex_plane_refuted); collide_pairs covers the pairs whose algorithm is exact by C46-C50, C68 and C69, with the conditions stated there; cylinder-plane and cone-plane are only in collide_exchange and pair_contacts; box-box is C82 and C83; the pairs solved by libccd or GJK and EPA are not part of the claim; std::partial_sort is any function with its specification; cost sources are not modelled; real arithmetic"
  },
  {
   "property": "C91",
   "status": "proved",
   "theorems": [
    "mean_split",
    "median_split",
    "center_split",
    "center_split_oriented",
    "center_split_oriented_refuted",
    "median_depth",
    "mean_depth_refuted"
   ],
   "note": "that the centre rule splits oriented volumes at their centre is false (center_split_oriented_refuted), and that the depth is logarithmic is false for the mean rule, the default (mean_depth_refuted); the depth is the bound on the nested calls of recursiveBuildTree (the fuel of the model of C26); center() and the sides of a volume are data of the model; std::sort is any function with its specification; real arithmetic"
  },
  {
   "property": "C92",
   "status": "proved",
   "theorems": [
    "distance_pairs",
    "distance_exchange",
    "meeting_points_refuted",
    "distance_algorithm",
    "distance_flat_refuted",
    "dist_solve_special"
   ],
   "note": "The unconditional claim is false: for shapes in contact the nearest points are the origin (meeting_points_refuted), and the distance table accepts planes and half-spaces for which neither solver has an algorithm (distance_flat_refuted).  Two capsules under the tolerance conditions of C50.  The general algorithms are not part of the claim; real arithmetic."
  },
  {
   "property": "C93",
   "status": "proved",
   "theorems": [
    "kios_overlap_iff",
    "kios_overlap_sound",
    "kios_contain_iff",
    "enclose_sphere_encloses",
    "kios_plus_encloses",
    "kios_add_encloses",
    "kios_distance_bound",
    "kios_distance_moved",
    "kios_points_refuted",
    "kios_translate_refuted",
    "kios_fit1_exact",
    "kios_fit2_encloses",
    "kios_fit3_encloses",
    "kios_fitn_encloses"
   ],
   "note": "The unconditional claim is false: contain ignores the box (contain_outside), the nearest points of distance are wrong or undefined (kios_points_refuted), and translate keeps the box (kios_translate_refuted).  The box of a sum is a parameter here; that it encloses both is the subject of C42 and C60.  The float variable of encloseSphere is a real number in the model; real arithmetic."
  },
  {
   "property": "C94",
   "status": "proved",
   "theorems": [
    "seg_coords_nearest",
    "in_voronoi_outside",
    "in_voronoi_inside",
    "rect_edges_nearest",
    "rect_distance_bound",
    "rect_points_refuted",
    "rss_distance_bound",
    "rss_overlap_complete",
    "rss_distance_attained",
    "rss_rt_bound",
    "rss_rt_attained"
   ],
   "note": "The unconditional claim that P and Q are nearest points of the rectangles is false (rect_points_refuted). When no pair of sides is chosen, only the lower bound is proved, not that the number is the distance. The overload of rectDistance with a transform has the same text and is not modelled separately. Real arithmetic, the constant 1e-7 is exact."
  },
  {
   "property": "C95",
   "status": "proved",
   "theorems": [
    "rss_size_diameter",
    "rss_center_symmetric",
    "rss_dims_exact",
    "rss_volume_refuted",
    "obbrss_prunes",
    "obbrss_far",
    "obbrss_distance_attained",
    "obbrss_translate_exact"
   ],
   "note": "The claim that RSS::volume is the volume is false (rss_volume_refuted). A point of an OBBRSS is a point of both parts; overlap and distance are conservative, as those of the parts (C41, C94). The sums of OBBRSS are those of the parts (C42, C61) and not repeated. Real arithmetic."
  }
 ]
}