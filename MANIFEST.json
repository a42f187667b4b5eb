{
 "claims": [
  {
   "property": "C01",
   "status": "proved",
   "theorems": [
    "C01_verts_only_extended"
   ],
   "note": "every exit, any arithmetic"
  },
  {
   "property": "C02",
   "status": "proved",
   "theorems": [
    "C02_faces_only_extended_on_success"
   ],
   "note": "every exit, any arithmetic"
  },
  {
   "property": "C03",
   "status": "proved",
   "theorems": [
    "C03_face_indices_valid",
    "C03_only_unknown_sinks_can_break_indices"
   ],
   "note": "exact arithmetic; for every arithmetic the only other index is -1 from an unknown sink"
  },
  {
   "property": "C04",
   "status": "proved",
   "theorems": [
    "C04_heights_proportional",
    "C04_debug_changes_nothing_else"
   ],
   "note": "exact arithmetic"
  },
  {
   "property": "C05",
   "status": "proved",
   "theorems": [
    "C05_C26_ridge_and_eaves"
   ],
   "note": "positive heights, exact arithmetic"
  },
  {
   "property": "C06",
   "status": "proved",
   "theorems": [
    "C06_translation"
   ],
   "note": "exact arithmetic; any vertex count >= 1"
  },
  {
   "property": "C07",
   "status": "proved",
   "theorems": [
    "C07_unrelated_vertices_do_not_matter"
   ],
   "note": "needs non-negative block starts and non-empty blocks"
  },
  {
   "property": "C08",
   "status": "proved",
   "theorems": [
    "C08_unit_vectors"
   ],
   "note": "exact arithmetic; edges longer than 1e-17.5, below which normalized() returns the zero vector"
  },
  {
   "property": "C09",
   "status": "proved",
   "theorems": [
    "C09_edges_are_different",
    "C09_contours_are_the_blocks"
   ],
   "note": ""
  },
  {
   "property": "C10",
   "status": "proved",
   "theorems": [
    "C10_spike_removal_terminates"
   ],
   "note": ""
  },
  {
   "property": "C11",
   "status": "proved",
   "theorems": [
    "C11_cleanup_keeps_footprint",
    "C11_parallel_step",
    "C11_cleanup_exceptions"
   ],
   "note": "the only ValueError is that of an empty or all-removable face"
  },
  {
   "property": "C12",
   "status": "proved",
   "theorems": [
    "C12_faces_partition_darts",
    "C12_returned_faces_cover_node_darts"
   ],
   "note": "any graph built by add_edge without parallel edges, any embedding listing neighbours once, any set order"
  },
  {
   "property": "C13",
   "status": "proved",
   "theorems": [
    "C13_faces_independent_of_set_order"
   ],
   "note": "faces agree up to list order and starting point; a face with exactly one footprint edge is identical"
  },
  {
   "property": "C14",
   "status": "proved",
   "theorems": [
    "C14_C17_returned_faces"
   ],
   "note": ""
  },
  {
   "property": "C15",
   "status": "proved",
   "theorems": [
    "C15_pseudoangle_monotone",
    "C15_every_vector_has_an_angle",
    "C15_pseudoangle_raises_only_for_zero"
   ],
   "note": "exact arithmetic"
  },
  {
   "property": "C16",
   "status": "proved",
   "theorems": [
    "C16_neighbours_sorted",
    "C16_next_neighbour_is_next_clockwise",
    "C16_ties_come_first_both_ways"
   ],
   "note": "exact arithmetic; neighbours in pairwise different directions"
  },
  {
   "property": "C17",
   "status": "proved",
   "theorems": [
    "C14_C17_returned_faces"
   ],
   "note": "soundness, no duplication, completeness"
  },
  {
   "property": "C18",
   "status": "proved",
   "theorems": [
    "C18_graph_symmetric_loop_free",
    "C18_edges_lists_both_directions",
    "C18_edges_each_once_refuted"
   ],
   "note": "edges() lists each edge in both directions (finding)"
  },
  {
   "property": "C19",
   "status": "proved",
   "theorems": [
    "C19_skeleton_closed",
    "C19_event_loop_closed",
    "C19_merging_keeps_closed_ieee_refuted"
   ],
   "note": "exact equality; event loop for every arithmetic; refuted for 1-ULP equality"
  },
  {
   "property": "C20",
   "status": "proved",
   "theorems": [
    "C20_removeGhosts_keeps_nodes"
   ],
   "note": "any arithmetic"
  },
  {
   "property": "C21",
   "status": "proved",
   "theorems": [
    "C21_removeGhosts_ends",
    "C21_while_loop_rounds",
    "C21_removeGhosts_never_raises_refuted"
   ],
   "note": "any arithmetic; it can raise ValueError (finding)"
  },
  {
   "property": "C22",
   "status": "proved",
   "theorems": [
    "C22_merging_ends_with_nothing_to_merge",
    "C22_no_group_left"
   ],
   "note": "any arithmetic; in terms of groups of nodes for exact arithmetic"
  },
  {
   "property": "C23",
   "status": "proved",
   "theorems": [
    "C23_cluster_replaced_by_center",
    "C23_links_always_redirected_refuted"
   ],
   "note": "exact arithmetic; links are lost if the center is a merged position (finding)"
  },
  {
   "property": "C24",
   "status": "proved",
   "theorems": [
    "C24_same_positions_united",
    "C24_real_numbers_are_exact"
   ],
   "note": "exact equality"
  },
  {
   "property": "C25",
   "status": "proved",
   "theorems": [
    "C25_event_height_is_distance",
    "C25_node_heights"
   ],
   "note": "true distance in exact arithmetic; Line2.distance for every arithmetic"
  },
  {
   "property": "C26",
   "status": "proved",
   "theorems": [
    "C26_heights_not_negative",
    "C05_C26_ridge_and_eaves"
   ],
   "note": "exact arithmetic"
  },
  {
   "property": "C27",
   "status": "proved",
   "theorems": [
    "C27_lav_iteration_stops",
    "C27_references_stay_in_range"
   ],
   "note": "any pointer structure whose references are inside the store"
  },
  {
   "property": "C28",
   "status": "proved",
   "theorems": [
    "C28_queue_is_a_priority_queue",
    "C28_exact_order",
    "C28_ieee_order",
    "C28_no_event_lost"
   ],
   "note": "order part for exact numbers and for IEEE doubles without NaN; conservation for every arithmetic"
  },
  {
   "property": "C29",
   "status": "proved",
   "theorems": [
    "C29_batch_is_the_nearest_events",
    "C29_reachable_queues"
   ],
   "note": "exact arithmetic"
  },
  {
   "property": "C30",
   "status": "proved",
   "theorems": [
    "C30_next_event_is_a_candidate",
    "C30_next_event_is_nearest",
    "C30_next_event_is_nearest_exact"
   ],
   "note": "nearest: for distances ordered by <, in particular exact arithmetic"
  },
  {
   "property": "C31",
   "status": "proved",
   "theorems": [
    "C31_bisectors"
   ],
   "note": "Exact arithmetic, every vertex of the initial wavefront of closed contours with unit directions; strictly positive off the corner unless the edges are collinear."
  },
  {
   "property": "C32",
   "status": "proved",
   "theorems": [
    "C32_edge_event",
    "C32_edge_events_in_loop"
   ],
   "note": "Local statement for any two neighbouring vertices; in the event loop for contours without dormers whose reflex corners meet plain_corner, as long as no created vertex is reflex."
  },
  {
   "property": "C33",
   "status": "proved",
   "theorems": [
    "C33_initial_wavefront"
   ],
   "note": "any arithmetic; an empty contour raises ValueError"
  },
  {
   "property": "C34",
   "status": "proved",
   "theorems": [
    "C34_line_and_ray_intersection"
   ],
   "note": "exact arithmetic"
  },
  {
   "property": "C35",
   "status": "proved",
   "theorems": [
    "C35_reported_segments_meet",
    "C35_segments_in_general_position",
    "C35_touching_segments_refuted"
   ],
   "note": "exact arithmetic; a reported intersection is always one, touching segments may be missed (finding)"
  },
  {
   "property": "C36",
   "status": "proved",
   "theorems": [
    "C36_distance_to_line"
   ],
   "note": "exact arithmetic"
  },
  {
   "property": "C37",
   "status": "proved",
   "theorems": [
    "C37_circle_through_three_points"
   ],
   "note": "exact arithmetic"
  },
  {
   "property": "C38",
   "status": "proved",
   "theorems": [
    "C38_counts_crossings"
   ],
   "note": "exact arithmetic"
  },
  {
   "property": "C39",
   "status": "proved",
   "theorems": [
    "C39_skeleton",
    "C39_incenter",
    "C39_roof"
   ],
   "note": "Exact arithmetic; the sides must be longer than the threshold below which mathutils normalizes to the zero vector (squared length 1e-35). The faces come in any order, depending on the order of the sets of edges."
  },
  {
   "property": "C40",
   "status": "proved",
   "theorems": [
    "C40_wavefront_intact",
    "C40_no_exception",
    "C40_loop_ends",
    "C40_single_contour",
    "C40_single_contour_bound_refuted",
    "C40_events_current_refuted",
    "C40_no_exception_dormers_refuted"
   ],
   "note": "All arithmetics. Histories in which every edge event handled is current; joins of two LAVs are counted."
  },
  {
   "property": "C41",
   "status": "proved",
   "theorems": [
    "C41_circular_pairs",
    "C41_circular_triples"
   ],
   "note": ""
  },
  {
   "property": "C42",
   "status": "proved",
   "theorems": [
    "C42_apses",
    "C42_apse_circles",
    "C42_one_center_per_run_refuted"
   ],
   "note": "All arithmetics; circles over the reals. A run over the first vertex is reported twice (finding)."
  },
  {
   "property": "C43",
   "status": "proved",
   "theorems": [
    "C43_reported_dormers",
    "C43_all_dormers",
    "C43_own_neighbours_refuted"
   ],
   "note": "All arithmetics, soundness and completeness. The neighbours that count are those of the last dormer (finding)."
  },
  {
   "property": "C44",
   "status": "proved",
   "theorems": [
    "C44_dormer_processing",
    "C44_events_at_start",
    "C44_dormer_events_at_start",
    "C44_first_vertex_matters_refuted"
   ],
   "note": "All arithmetics; the position of dormer events over the reals."
  },
  {
   "property": "C45",
   "status": "proved",
   "theorems": [
    "C45_robustFloatEqual_meaning",
    "C45_approximately_equals_meaning",
    "C45_robustFloatEqual_reflexive",
    "C45_robustFloatEqual_symmetric",
    "C45_approximately_equals_reflexive",
    "C45_approximately_equals_symmetric"
   ],
   "note": "exact arithmetic"
  },
  {
   "property": "C46",
   "status": "proved",
   "theorems": [
    "C46_nodes_equidistant",
    "C46_right_angled_corner_refuted",
    "C46_slope_of_faces_refuted"
   ],
   "note": "Exact arithmetic. The refutation (IEEE) shows the condition on right-angled reflex corners is needed."
  },
  {
   "property": "C47",
   "status": "proved",
   "theorems": [
    "C47_only_edge_events",
    "C47_nodes_equidistant",
    "C47_no_exception",
    "C47_face_per_wall_refuted"
   ],
   "note": "Exact arithmetic. Completeness of the skeleton fails (finding 14, IEEE)."
  },
  {
   "property": "C48",
   "status": "proved",
   "theorems": [
    "C48_skeleton_in_order",
    "C48_skeleton_separated"
   ],
   "note": "Exact arithmetic; nodes of the skeleton before clusters are merged. Without the separation hypothesis completeness fails (C47_face_per_wall_refuted)."
  },
  {
   "property": "C49",
   "status": "proved",
   "theorems": [
    "C49_convex_roof"
   ],
   "note": "Exact arithmetic, convex footprint without holes in general position; includes the cleanup of faces. Without separation two walls can share a face (C47_face_per_wall_refuted)."
  },
  {
   "property": "C50",
   "status": "proved",
   "theorems": [
    "C50_faces_cover_footprint"
   ],
   "note": "Exact arithmetic, hypotheses of C49."
  },
  {
   "property": "C51",
   "status": "proved",
   "theorems": [
    "C51_rectangle_roof"
   ],
   "note": "Exact arithmetic."
  },
  {
   "property": "C52",
   "status": "proved",
   "theorems": [
    "C52_pyramid_roof",
    "C52_square_roof"
   ],
   "note": "Exact arithmetic."
  },
  {
   "property": "C53",
   "status": "proved",
   "theorems": [
    "C53_events_rewrite_the_wavefront",
    "C53_dormer_event",
    "C53_new_vertices_scheduled_refuted"
   ],
   "note": "For every arithmetic; events must be current (see C40). One sub-claim is refuted: the second vertex of a join gets no event."
  },
  {
   "property": "C54",
   "status": "proved",
   "theorems": [
    "C54_one_spike_removed",
    "C54_border_kept",
    "C54_traced_border",
    "C54_spikes_left",
    "C54_spikes_left_are_at_walls",
    "C54_merged_face",
    "C54_merge_fails",
    "C54_face_per_wall_kept_refuted"
   ],
   "note": "For every arithmetic. One sub-claim is refuted: a face can contain two walls after spike removal."
  },
  {
   "property": "C55",
   "status": "proved",
   "theorems": [
    "C55_scheduled_split_is_real",
    "C55_scheduled_split_is_near",
    "C55_no_split_missed",
    "C55_right_angle_exact_refuted",
    "C55_narrow_neck_refuted"
   ],
   "note": "Exact arithmetic, the corners of the footprint in the beginning. For right-angled reflex corners the meeting is only approximate, with an explicit bound. Completeness is refuted when an edge passes the corner within a thousandth of the size of the coordinates."
  },
  {
   "property": "C56",
   "status": "proved",
   "theorems": [
    "C56_ghosts_resolved",
    "C56_last_node_settled",
    "C56_clean_skeleton_unchanged",
    "C56_stays_connected_refuted",
    "C56_no_ghost_left_refuted"
   ],
   "note": "Every arithmetic; skeletons left unchanged over exact arithmetic. Two sub-claims are refuted (findings 19, 20)."
  },
  {
   "property": "C57",
   "status": "proved",
   "theorems": [
    "C57_straight_vertex_has_no_event",
    "C57_straight_run_stops",
    "C57_straight_run_raises",
    "C57_straight_vertex_is_harmless_refuted"
   ],
   "note": "Exact arithmetic; events in the beginning. One sub-claim is refuted (finding 21)."
  },
  {
   "property": "C58",
   "status": "proved",
   "theorems": [
    "C58_cleanup_is_exact",
    "C58_border_kept",
    "C58_border_kept_any",
    "C58_roof_border",
    "C58_flat_triangle_refuted"
   ],
   "note": "Faces without repeated corners. One sub-claim is refuted (finding 23): a gap opens beside a flat triangle."
  },
  {
   "property": "C59",
   "status": "proved",
   "theorems": [
    "C59_event_loop_turns",
    "C59_skeleton_turns",
    "C59_roof_turns",
    "C59_faces_stay",
    "C59_any_angle_refuted"
   ],
   "note": "Exact arithmetic. One sub-claim is refuted (finding 24): nodes are merged by a distance that depends on the orientation."
  },
  {
   "property": "C60",
   "status": "proved",
   "theorems": [
    "C60_skeleton_ignores_numbers",
    "C60_longer_list_same_roof",
    "C60_shorter_list_same_roof",
    "C60_joining_faces_refuted"
   ],
   "note": "Every arithmetic. Calls that end in StopIteration are left out; the last theorem shows why (finding 25)."
  },
  {
   "property": "C61",
   "status": "proved",
   "theorems": [
    "C61_clockwise_skeleton_empty",
    "C61_clockwise_no_roof"
   ],
   "note": "Exact arithmetic; behaviour outside the documented order of vertices (finding 26). Non-convex footprints only by an example in double precision."
  },
  {
   "property": "C62",
   "status": "proved",
   "theorems": [
    "C62_doubles_counted",
    "C62_doubles_removed",
    "C62_every_face_refuted",
    "C62_face_kept_refuted"
   ],
   "note": "Every arithmetic, no axioms; faces without candidates for the removal of straight nodes. Two sub-claims are refuted at the level of the clean-up (finding 27)."
  },
  {
   "property": "C63",
   "status": "proved",
   "theorems": [
    "C63_nodes_are_the_roof_points",
    "C63_same_walls_same_roof",
    "C63_first_vertex_does_not_matter",
    "C63_any_footprint_refuted"
   ],
   "note": "Exact arithmetic, under the hypotheses of C49. For footprints that are not convex it is refuted by a run in double precision (finding 28)."
  },
  {
   "property": "C64",
   "status": "proved",
   "theorems": [
    "C64_slopes",
    "C64_height",
    "C64_height_is_a_slope",
    "C64_only_the_first_level",
    "C64_rise"
   ],
   "note": "Every arithmetic, no axioms; C64_rise over the reals."
  },
  {
   "property": "C65",
   "status": "proved",
   "theorems": [
    "C65_moved",
    "C65_mirrored",
    "C65_enlarged",
    "C65_mirror_image",
    "C65_shrunk_refuted",
    "C65_any_mirror_image_refuted"
   ],
   "note": "Exact arithmetic, under the hypotheses of C49. Shrinking (finding 29) and mirroring a footprint that is not convex (finding 30) are refuted by runs in double precision."
  },
  {
   "property": "C66",
   "status": "proved",
   "theorems": [
    "C66_convex",
    "C66_any_footprint_refuted"
   ],
   "note": "Exact arithmetic, under the hypotheses of C49. That it holds for every simple footprint is refuted by a run in double precision (finding 31). The Examples beside the theorems run 12 tests and one known failure of the project in the model."
  },
  {
   "property": "C67",
   "status": "proved",
   "theorems": [
    "C67_vertices_any_order",
    "C67_faces_any_order",
    "C67_convex",
    "C67_any_footprint_refuted"
   ],
   "note": "The first two for every arithmetic, the third in exact arithmetic under the hypotheses of C49. That the faces never depend on the order is refuted by two runs in double precision (finding 32)."
  },
  {
   "property": "C68",
   "status": "proved",
   "theorems": [
    "C68_exceptions",
    "C68_no_index_error",
    "C68_fuel",
    "C68_simple_refuted"
   ],
   "note": "For every arithmetic. Runs in double precision end with each of the five exceptions of the skeleton and with three of the five of the faces; no run is known that ends with a ValueError of the faces or with 'Endless loop in spike removal'. That simple footprints raise nothing is refuted (finding 33)."
  },
  {
   "property": "C69",
   "status": "proved",
   "theorems": [
    "C69_dormer_event",
    "C69_unmet_at_start",
    "C69_valley",
    "C69_height_refuted"
   ],
   "note": "The second for every arithmetic, the first and third in exact arithmetic, the last a run in double precision (finding 35). The first is about the dormer event itself, in any wavefront that still holds the four corners as neighbours and in which no earlier vertex was changed; that such a wavefront is the one in which the event is handled is not proved. The model raises the TypeError in the event; Python stores None as a sink and raises it in mergeNodeClusters."
  }
 ]
}