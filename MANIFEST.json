{
 "claims": [
  {
   "property": "C01",
   "status": "proved",
   "theorems": [
    "C01_quicksort",
    "C01_quicksort_companion",
    "C01_quicksort_three_companions"
   ],
   "note": "all overloads"
  },
  {
   "property": "C02",
   "status": "proved",
   "theorems": [
    "C02_growable_array",
    "C02_zero_capacity_overflows"
   ],
   "note": ""
  },
  {
   "property": "C03",
   "status": "proved",
   "theorems": [
    "C03_uniform_in_unit_interval",
    "C03_stream"
   ],
   "note": "integers scaled by 2^53; C04 transfers to doubles"
  },
  {
   "property": "C04",
   "status": "proved",
   "theorems": [
    "C04_floating_point_is_exact",
    "C04_doubles_in_unit_interval"
   ],
   "note": "Flocq binary64 format, any rounding that is the identity on it"
  },
  {
   "property": "C05",
   "status": "proved",
   "theorems": [
    "C05_box_inside",
    "C05_box_onto",
    "C05_simplex_inside",
    "C05_simplex_onto"
   ],
   "note": "exact arithmetic"
  },
  {
   "property": "C06",
   "status": "proved",
   "theorems": [
    "C06_discrete_cdf",
    "C06_active_pool",
    "C06_cdf_table",
    "C06_empty_is_out_of_bounds"
   ],
   "note": ""
  },
  {
   "property": "C07",
   "status": "proved",
   "theorems": [
    "C07_any_history",
    "C07_from_array",
    "C07_mesher_tree",
    "C07_empty_build_refuted",
    "C07_insert_after_array_refuted"
   ],
   "note": "Any history of insertions, rebuilds, re-enumerations; also the tree built from an array of points and the flat trees of the mesher. The two _refuted theorems show out-of-contract uses that are undefined behaviour: building a tree of no points, and inserting into a tree made by the array constructor."
  },
  {
   "property": "C08",
   "status": "proved",
   "theorems": [
    "C08_closest_point",
    "C08_closest_other_point",
    "C08_closest_not_excluded",
    "C08_closest_among_first",
    "C08_is_minimum",
    "C08_empty_tree"
   ],
   "note": "Exact real arithmetic; all four overloads."
  },
  {
   "property": "C09",
   "status": "proved",
   "theorems": [
    "C09_closest_seed",
    "C09_closest_seed_ahead",
    "C09_closest_other_seed_ahead"
   ],
   "note": "Exact real arithmetic."
  },
  {
   "property": "C10",
   "status": "proved",
   "theorems": [
    "C10_points_in_ball",
    "C10_points_in_ball_among_first",
    "C10_seeds_in_ball",
    "C10_shell_refuted"
   ],
   "note": "C10_shell_refuted: the full tolerance ball is not always returned."
  },
  {
   "property": "C11",
   "status": "proved",
   "theorems": [
    "C11_reenumerate",
    "C11_same_answers",
    "C11_order",
    "C11_mesher"
   ],
   "note": "Tree class and mesher. The undirected graph of the tree class is not relabelled by the code (see C12)."
  },
  {
   "property": "C12",
   "status": "proved",
   "theorems": [
    "C12_graph",
    "C12_symmetric",
    "C12_idempotent",
    "C12_missing_point_refuted",
    "C12_neighbors_without_graph_refuted"
   ],
   "note": "The _refuted theorems: an edge to an index that is not a point is one-way; asking for neighbours before any edge exists dereferences null."
  },
  {
   "property": "C13",
   "status": "proved",
   "theorems": [
    "C13_get",
    "C13_get_none",
    "C13_set",
    "C13_past_end_refuted"
   ],
   "note": "C13_past_end_refuted is the off-by-one of the index test."
  },
  {
   "property": "C14",
   "status": "proved",
   "theorems": [
    "C14_split_join",
    "C14_join_split",
    "C14_blank_line_has_token",
    "C14_numbers",
    "C14_seeds_roundtrip",
    "C14_seeds_identical",
    "C14_spheres_roundtrip",
    "C14_seeds_any_file",
    "C14_spheres_any_file",
    "C14_blank_line_refuted",
    "C14_tree_roundtrip",
    "C14_sizing_file",
    "C14_sixteen_digits_refuted"
   ],
   "note": "printing and parsing of doubles is a parameter (any printer that writes words without commas); with 16 digits values are not recovered exactly (refuted)"
  },
  {
   "property": "C15",
   "status": "proved",
   "theorems": [
    "C15_sparse_vector",
    "C15_set_entry",
    "C15_unset_vector_refuted"
   ],
   "note": "Generic in the number type (so also binary64). Reading a vector in which nothing was kept dereferences null: recorded as a refutation."
  },
  {
   "property": "C16",
   "status": "proved",
   "theorems": [
    "C16_sparse_sparse",
    "C16_sparse_dense"
   ],
   "note": "Exact arithmetic, any row range."
  },
  {
   "property": "C17",
   "status": "proved",
   "theorems": [
    "C17_factorization",
    "C17_solve",
    "C17_factor_solve",
    "C17_exact_refuted",
    "C17_empty_row_refuted",
    "C17_solve_empty_refuted"
   ],
   "note": "L L^T = A holds up to entries of L below 1e-12, which the code drops; exactness in general is refuted. Unset rows and zero rows are undefined behaviour."
  },
  {
   "property": "C18",
   "status": "proved",
   "theorems": [
    "C18_segment",
    "C18_line",
    "C18_triangle",
    "C18_triangle_closest",
    "C18_null_segment_refuted",
    "C18_null_triangle_refuted"
   ],
   "note": "Exact arithmetic. Degenerate inputs are refuted: a zero-length segment gives NaN, a triangle with a zero first edge returns every query point as its own projection."
  },
  {
   "property": "C19",
   "status": "proved",
   "theorems": [
    "C19_normal_success",
    "C19_normal_fails_iff",
    "C19_area",
    "C19_area_any_order",
    "C19_normal_component",
    "C19_normal_component_fails",
    "C19_normalize"
   ],
   "note": "Exact arithmetic; failure conditions characterised."
  },
  {
   "property": "C20",
   "status": "proved",
   "theorems": [
    "C20_two_spheres",
    "C20_n_spheres",
    "C20_parallel_dart_refuted"
   ],
   "note": "Exact arithmetic, for every sequence of random darts, whenever the routine reports success; it can report failure for an unlucky dart."
  },
  {
   "property": "C21",
   "status": "proved",
   "theorems": [
    "C21_read",
    "C21_roundtrip",
    "C21_merge",
    "C21_quads_truncated_refuted",
    "C21_short_line_refuted"
   ],
   "note": "welding after reading is C22"
  },
  {
   "property": "C22",
   "status": "proved",
   "theorems": [
    "C22_weld",
    "C22_collapsed_dropped_refuted"
   ],
   "note": "When nothing is welded the mesh is returned unchanged, so a face that was collapsed to begin with is kept (refutation)."
  },
  {
   "property": "C23",
   "status": "proved",
   "theorems": [
    "C23_remove_isolated"
   ],
   "note": ""
  },
  {
   "property": "C24",
   "status": "proved",
   "theorems": [
    "C24_point_faces",
    "C24_exact",
    "C24_out_of_range",
    "C24_polygons_refuted"
   ],
   "note": "Triangles; the fourth corner of a polygon is not recorded (refutation); corners out of range are written out of bounds."
  },
  {
   "property": "C25",
   "status": "proved",
   "theorems": [
    "C25_edge_faces",
    "C25_no_overrun",
    "C25_filled_refuted",
    "C25_water_tight",
    "C25_exactly_two_refuted"
   ],
   "note": ""
  },
  {
   "property": "C26",
   "status": "partial",
   "theorems": [
    "C26_corners",
    "C26_terminates",
    "C26_consistent_kept",
    "C26_growing_partial",
    "C26_outer_face",
    "C26_all_orders_refuted",
    "C26_memory_refuted",
    "C26_normals_refuted"
   ],
   "note": "Consistency is proved for meshes whose faces come in an order in which each has an earlier neighbour, with fixed[0] initially false; for other orders and for other contents of the uninitialised memory it is refuted. Stored normals are not updated (refuted)."
  },
  {
   "property": "C27",
   "status": "proved",
   "theorems": [
    "C27_one_sphere",
    "C27_no_spheres",
    "C27_point_sound",
    "C27_point_complete",
    "C27_edge_sound",
    "C27_edge_complete",
    "C27_face_sound",
    "C27_face_complete",
    "C27_any_radii_refuted"
   ],
   "note": "Over the reals; tree queries are those of C08 and C10."
  },
  {
   "property": "C28",
   "status": "proved",
   "theorems": [
    "C28_brute_force",
    "C28_brute_force_positive",
    "C28_brute_force_idempotent"
   ],
   "note": "Two passes always suffice."
  },
  {
   "property": "C29",
   "status": "proved",
   "theorems": [
    "C29_tree",
    "C29_tree_idempotent",
    "C29_global_refuted",
    "C29_no_spheres_refuted",
    "C29_coverage_complete"
   ],
   "note": ""
  },
  {
   "property": "C30",
   "status": "proved",
   "theorems": [
    "C30_sound",
    "C30_complete",
    "C30_complete_member",
    "C30_no_spheres"
   ],
   "note": ""
  },
  {
   "property": "C31",
   "status": "proved",
   "theorems": [
    "C31_partition",
    "C31_no_faces"
   ],
   "note": "Every face in exactly one patch, in order, for all face and patch counts; with no faces the only pool is empty (sampling it is undefined behaviour, see C06)."
  },
  {
   "property": "C32",
   "status": "proved",
   "theorems": [
    "C32_refine",
    "C32_elements",
    "C32_erefine",
    "C32_segments",
    "C32_tile",
    "C32_disjoint",
    "C32_area",
    "C32_halves",
    "C32_depth",
    "C32_edepth"
   ],
   "note": "C32_refine/elements/erefine/segments hold for every number type, hence bit for bit in doubles; the geometric theorems are over the reals."
  },
  {
   "property": "C33",
   "status": "proved",
   "theorems": [
    "C33_total",
    "C33_invariant",
    "C33_patch",
    "C33_surface",
    "C33_etotal",
    "C33_edges"
   ],
   "note": "Over the reals, for sets of spheres that only grow during a pass. The random sampling between refinements is arbitrary: only the refinements change the pool."
  },
  {
   "property": "C34",
   "status": "proved",
   "theorems": [
    "C34_threads",
    "C34_serial"
   ],
   "note": "Every thread count and every interleaving of iterations; threads share nothing they write."
  },
  {
   "property": "C35",
   "status": "proved",
   "theorems": [
    "C35_pair",
    "C35_found",
    "C35_coverage",
    "C64_generation"
   ],
   "note": "Exact arithmetic; triples are either collinear for the program (area below 1e-10) or well away from collinear with usable random directions (hypothesis `usable`). C64_generation gives the acceptance condition."
  },
  {
   "property": "C36",
   "status": "proved",
   "theorems": [
    "C36_regions",
    "C36_no_pairs_refuted",
    "C36_no_seeds_refuted"
   ],
   "note": "Colouring, flooding and choice of the exterior, for every set of connected pairs of seeds and every tree of seeds; the geometric rule that decides which seeds to connect is not modelled (the set of pairs is arbitrary). Findings: no pair at all dereferences a null graph; no seeds reads out of bounds."
  },
  {
   "property": "C37",
   "status": "proved",
   "theorems": [
    "C37_merge",
    "C37_mutual",
    "C37_mutual_refuted"
   ],
   "note": "Without the clearance hypothesis mutual partnership fails at the level of adding pairs (C37_mutual_refuted)."
  },
  {
   "property": "C38",
   "status": "proved",
   "theorems": [
    "C38_accepted",
    "C38_shrinking",
    "C38_triangles",
    "C38_boundary_refuted"
   ],
   "note": "Acceptance is equivalent to every edge with a surface sphere having exactly two triangles; shrinking amounts exact; the tested triangles are those of the lower seeds. Open edges between feature spheres are ignored (refuted)."
  },
  {
   "property": "C39",
   "status": "partial",
   "theorems": [
    "C39_regions",
    "C39_linked_partial",
    "C39_lost_link_refuted"
   ],
   "note": "Merging always ends, only renames, to a linked region, never to a larger number; the reported count is right. The converse (linked regions get the same name) is proved when every region meets at most one smaller region and refuted in general: the entry of a region is overwritten and its earlier link is lost."
  },
  {
   "property": "C40",
   "status": "proved",
   "theorems": [
    "C40_cells",
    "C40_row",
    "C40_explicit_mesh"
   ],
   "note": ""
  },
  {
   "property": "C41",
   "status": "proved",
   "theorems": [
    "C41_pflotran",
    "C41_height",
    "C41_unit",
    "C41_no_cells_refuted"
   ],
   "note": "The whole writer; a file is the record of the values written (the text of numbers is C14). Cell numbering, one line per face, midpoint, direction, area of plane convex faces (shoelace formula), volume = sum of area*height/3 over the faces around the cell, and the height is the distance to the bisector plane. Finding: without any cell the statistics at the end divide an integer by zero."
  },
  {
   "property": "C42",
   "status": "partial",
   "theorems": [
    "C42_faces_partial",
    "C42_passes_agree",
    "C42_no_face_lost",
    "C42_unused_refuted"
   ],
   "note": "Whole of the extraction (links, welding, numbering, walks, both passes), over the reals for the cells that the clipping model returns. Proved: it never fails, faces are polygons with at least three distinct vertices in range, one row per unordered pair of different seeds, no ghost-ghost face, both passes agree (for any cells), no face whose walk meets three vertices is lost, every vertex is a Voronoi vertex. Missing: every vertex number is used by a face; C42_unused_refuted shows it is false for arbitrary cells, and it is open for cells that come from the clipping. The equality of the first and last links is proved within steps of 1e-6 (welded)."
  },
  {
   "property": "C43",
   "status": "proved",
   "theorems": [
    "C43_no_closer_seed",
    "C43_removed",
    "C43_unbounded_refuted"
   ],
   "note": "Partial correctness over the reals: every cell that is returned, for every seed set with distinct seeds at least d apart. Tolerance 1e-10 * max(1, 2 max(1,|x-s|)/d). Also proved: one recorded seed of each vertex is equidistant (2e-10); clipping only removes corners that are nearer to another seed. Unbounded cells are never finished (refuted). Not proved: that the three recorded seeds of a vertex are all equidistant and that the vertices are linked as the polytope's graph (needs a planarity argument)."
  },
  {
   "property": "C44",
   "status": "partial",
   "theorems": [
    "C44_separated_partial",
    "C44_darts_apart",
    "C44_partition",
    "C44_adjacent_refuted",
    "C44_empty_refuted"
   ],
   "note": "proved for active seeds that are not neighbours in the shuffled front; false for neighbours, which the code never compares (C44_adjacent_refuted)"
  },
  {
   "property": "C45",
   "status": "proved",
   "theorems": [
    "C45_imposed",
    "C45_counter",
    "C45_lost_update_refuted",
    "C45_undersized_refuted"
   ],
   "note": "for schedules whose increments of the counter do not overlap; the unsynchronised counter loses updates in others (C45_lost_update_refuted); needs at least as many surface spheres as corner spheres and sizing points"
  },
  {
   "property": "C46",
   "status": "proved",
   "theorems": [
    "C46_shuffle",
    "C46_monitoring_points"
   ],
   "note": "Draws in [0,1] including 1; both shuffles are the same model function."
  },
  {
   "property": "C47",
   "status": "proved",
   "theorems": [
    "C47_compaction",
    "C47_kept"
   ],
   "note": "Seeds in the tolerance shell of the range query may or may not leave (C10_shell_refuted). The number of protected seeds is a parameter."
  },
  {
   "property": "C48",
   "status": "proved",
   "theorems": [
    "C48_configuration",
    "C48_missing_value_refuted",
    "C48_no_blanks_ignored_refuted",
    "C48_job",
    "C48_seeds_file_shadowed_refuted"
   ],
   "note": "number parsing is a parameter"
  },
  {
   "property": "C49",
   "status": "proved",
   "theorems": [
    "C49_command_line",
    "C49_runs_exactly"
   ],
   "note": ""
  },
  {
   "property": "C50",
   "status": "proved",
   "theorems": [
    "C50_identifiers",
    "C50_open_writer",
    "C50_closed_writer",
    "C50_exceptions_keep_the_writer",
    "C50_all_closed",
    "C50_failures_are_reported",
    "C50_open",
    "C50_close",
    "C50_initialize",
    "C50_axis_coordinates",
    "C50_blocks",
    "C50_connectivity",
    "C50_maps",
    "C50_node_sets",
    "C50_write_without_file_refuted",
    "C50_double_open_refuted",
    "C50_set_coordinates_refuted",
    "C50_set_coordinates_not_injective_refuted",
    "C50_side_set_swapped_refuted",
    "C50_name_failure_refuted",
    "C50_assembly_refuted",
    "C50_negative_count_refuted",
    "C50_title_overrun_refuted"
   ],
   "note": "Proved over an arbitrary library. Refuted: calls without an open file reach the library with -1; a second openFile leaks the first file; setCoordinates passes truncated ints; defineSideSet swaps elements and sides; a failure to name a set is dropped; EX_ASSEMBLY is not recognised; negative counts defeat the size test; titles over 80 characters overrun."
  },
  {
   "property": "C51",
   "status": "proved",
   "theorems": [
    "C51_corner_spheres",
    "C51_disjoint"
   ],
   "note": "All three parts, and more: centres and records, coverage of every corner up to the tolerance, the input sizing function, largest radii with these properties, positivity. Hypotheses: non-empty clouds with normals, sizes within the range of doubles. The statistics and the csv file are not modelled."
  },
  {
   "property": "C52",
   "status": "proved",
   "theorems": [
    "C52_features",
    "C52_any_orientation",
    "C52_orientation_refuted"
   ],
   "note": "Exact for consistently oriented clean triangle meshes; without consistent orientation sharp edges can be missed (refutation, and the exact condition in C52_any_orientation)."
  },
  {
   "property": "C53",
   "status": "partial",
   "theorems": [
    "C53_removal_partial",
    "C53_one_degenerate",
    "C53_caller_refuted",
    "C53_last_but_one_refuted"
   ],
   "note": "Proved for any faces: the loop ends, only degenerate faces are removed, all faces but possibly the last one left are processed; with one degenerate face all others are processed exactly when it is not the last but one. The full statement is false: a degenerate last but one face makes the last face skipped, and its missing normal is then read; and the caller, which keeps the old number of faces, deletes a face twice. The feature-detection half of the function is C75."
  },
  {
   "property": "C54",
   "status": "proved",
   "theorems": [
    "C54_thread_seeds_distinct",
    "C54_seed_collision_refuted",
    "C54_default_seeds_distinct",
    "C54_default_seed_collision_refuted",
    "C54_thread_zero_shares_seed_refuted"
   ],
   "note": "distinctness inside the stated ranges; refuted outside them and between thread 0 and the first default sampler"
  },
  {
   "property": "C55",
   "status": "proved",
   "theorems": [
    "C55_unit_sphere",
    "C55_zero_draw_refuted"
   ],
   "note": "norm one for positive draws; refuted for a zero draw"
  },
  {
   "property": "C56",
   "status": "proved",
   "theorems": [
    "C56_trim_spoke",
    "C56_cut_is_bisector"
   ],
   "note": "Exact real arithmetic."
  },
  {
   "property": "C57",
   "status": "proved",
   "theorems": [
    "C57_balanced",
    "C57_duplicates_refuted"
   ],
   "note": ""
  },
  {
   "property": "C58",
   "status": "proved",
   "theorems": [
    "C58_bounding_box"
   ],
   "note": ""
  },
  {
   "property": "C59",
   "status": "proved",
   "theorems": [
    "C59_closest_nonsmooth",
    "C59_closest_nonsmooth_edge",
    "C59_closest_nonsmooth_normal",
    "C59_closest_nonsmooth_normals"
   ],
   "note": "Exact real arithmetic."
  },
  {
   "property": "C60",
   "status": "proved",
   "theorems": [
    "C60_least_squares",
    "C60_householder",
    "C60_underdetermined_refuted",
    "C60_null_column_refuted"
   ],
   "note": "Exact arithmetic."
  },
  {
   "property": "C61",
   "status": "proved",
   "theorems": [
    "C61_voronoi_vertex",
    "C61_wrong_count"
   ],
   "note": "Exact arithmetic, any dimension."
  },
  {
   "property": "C62",
   "status": "proved",
   "theorems": [
    "C62_point_angle",
    "C62_cos_angle",
    "C62_below_axis_refuted"
   ],
   "note": "Over the reals with the exact value of pi."
  },
  {
   "property": "C63",
   "status": "proved",
   "theorems": [
    "C63_meeting_points",
    "C63_least_shrinkage"
   ],
   "note": "Power vertex and normal of each triplet are arguments; their own correctness is C20 and C19."
  },
  {
   "property": "C64",
   "status": "proved",
   "theorems": [
    "C64_generation",
    "C64_reason",
    "C64_delivers"
   ],
   "note": "A half covered triple in which no sphere can be shrunk is dropped silently by the code; `settled` says so. C64_reason: a shrink has a cause. Cases: C64_quiet (three unit spheres: nothing shrinks, the pair is found), C64_reason_run (a fourth sphere over the upper point shrinks)."
  },
  {
   "property": "C65",
   "status": "proved",
   "theorems": [
    "C65_surface",
    "C65_narrow",
    "C65_no_samples_refuted"
   ],
   "note": "Termination is not claimed (the model takes fuel). C65_narrow: the block for narrow regions never changes anything, because it reads corner 2 of the face twice. C65_no_samples_refuted: when edge and corner spheres already cover everything, the Lipschitz pass runs on an empty tree and reads outside."
  },
  {
   "property": "C66",
   "status": "proved",
   "theorems": [
    "C66_round",
    "C66_radius",
    "C66_empty_pool_refuted",
    "C66_stale_radius_refuted"
   ],
   "note": "Serial order of the threads. The spheres used for the slope limit are those overlapping the ball with the radius left in the buffer by an earlier call (refuted: limits can be missed)."
  },
  {
   "property": "C67",
   "status": "proved",
   "theorems": [
    "C67_smoothing",
    "C67_not_global_refuted"
   ],
   "note": "slope holds between near seeds only"
  },
  {
   "property": "C68",
   "status": "proved",
   "theorems": [
    "C68_darts",
    "C68_disjoint"
   ],
   "note": "partial correctness (when the call returns)"
  },
  {
   "property": "C69",
   "status": "proved",
   "theorems": [
    "C69_interior_seeds",
    "C69_small_slope_refuted"
   ],
   "note": "partial correctness: termination of the rounds depends on the draws and is not claimed; false below slope 1/4"
  },
  {
   "property": "C70",
   "status": "proved",
   "theorems": [
    "C70_ply",
    "C70_cut",
    "C70_uchar_refuted"
   ],
   "note": "Both versions. Finding: the corner count is announced as uchar, a face with 256 corners or more does not fit."
  },
  {
   "property": "C71",
   "status": "proved",
   "theorems": [
    "C71_surface_cloud"
   ],
   "note": "The whole of dont_detect_features_generate_point_clouds and the same steps of detect_features_generate_point_clouds; the tree is the sequence of its add_tree_point calls (C07 is about the tree)."
  },
  {
   "property": "C72",
   "status": "proved",
   "theorems": [
    "C72_edge_spheres",
    "C72_radius",
    "C72_no_corners_refuted",
    "C72_second_refuted"
   ],
   "note": "Partial correctness: the loop is bounded by fuel and the theorem speaks of every run that ends. The claim fails without corner spheres (C72_no_corners_refuted: the empty tree is searched) and the comment \"new sphere should not alpha cover an old sphere center\" fails for the second sphere (C72_second_refuted)."
  },
  {
   "property": "C73",
   "status": "proved",
   "theorems": [
    "C73_content",
    "C73_returns",
    "C73_always_closed",
    "C73_regions_refuted",
    "C73_create_failure_refuted"
   ],
   "note": "Proved over an arbitrary library and an arbitrary conversion of doubles to floats. Refuted: the regions of the cells are not in the file; a failing ex_create is not noticed."
  },
  {
   "property": "C74",
   "status": "proved",
   "theorems": [
    "C74_outcome",
    "C74_no_undefined",
    "C74_at_most_two",
    "C74_added",
    "C74_needs_neighbours",
    "C74_one_edge_sphere_refuted",
    "C74_two_edge_spheres_refuted",
    "C74_undersized_refuted",
    "C74_added_apart_refuted"
   ],
   "note": "Proved for exact arithmetic and all direction streams with unit two-dimensional directions (C55), when all distances fit into a double and the surface radii have slope L. Refuted parts: a single edge sphere (and any edge sphere without another edge sphere on one side) makes the function read outside old_index; more corner spheres or sizing points than surface spheres overflow the link arrays; two added seeds may coincide. Hypotheses met by C74_hypotheses (a square of four edge spheres); C74_run executes it in binary64."
  },
  {
   "property": "C75",
   "status": "proved",
   "theorems": [
    "C75_detection",
    "C75_edge_cover",
    "C75_smooth_refuted",
    "C75_flat_refuted",
    "C75_zero_angle_refuted"
   ],
   "note": "C75_detection gives the result or the exact reasons for the undefined outcome; C75_edge_cover the spacing; the refuted theorems show that models without a sharp edge (a flat sheet among them) are undefined, and that a smooth angle of 0 never ends."
  },
  {
   "property": "C76",
   "status": "proved",
   "theorems": [
    "C76_clean_clouds",
    "C76_no_faces_refuted"
   ],
   "note": "Over the reals; the trees via C07, the search in the table via C06, edges and corners via C52."
  },
  {
   "property": "C77",
   "status": "proved",
   "theorems": [
    "C77_surface_side",
    "C77_edge_sector",
    "C77_links",
    "C77_no_feature_refuted",
    "C77_open_fan_refuted",
    "C77_one_triangle_sheet_refuted"
   ],
   "note": "Closed fans at surface spheres, books of sheets at edge spheres, and the whole run. Real arithmetic; each sheet has at least one surface sphere. The refuted theorems show what happens outside these shapes."
  },
  {
   "property": "C78",
   "status": "proved",
   "theorems": [
    "C78_regions",
    "C78_no_leak"
   ],
   "note": "Composition of C77 and C36 over the reals; what happens for other shapes is in the refuted theorems of C36 and C77."
  },
  {
   "property": "C79",
   "status": "proved",
   "theorems": [
    "C79_seeds",
    "C79_monitoring",
    "C79_imposed",
    "C79_cleared_refuted",
    "C79_closest_refuted"
   ],
   "note": "Holds for runs without undefined behaviour. Two parts are false and refuted by witnesses: the reported number also counts the seeds of the sharp edges, so generated seeds stay in the sphere of an imposed point (C79_cleared_refuted), and the file of closest seeds may list a seed that is not in the seeds file (C79_closest_refuted)."
  },
  {
   "property": "C80",
   "status": "proved",
   "theorems": [
    "C80_regions_kept",
    "C80_same_cells",
    "C80_same_regions_refuted"
   ],
   "note": "Same cells and seeds, regions as in the file. That the regions equal those of the saving run is false: when meshing a file all seeds count as surface seeds, so regions are not merged (C80_same_regions_refuted)."
  },
  {
   "property": "C81",
   "status": "proved",
   "theorems": [
    "C81_add_row",
    "C81_null_row_refuted"
   ],
   "note": "Exact arithmetic with the code's drop tolerance. A null new row is dereferenced (C81_null_row_refuted)."
  },
  {
   "property": "C82",
   "status": "proved",
   "theorems": [
    "C82_rank_one",
    "C82_full_row_refuted"
   ],
   "note": "Exact arithmetic with the code's drop tolerance. Without room in the rows the code reads one place behind a full row (C82_full_row_refuted, on a factor the code itself computes)."
  },
  {
   "property": "C83",
   "status": "proved",
   "theorems": [
    "C83_remove_row",
    "C83_remove_undoes_add",
    "C83_full_rows_refuted"
   ],
   "note": "Real arithmetic. The restriction to fewer than ten rows below the removed one is needed: C83_full_rows_refuted gives the out-of-bounds read for eleven dense rows."
  },
  {
   "property": "C84",
   "status": "proved",
   "theorems": [
    "C84_placement",
    "C84_covered",
    "C84_no_corners_refuted"
   ],
   "note": "The composition, for the path of clean inputs (rmin = 0). C84_covered states coverage in terms of the input alone. C84_no_corners_refuted: with sharp edges but no sharp corner (lens_no_corners gives such a mesh) the result is undefined behaviour. C84_hypotheses and C84_run meet the hypotheses."
  },
  {
   "property": "C85",
   "status": "proved",
   "theorems": [
    "C85_one_file",
    "C85_several_files",
    "C85_no_file_refuted"
   ],
   "note": "Exact arithmetic on coordinates; printing and reading of numbers as in C21. InputModelSpec.holds states what the surface should be. C85_run shows the model computing with doubles on two files that share an edge. The case without a file is the refuted theorem."
  },
  {
   "property": "C86",
   "status": "proved",
   "theorems": [
    "C86_construction",
    "C86_turned_same",
    "C86_outward_refuted",
    "C86_flat_refuted"
   ],
   "note": "Real arithmetic; the two refutations are runs in doubles."
  },
  {
   "property": "C87",
   "status": "proved",
   "theorems": [
    "C87_mesh",
    "C87_no_leak",
    "C87_seeds"
   ],
   "note": "Non-vacuity: C87_hypotheses (the lens over the reals, its seeds in a tree with attributes) and C87_run (the same run in floating point: eight cells, one region). C87_seeds gives the hypothesis `describes` of C87_mesh from the generation and merging of the seeds; case: C87_seeds_case."
  },
  {
   "property": "C88",
   "status": "proved",
   "theorems": [
    "C88_cut",
    "C88_apart",
    "C88_closed"
   ],
   "note": "The flag for corner spheres: C88_corner_flag_refuted (MeshingPolyMesh.cpp:969 sets the flag of the edge spheres instead). Non-vacuity: C88_hypotheses, C88_closed_hypotheses, C88_example."
  }
 ]
}