# Formal model of vorocrust-meshing in Rocq (Coq 8.16.1)

The model reads `/repo/src/Meshing` function by function and writes each
function as a total computable Gallina function.  The theorems are about that
model; nothing here compiles or runs the C++.

Contents: conventions; the properties one by one; trusted base (kernel, axioms, what is
modelled and what is not); findings; how the theorems were tested.

## Conventions

* **Undefined behaviour is a value.**  A model function that indexes memory
  returns `res A = Ok a | UB | Fuel` (`Base.v`): `UB` is an out-of-bounds access, a null
  dereference, an unsigned underflow used as an index, a division by zero;
  `Fuel` is the exhaustion of the explicit fuel of a C++ loop that has no
  structural bound.  Theorems state either that the result is `Ok` (so they also claim
  memory safety and termination for the stated inputs), or, for the randomised loops
  whose termination depends on the draws, what holds of every run that returns `Ok`.
* **Numbers.**  `size_t` is `nat` (or `N`/`Z` when wrap-around matters, e.g. the
  seeding of the random generator, which is modelled modulo 2^64).  `double` is
  either a type with a strict weak order (when only comparisons matter), or an
  abstract `Num` record of operations (`Num.v`) instantiated with the reals `R` (exact
  arithmetic theorems) and with Coq's primitive binary64 floats (execution,
  examples, refutations).  The same definition is used for both instances.  The random
  generator is proved exact in binary64 using Flocq, so there the real and the
  floating-point programs coincide.
* **Loops** are structural recursion, folds (`fold_res`, `for_res`), or recursion on fuel.
* **Randomness** is an arbitrary stream of numbers, universally quantified in the theorems
  (C03 shows that the generator's numbers lie in [0,1)).
* **Threads.**  OpenMP loops whose iterations write disjoint locations are
  modelled with an arbitrary schedule of iterations (C34) or as the sequential loop; the
  loop with an unsynchronised shared counter (C45) is modelled by an interleaving semantics
  over atomic loads and stores.
* **Files**: `X.v` hold models, every definition with the lines of `/repo` it models;
  `XSpec.v` hold the vocabulary of the statements, which does not use the functions of the
  model (only its data types); `XProofs.v` hold proofs; `Props*.v` hold the
  property theorems, their non-vacuity examples (`..._hypotheses`, `..._run`) and
  `Print Assumptions`.

## Per property: what is modelled and how it is proved

For each property: model files; method; then status, file and theorems. Names ending in
`_refuted` are theorems with a witness showing that a tempting stronger statement is false of
the code; names ending in `_partial` prove a part of the stated property.

* **C01 In-place sorting is correct and memory safe.** `MemoryHandler.v` (quicksort, all overloads, as one function with companion arrays). Fuelled Hoare partition returning UB on a bad index; strong induction on the length of the range with the partition invariant: result is a permutation, sorted, in bounds, companions move along. *proved*, `PropsMemory.v`: `C01_quicksort`, `C01_quicksort_companion`, `C01_quicksort_three_companions`. Note: all overloads
* **C02 Growable arrays behave as append-only sequences.** `MemoryHandler.v` (add_entry). A buffer is a capacity and its cells; induction over the appended values; refinement to list append, doubling included. *proved*, `PropsMemory.v`: `C02_growable_array`, `C02_zero_capacity_overflows`.
* **C03 Uniform random numbers lie in [0,1).** `RandomSampler.v`. Integer state scaled by 2^53, program text shared with C04; invariant by induction over draws, refinement to the recurrence of `RandomSpec.v`. *proved*, `PropsRandom.v`: `C03_uniform_in_unit_interval`, `C03_stream`. Note: integers scaled by 2^53; C04 transfers to doubles
* **C04 The random stream is exact: floating point never rounds.** `RandomFloat.v`. Every intermediate value is representable in binary64 (Flocq generic format), so any rounding that is the identity on representable numbers gives the integer stream. *proved*, `PropsRandom.v`: `C04_floating_point_is_exact`, `C04_doubles_in_unit_interval`. Note: Flocq binary64 format, any rounding that is the identity on it
* **C05 Box and simplex sampling stay inside the domain.** `Sampling.v`. Over R; simplex weights are differences of a sorted list (uses C01); onto theorems construct the random numbers. *proved*, `PropsSampling.v`: `C05_box_inside`, `C05_box_onto`, `C05_simplex_inside`, `C05_simplex_onto`. Note: exact arithmetic
* **C06 Discrete sampling picks the cell that contains the random number.** `Sampling.v`, `ActivePool.v`. Loop invariant of the binary search over a non-decreasing table; the table is the normalised prefix sum. *proved*, `PropsSampling.v`: `C06_discrete_cdf`, `C06_active_pool`, `C06_cdf_table`, `C06_empty_is_out_of_bounds`.
* **C07 The point tree contains every added point exactly once, in search order.** `KdTree.v`, `SmartTree.v`. Arena with left/right self-index links; abstraction relation to inductive trees with the search order of `KdSpec.v`; invariant over arbitrary histories of operations; quickselect partition proof for the balanced build. *proved*, `PropsKdTree.v`: `C07_any_history`, `C07_from_array`, `C07_mesher_tree`, `C07_empty_build_refuted`, `C07_insert_after_array_refuted`. Note: Any history of insertions, rebuilds, re-enumerations; also the tree built from an array of points and the flat trees of the mesher. The two _refuted theorems show out-of-contract uses that are undefined behaviour: building a tree of no points, and inserting into a tree made by the array constructor.
* **C08 Nearest-point queries are exact.** `KdTree.v`, `SmartTree.v`. Refinement of the pruned recursive search to the minimum over all stored points, over R. *proved*, `PropsKdTree.v`: `C08_closest_point`, `C08_closest_other_point`, `C08_closest_not_excluded`, `C08_closest_among_first`, `C08_is_minimum`, `C08_empty_tree`. Note: Exact real arithmetic; all four overloads.
* **C09 Filtered nearest-point queries are exact.** `KdTree.v`, flat instance of `SmartTree.v`. Same for the mesher's copy with half-space filter. *proved*, `PropsKdTree.v`: `C09_closest_seed`, `C09_closest_seed_ahead`, `C09_closest_other_seed_ahead`. Note: Exact real arithmetic.
* **C10 Range queries are complete and duplicate free.** `KdTree.v`. Refinement of the range search to the filter over all stored points, no duplicates; the tolerance shell is characterised. *proved*, `PropsKdTree.v`: `C10_points_in_ball`, `C10_points_in_ball_among_first`, `C10_seeds_in_ball`, `C10_shell_refuted`. Note: C10_shell_refuted: the full tolerance ball is not always returned.
* **C11 Re-enumerating points for locality only renames them.** `SmartTree.v`. Preorder is a permutation of the points; the relabelled arena represents the relabelled tree, queries agree up to the renaming. *proved*, `PropsKdTree.v`: `C11_reenumerate`, `C11_same_answers`, `C11_order`, `C11_mesher`. Note: Tree class and mesher. The undirected graph of the tree class is not relabelled by the code (see C12).
* **C12 The point graph is a set of links.** `Graph.v`. Heap blocks with unwritten cells; refinement to the list of directed edges of `GraphSpec.v` over arbitrary histories, array growth included. *proved*, `PropsGraph.v`: `C12_graph`, `C12_symmetric`, `C12_idempotent`, `C12_missing_point_refuted`, `C12_neighbors_without_graph_refuted`. Note: The _refuted theorems: an edge to an index that is not a point is one-way; asking for neighbours before any edge exists dereferences null.
* **C13 Attributes are read in bounds.** `SmartTree.v`. Direct model with UB; refutation of the index guard. *proved*, `PropsGraph.v`: `C13_get`, `C13_get_none`, `C13_set`, `C13_past_end_refuted`. Note: C13_past_end_refuted is the off-by-one of the index test.
* **C14 CSV seed files survive a save/load cycle.** `Text.v`. Strings as lists of characters; split/join laws; writers and readers composed to round trips; any printer/parser of numbers satisfying a round-trip law, a decimal printer refuted. *proved*, `PropsText.v`: `C14_split_join`, `C14_join_split`, `C14_blank_line_has_token`, `C14_numbers`, `C14_seeds_roundtrip`, `C14_seeds_identical`, `C14_spheres_roundtrip`, `C14_seeds_any_file`, `C14_spheres_any_file`, `C14_blank_line_refuted`, `C14_tree_roundtrip`, `C14_sizing_file`, `C14_sixteen_digits_refuted`. Note: printing and parsing of doubles is a parameter (any printer that writes words without commas); with 16 digits values are not recovered exactly (refuted)
* **C15 Sparse vectors behave as finite maps.** `Sparse.v`. Refinement to finite maps (sorted index arrays), binary search lemma, induction over updates. *proved*, `PropsSparse.v`: `C15_sparse_vector`, `C15_set_entry`, `C15_unset_vector_refuted`. Note: Generic in the number type (so also binary64). Reading a vector in which nothing was kept dereferences null: recorded as a refutation.
* **C16 Sparse dot products equal the dense dot product.** `Sparse.v`. Merge loop invariant against the dense sum. *proved*, `PropsSparse.v`: `C16_sparse_sparse`, `C16_sparse_dense`. Note: Exact arithmetic, any row range.
* **C17 Cholesky solve solves the system.** `Sparse.v`. Left-looking factorization invariant, forward and backward substitution, over R. *proved*, `PropsSparse.v`: `C17_factorization`, `C17_solve`, `C17_factor_solve`, `C17_exact_refuted`, `C17_empty_row_refuted`, `C17_solve_empty_refuted`. Note: L L^T = A holds up to entries of L below 1e-12, which the code drops; exactness in general is refuted. Unset rows and zero rows are undefined behaviour.
* **C18 Closest-point projections are closest.** `Geometry.v`. Over R: stationarity and convexity give minimality over all points of the segment, line or triangle. *proved*, `PropsGeometry.v`: `C18_segment`, `C18_line`, `C18_triangle`, `C18_triangle_closest`, `C18_null_segment_refuted`, `C18_null_triangle_refuted`. Note: Exact arithmetic. Degenerate inputs are refuted: a zero-length segment gives NaN, a triangle with a zero first edge returns every query point as its own projection.
* **C19 Normals and normal components.** `Geometry.v`. Over R, Gram-Schmidt and cross products. *proved*, `PropsGeometry.v`: `C19_normal_success`, `C19_normal_fails_iff`, `C19_area`, `C19_area_any_order`, `C19_normal_component`, `C19_normal_component_fails`, `C19_normalize`. Note: Exact arithmetic; failure conditions characterised.
* **C20 Power vertices have equal power.** `Geometry.v`. Over R, for any sequence of darts; orthogonal directions built by Gram-Schmidt. *proved*, `PropsGeometry.v`: `C20_two_spheres`, `C20_n_spheres`, `C20_parallel_dart_refuted`. Note: Exact arithmetic, for every sequence of random darts, whenever the routine reports success; it can report failure for an unlucky dart.
* **C21 Reading and merging surface files keeps connectivity valid.** `Text.v`. OBJ tokens to meshes; write-read round trip; index shift of merged files. *proved*, `PropsText.v`: `C21_read`, `C21_roundtrip`, `C21_merge`, `C21_quads_truncated_refuted`, `C21_short_line_refuted`. Note: welding after reading is C22
* **C22 Welding nearby points.** `PolyMesh.v`. Union of nearby points as in the code, faces renamed, collapsed faces dropped; list refinement. *proved*, `PropsPolyMesh.v`: `C22_weld`, `C22_collapsed_dropped_refuted`. Note: When nothing is welded the mesh is returned unchanged, so a face that was collapsed to begin with is kept (refutation).
* **C23 Removing isolated points preserves the triangles.** `PolyMesh.v`. Order-preserving renumbering; geometry of each face unchanged. *proved*, `PropsPolyMesh.v`: `C23_remove_isolated`.
* **C24 Point-to-face incidence is exact.** `PolyMesh.v`. Count and fill passes; incidence lists are exactly the faces containing the point, in order. *proved*, `PropsPolyMesh.v`: `C24_point_faces`, `C24_exact`, `C24_out_of_range`, `C24_polygons_refuted`. Note: Triangles; the fourth corner of a polygon is not recorded (refutation); corners out of range are written out of bounds.
* **C25 Edge-face counts and water-tightness.** `PolyMesh.v`. Counting over incidence lists against the mesh-level definition. *proved*, `PropsPolyMesh.v`: `C25_edge_faces`, `C25_no_overrun`, `C25_filled_refuted`, `C25_water_tight`, `C25_exactly_two_refuted`.
* **C26 Global orientation repair.** `PolyMesh.v`. Invariant over sweeps: fixed faces are pairwise consistent; the general statement is refuted, the order condition under which it holds is proved. *partial*, `PropsPolyMesh.v`: `C26_corners`, `C26_terminates`, `C26_consistent_kept`, `C26_growing_partial`, `C26_outer_face`, `C26_all_orders_refuted`, `C26_memory_refuted`, `C26_normals_refuted`. Note: Consistency is proved for meshes whose faces come in an order in which each has an earlier neighbour, with fixed[0] initially false; for other orders and for other contents of the uninitialised memory it is refuted. Stored normals are not updated (refuted).
* **C27 Coverage tests find every covering sphere.** `Spheres.v`. Metric argument over R on top of C08 and C10: estimate of the largest radius near the point by the Lipschitz bound. *proved*, `PropsSpheres.v`: `C27_one_sphere`, `C27_no_spheres`, `C27_point_sound`, `C27_point_complete`, `C27_edge_sound`, `C27_edge_complete`, `C27_face_sound`, `C27_face_complete`, `C27_any_radii_refuted`. Note: Over the reals; tree queries are those of C08 and C10.
* **C28 Brute-force Lipschitz smoothing yields the largest admissible radii.** `Spheres.v`. The result is the lower hull min_j (r_j + L d_ij); triangle inequality. *proved*, `PropsSpheres.v`: `C28_brute_force`, `C28_brute_force_positive`, `C28_brute_force_idempotent`. Note: Two passes always suffice.
* **C29 Neighbourhood Lipschitz smoothing.** `Spheres.v`. Invariant over sweeps, local Lipschitz condition, fuel bound by counting. *proved*, `PropsSpheres.v`: `C29_tree`, `C29_tree_idempotent`, `C29_global_refuted`, `C29_no_spheres_refuted`, `C29_coverage_complete`.
* **C30 All overlapping spheres are found.** `Spheres.v`. As C27 with the radius of the given sphere. *proved*, `PropsSpheres.v`: `C30_sound`, `C30_complete`, `C30_complete_member`, `C30_no_spheres`.
* **C31 Surface patches partition the faces.** `ActivePool.v`. Slices of the face list. *proved*, `PropsActivePool.v`: `C31_partition`, `C31_no_faces`. Note: Every face in exactly one patch, in order, for all face and patch counts; with no faces the only pool is empty (sampling it is undefined behaviour, see C06).
* **C32 Active element subdivision tiles the parent.** `ActivePool.v`. Dyadic paths denote sub-segments and sub-triangles; refinement theorem for any number type; tiling, disjointness and area over R in barycentric coordinates. *proved*, `PropsActivePool.v`: `C32_refine`, `C32_elements`, `C32_erefine`, `C32_segments`, `C32_tile`, `C32_disjoint`, `C32_area`, `C32_halves`, `C32_depth`, `C32_edepth`. Note: C32_refine/elements/erefine/segments hold for every number type, hence bit for bit in doubles; the geometric theorems are over the reals.
* **C33 An emptied active pool means the surface is covered.** `ActivePool.v`. Invariant over any history of refinements: every point of the surface lies in an active element or is covered; spheres only grow. *proved*, `PropsActivePool.v`: `C33_total`, `C33_invariant`, `C33_patch`, `C33_surface`, `C33_etotal`, `C33_edges`. Note: Over the reals, for sets of spheres that only grow during a pass. The random sampling between refinements is arbitrary: only the refinements change the pool.
* **C34 Refinement does not depend on the number of threads.** `ActivePool.v`. Arbitrary schedules of the threads' chunks; the result is the concatenation of slices. *proved*, `PropsActivePool.v`: `C34_threads`, `C34_serial`. Note: Every thread count and every interleaving of iterations; threads share nothing they write.
* **C35 Surface seed pairs lie on their three spheres.** `SeedPairs.v`. Power vertex (C20) plus/minus the normal (C19), Pythagoras. *proved*, `PropsSeedPairs.v`: `C35_pair`, `C35_found`, `C35_coverage`, `C64_generation`. Note: Exact arithmetic; triples are either collinear for the program (area below 1e-10) or well away from collinear with usable random directions (hypothesis `usable`). C64_generation gives the acceptance condition.
* **C36 Seed coloring computes connected components.** `Coloring.v`. Flood fill over a finite graph against the reflexive-transitive closure; progress measure for termination. *proved*, `PropsColoring.v`: `C36_regions`, `C36_no_pairs_refuted`, `C36_no_seeds_refuted`. Note: Colouring, flooding and choice of the exterior, for every set of connected pairs of seeds and every tree of seeds; the geometric rule that decides which seeds to connect is not modelled (the set of pairs is arbitrary). Findings: no pair at all dereferences a null graph; no seeds reads out of bounds.
* **C37 Partners of seeds.** `SeedPairs.v`. Index arithmetic of the merged tree. *proved*, `PropsSeedPairs.v`: `C37_merge`, `C37_mutual`, `C37_mutual_refuted`. Note: Without the clearance hypothesis mutual partnership fails at the level of adding pairs (C37_mutual_refuted).
* **C38 Accepted surface mesh is closed.** `Validate.v`. Counting of edges of triangles; correspondence of acceptance with every edge having two triangles. *proved*, `PropsValidate.v`: `C38_accepted`, `C38_shrinking`, `C38_triangles`, `C38_boundary_refuted`. Note: Acceptance is equivalent to every edge with a surface sphere having exactly two triangles; shrinking amounts exact; the tested triangles are those of the lower seeds. Open edges between feature spheres are ignored (refuted).
* **C39 Volume region merging.** `Regions.v`. Renaming loop as union toward smaller names; what it guarantees and a refutation of the converse. *partial*, `PropsRegions.v`: `C39_regions`, `C39_linked_partial`, `C39_lost_link_refuted`. Note: Merging always ends, only renames, to a linked region, never to a larger number; the reported count is right. The converse (linked regions get the same name) is proved when every region meets at most one smaller region and refuted in general: the entry of a region is overwritten and its earlier link is lost.
* **C40 Cell-to-face incidence of the volume mesh.** `Regions.v`. Count and fill passes over the faces. *proved*, `PropsRegions.v`: `C40_cells`, `C40_row`, `C40_explicit_mesh`.
* **C41 PFLOTRAN file: cell numbering, connections, areas and volumes.** `MeshFiles.v`. Loop invariants over faces; shoelace formula and plane distance over R. *proved*, `PropsMeshFiles.v`: `C41_pflotran`, `C41_height`, `C41_unit`, `C41_no_cells_refuted`. Note: The whole writer; a file is the record of the values written (the text of numbers is C14). Cell numbering, one line per face, midpoint, direction, area of plane convex faces (shoelace formula), volume = sum of area*height/3 over the faces around the cell, and the height is the distance to the bisector plane. Finding: without any cell the statistics at the end divide an integer by zero.
* **C42 Extracted Voronoi faces are valid polygons owned once.** `VoroMesh.v`, `Voro.v`. Link tables, welding by nearest vertex, walks around a face as fuelled loops; both passes are the same function of the walk; counterexample for unused vertices. *partial*, `PropsVoroMesh.v`: `C42_faces_partial`, `C42_passes_agree`, `C42_no_face_lost`, `C42_unused_refuted`. Note: Whole of the extraction (links, welding, numbering, walks, both passes), over the reals for the cells that the clipping model returns. Proved: it never fails, faces are polygons with at least three distinct vertices in range, one row per unordered pair of different seeds, no ghost-ghost face, both passes agree (for any cells), no face whose walk meets three vertices is lost, every vertex is a Voronoi vertex. Missing: every vertex number is used by a face; C42_unused_refuted shows it is false for arbitrary cells, and it is open for cells that come from the clipping. The equality of the first and last links is proved within steps of 1e-6 (welded).
* **C43 Clipped cells have the Voronoi property.** `Voro.v`. Invariant of clipping over R: all corners removed are nearer to another seed; at the end the search ball contains no nearer seed (C09, C10). *proved*, `PropsVoro.v`: `C43_no_closer_seed`, `C43_removed`, `C43_unbounded_refuted`. Note: Partial correctness over the reals: every cell that is returned, for every seed set with distinct seeds at least d apart. Tolerance 1e-10 * max(1, 2 max(1,|x-s|)/d). Also proved: one recorded seed of each vertex is equidistant (2e-10); clipping only removes corners that are nearer to another seed. Unbounded cells are never finished (refuted). Not proved: that the three recorded seeds of a vertex are all equidistant and that the vertices are linked as the polytope's graph (needs a planarity argument).
* **C44 Simultaneously active front seeds are separated.** `Interior.v`. The conflict loop as in the code; proved for pairs it compares, refuted for adjacent ones; the darts of one round are apart (C68). *partial*, `PropsInterior.v`: `C44_separated_partial`, `C44_darts_apart`, `C44_partition`, `C44_adjacent_refuted`, `C44_empty_refuted`. Note: proved for active seeds that are not neighbours in the shuffled front; false for neighbours, which the code never compares (C44_adjacent_refuted)
* **C45 Imposed interior seeds.** `Interior.v`. Sequential refinement, and an interleaving semantics of the counter with refutation. *proved*, `PropsInterior.v`: `C45_imposed`, `C45_counter`, `C45_lost_update_refuted`, `C45_undersized_refuted`. Note: for schedules whose increments of the counter do not overlap; the unsynchronised counter loses updates in others (C45_lost_update_refuted); needs at least as many surface spheres as corner spheres and sizing points
* **C46 Shuffles are permutations.** `Regions.v`. Swaps are permutations, for any draws in [0,1]. *proved*, `PropsRegions.v`: `C46_shuffle`, `C46_monitoring_points`. Note: Draws in [0,1] including 1; both shuffles are the same model function.
* **C47 Invalidated seeds are compacted consistently.** `Regions.v`. Compaction as a filter that keeps all parallel arrays aligned. *proved*, `PropsRegions.v`: `C47_compaction`, `C47_kept`. Note: Seeds in the tolerance shell of the range query may or may not leave (C10_shell_refuted). The number of protected seeds is a parameter.
* **C48 Configuration file parsing.** `Text.v`. Token lists to a record of settings; last value wins; refutations for malformed lines. *proved*, `PropsText.v`: `C48_configuration`, `C48_missing_value_refuted`, `C48_no_blanks_ignored_refuted`, `C48_job`, `C48_seeds_file_shadowed_refuted`. Note: number parsing is a parameter
* **C49 Command line decisions.** `Text.v`. Option parser as a function of the argument list. *proved*, `PropsText.v`: `C49_command_line`, `C49_runs_exactly`.
* **C50 Exodus writer protocol.** `Exodus.v`. Protocol state machine of the writer class over an abstract library. *proved*, `PropsExodus.v`: `C50_identifiers`, `C50_open_writer`, `C50_closed_writer`, `C50_exceptions_keep_the_writer`, `C50_all_closed`, `C50_failures_are_reported`, `C50_open`, `C50_close`, `C50_initialize`, `C50_axis_coordinates`, `C50_blocks`, `C50_connectivity`, `C50_maps`, `C50_node_sets`, `C50_write_without_file_refuted`, `C50_double_open_refuted`, `C50_set_coordinates_refuted`, `C50_set_coordinates_not_injective_refuted`, `C50_side_set_swapped_refuted`, `C50_name_failure_refuted`, `C50_assembly_refuted`, `C50_negative_count_refuted`, `C50_title_overrun_refuted`. Note: Proved over an arbitrary library. Refuted: calls without an open file reach the library with -1; a second openFile leaks the first file; setCoordinates passes truncated ints; defineSideSet swaps elements and sides; a failure to name a set is dropped; EX_ASSEMBLY is not recognised; negative counts defeat the size test; titles over 80 characters overrun.
* **C51 Corner spheres are disjoint and bounded.** `CornerSpheres.v`. Three loops: invariant of the first (all corners so far represented), cap, brute-force Lipschitz (C28); maximality. *proved*, `PropsCorners.v`: `C51_corner_spheres`, `C51_disjoint`. Note: All three parts, and more: centres and records, coverage of every corner up to the tolerance, the input sizing function, largest radii with these properties, positivity. Hypotheses: non-empty clouds with normals, sizes within the range of doubles. The statistics and the csv file are not modelled.
* **C52 Sharp feature detection.** `PolyMesh.v`. Exact characterisation of reported edges and corners over consistently oriented meshes; condition for any orientation. *proved*, `PropsPolyMesh.v`: `C52_features`, `C52_any_orientation`, `C52_orientation_refuted`. Note: Exact for consistently oriented clean triangle meshes; without consistent orientation sharp edges can be missed (refutation, and the exact condition in C52_any_orientation).
* **C53 Degenerate faces are dropped before sampling.** `PointCloud.v`. Removal loop as in the code over an array of pointers; partial theorem and refutations. *partial*, `PropsPointCloud.v`: `C53_removal_partial`, `C53_one_degenerate`, `C53_caller_refuted`, `C53_last_but_one_refuted`. Note: Proved for any faces: the loop ends, only degenerate faces are removed, all faces but possibly the last one left are processed; with one degenerate face all others are processed exactly when it is not the last but one. The full statement is false: a degenerate last but one face makes the last face skipped, and its missing normal is then read; and the caller, which keeps the old number of faces, deletes a face twice. The feature-detection half of the function is C75.
* **C54 Samplers draw from different random streams.** `RandomSampler.v`. Seeds modulo 2^64: injectivity in ranges, explicit collisions outside. *proved*, `PropsRandom.v`: `C54_thread_seeds_distinct`, `C54_seed_collision_refuted`, `C54_default_seeds_distinct`, `C54_default_seed_collision_refuted`, `C54_thread_zero_shares_seed_refuted`. Note: distinctness inside the stated ranges; refuted outside them and between thread 0 and the first default sampler
* **C55 Directions on the unit sphere.** `Sampling.v`. Normalised vector of the draws, over R. *proved*, `PropsSampling.v`: `C55_unit_sphere`, `C55_zero_draw_refuted`. Note: norm one for positive draws; refuted for a zero draw
* **C56 Spoke trimming is exact.** `SmartTree.v`. Cut of the segment by the nearest bisector is the minimum over all seeds. *proved*, `PropsKdTree.v`: `C56_trim_spoke`, `C56_cut_is_bisector`. Note: Exact real arithmetic.
* **C57 Rebuilt trees are balanced.** `KdTree.v`. Height bound of the balanced build by strong induction; refuted for duplicates. *proved*, `PropsKdTree.v`: `C57_balanced`, `C57_duplicates_refuted`.
* **C58 Bounding box is exact.** `SmartTree.v`. Fold of min and max. *proved*, `PropsKdTree.v`: `C58_bounding_box`.
* **C59 Nearest point across a sharp feature.** `SmartTree.v`. As C08 with the eligibility test of each overload characterised geometrically. *proved*, `PropsKdTree.v`: `C59_closest_nonsmooth`, `C59_closest_nonsmooth_edge`, `C59_closest_nonsmooth_normal`, `C59_closest_nonsmooth_normals`. Note: Exact real arithmetic.
* **C60 The least-squares solver minimises the residual.** `DenseQR.v`. Householder reflections are orthogonal, R upper triangular, normal equations. *proved*, `PropsSparse.v`: `C60_least_squares`, `C60_householder`, `C60_underdetermined_refuted`, `C60_null_column_refuted`. Note: Exact arithmetic.
* **C61 Voronoi vertices are equidistant from their seeds.** `SmartTree.v`, `DenseQR.v`. Equations of the bisectors solved by C60. *proved*, `PropsSparse.v`: `C61_voronoi_vertex`, `C61_wrong_count`. Note: Exact arithmetic, any dimension.
* **C62 Angles.** `GeometryAngle.v`, `Geometry.v`. Over R with atan. *proved*, `PropsGeometry.v`: `C62_point_angle`, `C62_cos_angle`, `C62_below_axis_refuted`. Note: Over the reals with the exact value of pi.
* **C63 Sliver resolution shrinks the least.** `Spheres.v`. Minimum over the four ways of opening the sliver. *proved*, `PropsSpheres.v`: `C63_meeting_points`, `C63_least_shrinkage`. Note: Power vertex and normal of each triplet are arguments; their own correctness is C20 and C19.
* **C64 Generation of the surface seeds either shrinks spheres or delivers all pairs.** `SeedPairs.v`. Loops over all triples of overlapping spheres; every triple is either settled or causes shrinking. Converse (C64_reason): invariant that a recorded sphere to shrink comes from a half covered triple, and the nearest-seed query returns a witness of closeness. *proved*, `PropsSeedPairs`, `PropsSeedReason.v`: `C64_generation`, `C64_reason`, `C64_delivers`. Note: A half covered triple in which no sphere can be shrunk is dropped silently by the code; `settled` says so. C64_reason: a shrink has a cause. Cases: C64_quiet (three unit spheres: nothing shrinks, the pair is found), C64_reason_run (a fourth sphere over the upper point shrinks).
* **C65 Placing the surface spheres ends only with a covered surface and complete seeds.** `SurfaceLoop.v`. Composition of C29, C33, C38, C64, C66 over the outer loop by induction on fuel. *proved*, `PropsSurfaceLoop.v`: `C65_surface`, `C65_narrow`, `C65_no_samples_refuted`. Note: Termination is not claimed (the model takes fuel). C65_narrow: the block for narrow regions never changes anything, because it reads corner 2 of the face twice. C65_no_samples_refuted: when edge and corner spheres already cover everything, the Lipschitz pass runs on an empty tree and reads outside.
* **C66 A round of surface samples.** `SamplePool.v`. Each thread's dart lies on an active face and its radius is the least of the limits. *proved*, `PropsSamplePool.v`: `C66_round`, `C66_radius`, `C66_empty_pool_refuted`, `C66_stale_radius_refuted`. Note: Serial order of the threads. The spheres used for the slope limit are those overlapping the ball with the radius left in the buffer by an earlier call (refuted: limits can be missed).
* **C67 Smoothing of the seed sizes of the volume mesh.** `Interior.v`. As C29 for the mesher's arrays. *proved*, `PropsInterior.v`: `C67_smoothing`, `C67_not_global_refuted`. Note: slope holds between near seeds only
* **C68 Accepted darts of the interior front.** `Interior.v`. Acceptance test of darts against the nearest seeds (C09, C10), over R. *proved*, `PropsInterior.v`: `C68_darts`, `C68_disjoint`. Note: partial correctness (when the call returns)
* **C69 Interior seeding as a whole.** `Interior.v`. Invariant over rounds: seeds apart, in the right region, sizes Lipschitz. *proved*, `PropsInterior.v`: `C69_interior_seeds`, `C69_small_slope_refuted`. Note: partial correctness: termination of the rounds depends on the draws and is not claimed; false below slope 1/4
* **C70 PLY files contain the mesh.** `MeshFiles.v`. Header counts and rows against the mesh; cut version by plane side. *proved*, `PropsMeshFiles.v`: `C70_ply`, `C70_cut`, `C70_uchar_refuted`. Note: Both versions. Finding: the corner count is announced as uchar, a face with 256 corners or more does not fit.
* **C71 The surface point cloud is a sample of the surface.** `PointCloud.v`. Points of the cloud lie on the faces recorded with them; corners and centroids are all there. *proved*, `PropsPointCloud.v`: `C71_surface_cloud`. Note: The whole of dont_detect_features_generate_point_clouds and the same steps of detect_features_generate_point_clouds; the tree is the sequence of its add_tree_point calls (C07 is about the tree).
* **C72 Sphere packing of the sharp edges.** `EdgeLoop.v`. Invariant of the stock of spheres over adding, Lipschitz smoothing and narrow regions; C33 for edges at the end; `respects` from a pass that changed nothing. *proved*, `PropsEdges.v`: `C72_edge_spheres`, `C72_radius`, `C72_no_corners_refuted`, `C72_second_refuted`. Note: Partial correctness: the loop is bounded by fuel and the theorem speaks of every run that ends. The claim fails without corner spheres (C72_no_corners_refuted: the empty tree is searched) and the comment "new sphere should not alpha cover an old sphere center" fails for the second sphere (C72_second_refuted).
* **C73 The Exodus file contains the mesh.** `ExodusSave.v`. Both passes over faces and cells with their arrays (invariant: what is written so far, then padding); calls as a list, cut at the first failure; a decoder as specification. *proved*, `PropsExodusFile.v`: `C73_content`, `C73_returns`, `C73_always_closed`, `C73_regions_refuted`, `C73_create_failure_refuted`. Note: Proved over an arbitrary library and an arbitrary conversion of doubles to floats. Refuted: the regions of the cells are not in the file; a failing ex_create is not noticed.
* **C74 Seeds added for sharp edges lie on the edge spheres, outside the surface spheres and inside the model.** `EdgeSeeds.v`. Search lemmas of the kd-trees for the neighbour on a side; geometry of the circle of two spheres; invariant over the ten trials and over the edge spheres. *proved*, `PropsEdgeSeeds.v`: `C74_outcome`, `C74_no_undefined`, `C74_at_most_two`, `C74_added`, `C74_needs_neighbours`, `C74_one_edge_sphere_refuted`, `C74_two_edge_spheres_refuted`, `C74_undersized_refuted`, `C74_added_apart_refuted`. Note: Proved for exact arithmetic and all direction streams with unit two-dimensional directions (C55), when all distances fit into a double and the surface radii have slope L. Refuted parts: a single edge sphere (and any edge sphere without another edge sphere on one side) makes the function read outside old_index; more corner spheres or sizing points than surface spheres overflow the link arrays; two added seeds may coincide. Hypotheses met by C74_hypotheses (a square of four edge spheres); C74_run executes it in binary64.
* **C75 Feature detection without cleaning reports exactly the edges and points whose surroundings look sharp.** `FeatureDetect.v`. Search lemmas of the trees for the nearest point off the sheet or curve; invariants over the faces, their points and edges; the list of normals grows by non-redundant vectors only. *proved*, `PropsFeatures.v`: `C75_detection`, `C75_edge_cover`, `C75_smooth_refuted`, `C75_flat_refuted`, `C75_zero_angle_refuted`. Note: C75_detection gives the result or the exact reasons for the undefined outcome; C75_edge_cover the spacing; the refuted theorems show that models without a sharp edge (a flat sheet among them) are undefined, and that a smooth angle of 0 never ends.
* **C76 The point clouds of a clean model lie on its sharp edges and on its surface, by length and by area.** `CleanClouds.v`. Induction over the throws, with C06 for the element, C05 for the place, C07 for the trees and C52 for edges and corners. *proved*, `PropsCleanClouds.v`: `C76_clean_clouds`, `C76_no_faces_refuted`. Note: Over the reals; the trees via C07, the search in the table via C06, edges and corners via C52.
* **C77 Seeds are put on the same side of the surface exactly when no triangle separates them around a common sphere.** `SeedSides.v`. Invariant of the walk (the triangles marked so far are an interval of the fan, each with the marks of its own sense of rotation); angles by C62 and the sort by C01; graph lists by C12; induction over the spheres. *proved*, `PropsSeedSides.v`: `C77_surface_side`, `C77_edge_sector`, `C77_links`, `C77_no_feature_refuted`, `C77_open_fan_refuted`, `C77_one_triangle_sheet_refuted`. Note: Closed fans at surface spheres, books of sheets at edge spheres, and the whole run. Real arithmetic; each sheet has at least one surface sphere. The refuted theorems show what happens outside these shapes.
* **C78 Two surface seeds get the same region exactly if a chain of neighbouring seeds on one side of the surface joins them.** `SurfaceRegions.v`. Composition of C77 (links) and C36 (components); induction over the chain for the labels. *proved*, `PropsSurfaceRegions.v`: `C78_regions`, `C78_no_leak`. Note: Composition of C77 and C36 over the reals; what happens for other shapes is in the refuted theorems of C36 and C77.
* **C79 Generating the seeds of the volume keeps the surface seeds, adds only seeds inside the model and outside the surface spheres, and honours imposed seeds.** `VolumeSeeds.v`. Composition of the passes (C74 sharp edges, C69 imposed and generated seeds, C67 sizes, C46 monitoring points) with the invariants `keeps` and `fresh` carried through; mask of the cleared seeds by induction. *proved*, `PropsVolume.v`: `C79_seeds`, `C79_monitoring`, `C79_imposed`, `C79_cleared_refuted`, `C79_closest_refuted`. Note: Holds for runs without undefined behaviour. Two parts are false and refuted by witnesses: the reported number also counts the seeds of the sharp edges, so generated seeds stay in the sphere of an imposed point (C79_cleared_refuted), and the file of closest seeds may list a seed that is not in the seeds file (C79_closest_refuted).
* **C80 Meshing a saved seeds file gives the same cells as the run that saved it.** `SavedMesh.v`. Round trip of the csv (C14) and the explicit mesh over an arbitrary tessellation; case analysis on the merging of regions. *proved*, `PropsSavedMesh.v`: `C80_regions_kept`, `C80_same_cells`, `C80_same_regions_refuted`. Note: Same cells and seeds, regions as in the file. That the regions equal those of the saving run is false: when meshing a file all seeds count as surface seeds, so regions are not merged (C80_same_regions_refuted).
* **C81 Adding a row to a Cholesky factorization gives a factorization of the bordered matrix.** `CholUpdate.v`, add_row. The sparse forward substitution is related to a dense one by an invariant; the bordered factor is then checked against `factors`, the specification of C17. *proved*, `PropsCholUpdate.v`: `C81_add_row`, `C81_null_row_refuted`. Note: Exact arithmetic with the code's drop tolerance. A null new row is dereferenced (C81_null_row_refuted).
* **C82 The rank-one update of a Cholesky factorization adds x x^T.** `CholUpdate.v`, rank_one. Per column an invariant on the two entry lists split at the current row (the merge of the row of the factor and of x); per update an invariant on the Gram matrix L L^T + x x^T, kept by exact rotations up to the dropped entries. *proved*, `PropsCholUpdate.v`: `C82_rank_one`, `C82_full_row_refuted`. Note: Exact arithmetic with the code's drop tolerance. Without room in the rows the code reads one place behind a full row (C82_full_row_refuted, on a factor the code itself computes).
* **C83 Removing a row from a Cholesky factorization.** `CholUpdate.v`, remove_row. The entries of each block are computed loop by loop (invariants on the function of entries written so far); the rank-one update of the lower block is C82; sums over columns are cut at the removed column. *proved*, `PropsCholRemove.v`: `C83_remove_row`, `C83_remove_undoes_add`, `C83_full_rows_refuted`. Note: Real arithmetic. The restriction to fewer than ten rows below the removed one is needed: C83_full_rows_refuted gives the out-of-bounds read for eleven dense rows.
* **C84 The stages that place the spheres work together.** `Placement.v`, the composition of C76, C51, C72 and C65: each stage's preconditions (trees, normals, positive radii, distances in range, slopes) are derived from the conclusions of the earlier ones. *proved*, `PropsPlacement.v`: `C84_placement`, `C84_covered`, `C84_no_corners_refuted`. Note: The composition, for the path of clean inputs (rmin = 0). C84_covered states coverage in terms of the input alone. C84_no_corners_refuted: with sharp edges but no sharp corner (lens_no_corners gives such a mesh) the result is undefined behaviour. C84_hypotheses and C84_run meet the hypotheses.
* **C85 The model that is meshed holds the triangles of the input files.** `InputModel.v`, input_model. Welding of one model from C22 stated by places of corners instead of numbers; merging from C21; the two weldings composed through permutations of the kept triangles; the saved file from the round trip of C21. *proved*, `PropsInputModel.v`: `C85_one_file`, `C85_several_files`, `C85_no_file_refuted`. Note: Exact arithmetic on coordinates; printing and reading of numbers as in C21. InputModelSpec.holds states what the surface should be. C85_run shows the model computing with doubles on two files that share an edge. The case without a file is the refuted theorem.
* **C86 A surface mesh holds the points in use, its faces with their normals, and exactly the sharp edges and corners.** `MeshFeatures.v`, process_model. The renumbering by remove_isolated_points (C23) is an injection that carries proper, clean and consistent over; consistent faces are kept by the repair (C26) and perhaps turned all together; with normals equal to the unit normals of the final faces each edge is listed by the first of its faces, and corners follow from the edges of a point. *proved*, `PropsMeshFeatures.v`: `C86_construction`, `C86_turned_same`, `C86_outward_refuted`, `C86_flat_refuted`. Note: Real arithmetic; the two refutations are runs in doubles.
* **C87 The finished volume mesh: outside cells are dropped, regions follow the sides of the surface, faces are the Voronoi faces of the seeds.** `WholeMesh.v`, mesh_surface, the composition of C78, C79, C42 and C40: the regions of the colouring are carried through the seeding, the Voronoi mesh gives faces between owner pairs, and merging regions over those faces neither reaches region 0 nor mixes labels that the faces between added seeds respect. C87_seeds: the merged list of C37 satisfies the hypothesis on the seeds. *proved*, `PropsMeshSeeds`, `PropsWholeMesh.v`: `C87_mesh`, `C87_no_leak`, `C87_seeds`. Note: Non-vacuity: C87_hypotheses (the lens over the reals, its seeds in a tree with attributes) and C87_run (the same run in floating point: eight cells, one region). C87_seeds gives the hypothesis `describes` of C87_mesh from the generation and merging of the seeds; case: C87_seeds_case.
* **C88 Checking a generated surface mesh cuts back exactly the spheres at open edges.** `ShrinkOpen.v`, valid_surface_mesh. Invariant over the ends of edges met so far: each radius is the least of the old one and 0.49 of the open edges among them, and the flags tell whether some radius is below the old one; at the end every open edge has been met from both ends. *proved*, `PropsShrinkOpen.v`: `C88_cut`, `C88_apart`, `C88_closed`. Note: The flag for corner spheres: C88_corner_flag_refuted (MeshingPolyMesh.cpp:969 sets the flag of the edge spheres instead). Non-vacuity: C88_hypotheses, C88_closed_hypotheses, C88_example.

## Trusted base

1. Coq 8.16.1's kernel (and `coqchk`, which vcheck runs), its virtual machine (`vm_compute` in
   examples and float refutations) and its primitive integers and floats.
2. The axioms below: they are those of the standard library's reals
   (`ClassicalDedekindReals`, functional extensionality, for some theorems `classic`).  No axiom
   is added by this development, there is no `Admitted`, no functor and no module type.  Flocq is used
   in `RandomFloat.v` (definitions and lemmas about the binary64 format); it adds no axiom.
3. The reading of the C++: each definition cites its lines; the correspondence
   between the text and the definition is by inspection.
4. Theorems over `R` are about the algorithm in exact arithmetic.  Rounding is covered where the
   theorem is generic in the number type (sorting, trees as data structures, graphs, sparse maps,
   pools, files, regions) or stated for binary64 (C04, C54, the float refutations).

### Modelled parts of the code

| File in /repo/src/Meshing | Modelled | In |
|---|---|---|
| MeshingMemoryHandler.cpp | add_entry, quicksort (all overloads), string conversion as a parameter | MemoryHandler.v, Text.v |
| MeshingRandomSampler.cpp | all | RandomSampler.v, RandomFloat.v, Sampling.v |
| MeshingSmartTree.cpp | construction, insertion, balancing, re-enumeration, bounding box, all nearest and range queries, trim_spoke, graph, attributes, get_Voronoi_vertex, csv files | KdTree.v, SmartTree.v, Graph.v, Text.v |
| MeshingLinearSolver.cpp | sparse vectors, dot products, Cholesky factorization and solver, rank-one update, insertion and removal of a row, Householder QR, least squares | Sparse.v, CholUpdate.v, DenseQR.v |
| MeshingGeometricalMethods.cpp | all | Geometry.v, GeometryAngle.v |
| MeshingSpheresMethods.cpp | coverage tests, both Lipschitz passes, overlapping spheres, resolve_sliver | Spheres.v |
| MeshingPolyMesh.cpp | OBJ reader and writer, welding, isolated points, incidence, edge faces, water-tightness, orientation, normals, construction with its sharp features and the query for them, point_covered with exclusions, valid_surface_mesh | PolyMesh.v, MeshFeatures.v, ShrinkOpen.v, Text.v, SeedPairs.v |
| MeshingVoroCrustSampler.cpp | point clouds without features, detection of features without cleaning, sharp features and clouds of a clean input, corner, edge and surface spheres, active pools, surface seeds, validation, merging and colouring of seeds | PointCloud.v, FeatureDetect.v, PolyMesh.v, CleanClouds.v, CornerSpheres.v, EdgeLoop.v, SurfaceLoop.v, ActivePool.v, SamplePool.v, SeedPairs.v, Validate.v, Coloring.v |
| MeshingVoroCrust.cpp | configuration, job selection, reading and merging of the input files, seeds csv, monitoring points, explicit mesh, seeds of the volume, mesh from a seeds file, order and arguments of the stages of execute_vc up to the surface spheres (clean input) | Text.v, Regions.v, VolumeSeeds.v, SavedMesh.v, Placement.v, InputModel.v |
| MeshingVoronoiMesher.cpp | mesher's kd-tree, csv, interior seeds (imposed and generated), seeds for the sharp edges, Lipschitz pass, Voronoi cells and mesh, PLY and PFLOTRAN writers | KdTree.v, Text.v, Interior.v, EdgeSeeds.v, Voro.v, VoroMesh.v, MeshFiles.v |
| MeshingOptionParser.h | all | Text.v |
| MeshingVoroCrust.cpp (execute_vc 281-302) | the composition of the colouring, the seeding of the volume, the Voronoi mesh and the regions | WholeMesh.v |
| MeshingVoroCrustSampler.cpp (color_surface_seeds, same-side rule 1721-2210) | all; the arc cosine is the one of the reals | SeedSides.v, SurfaceRegions.v |
| MeshingExodusIO.cpp | all, over an arbitrary library | Exodus.v |
| MeshingVoronoiMesher.cpp (save_exodus_file) | all, over an arbitrary library | ExodusSave.v |

### Not modelled

* MeshingVoroSpokes.cpp (surrogate models; not called by the mesher), MeshingTimer, MeshingConsole, messages and
  time measurements, destructors and `clear_memory` (leaks and double frees are not visible in the model except where a finding says so).
* MeshingSpheresMethods.cpp: copies of get_power_vertex and get_normal_component (436-600, no caller).
* MeshingSmartTree.cpp: get_Voronoi_neighbors, get_3d_Voronoi_cell, get_3d_Voronoi_face (used by VoroSpokes only).
* MeshingPolyMesh.cpp: generate_surface_mesh (an older copy of what the sampler does, no caller).
* Rounding in the geometric theorems; overflow of `size_t`; exhaustion of memory; the text of floating-point numbers (a parameter).

## Findings

Behaviours of the code that contradict what its interface or comments suggest.  Each has a theorem with a witness unless marked (n).

* Trees: building with no points is undefined (C07_empty_build_refuted); inserting into a tree made by the array constructor too
  (C07_insert_after_array_refuted); queries on an empty tree are undefined in the overloads without a check (C08_empty_tree); points in the tolerance
  shell of a range query may be missed (C10_shell_refuted); duplicates destroy balance (C57_duplicates_refuted); an edge to a missing point is one-way and
  asking for neighbours without a graph dereferences null (C12); reading an attribute one past the end passes the guard (C13_past_end_refuted); re-enumeration does not
  relabel the graph or the marks (n).
* Random numbers: seed collisions between threads, between default samplers, and of thread 0 with the first default sampler (C54); a zero draw makes the unit sphere
  sampler return non-unit vectors (C55_zero_draw_refuted); sampling an empty pool reads out of bounds (C06_empty_is_out_of_bounds, C66_empty_pool_refuted).
* Memory: growable arrays of capacity zero overflow (C02_zero_capacity_overflows).
* Files: a blank line in seeds or tree files is read out of bounds, and 16 digits do not restore a double (C14); OBJ quads are truncated and short
  lines read out of bounds (C21); a configuration keyword without value is read out of bounds, `R_MIN=v` without blanks is ignored, SEEDS_FILE is
  shadowed by an earlier INPUT_MESH_FILE (C48); a PLY face with 256 corners does not fit its count (C70_uchar_refuted); the PFLOTRAN writer divides by zero without cells (C41_no_cells_refuted).
* Exodus: coordinates, blocks, names and sets are written without an open file; opening over an open file leaks it; setCoordinates writes truncated ints;
  side sets have elements and sides swapped; failures to name a set are dropped; EX_ASSEMBLY is not recognised; negative counts and long titles (C50); the mesh file has no regions and ignores a failing creation (C73).
* Linear algebra: unset sparse vectors and rows are dereferenced, dropped entries make the factorization inexact, an empty system is undefined (C15, C17); the rank-one update reads one place behind a full row, and adding a null row dereferences it; removing a row inherits the first (C81, C82, C83; these functions have no caller in the repository);
  QR with more columns than rows reads uninitialised entries, a zero column gives a zero answer (C60).
* Geometry: zero-length segments and degenerate triangles (C18), unlucky darts (C20), angles just below the x axis (C62).
* Surface meshes: welding keeps collapsed faces when nothing is welded (C22); the fourth corner of a face is ignored (C24); counts and lists of edge faces disagree on collapsed faces, and water-tightness
  accepts non-manifold edges (C25); orientation repair depends on the order of the faces and on uninitialised memory, and leaves stale normals (C26); sharp edges are missed for some
  orientations (C52); a degenerate last-but-one face causes a skipped face and a missing normal, and the caller deletes a face twice after any removal (C53).
* Spheres: coverage tests need Lipschitz radii (C27_any_radii_refuted); the tree-based smoothing is only local and undefined without spheres (C29); the radius left by the previous
  sample decides which neighbours limit the next one (C66_stale_radius_refuted); the block for narrow regions is dead (C65_narrow); covering everything by edge and corner spheres makes the smoothing read
  an empty tree (C65_no_samples_refuted); inputs without sharp corners but with sharp edges search an empty tree (C72_no_corners_refuted; C84_lens is a closed mesh with this fate); the second edge sphere ignores the first (C72_second_refuted).
* valid_surface_mesh sets edge_sphere_shrunk when it shrinks a corner sphere and never sets corner_sphere_shrunk (C88_corner_flag_refuted), and returns 0 whether or not the mesh is closed.
* Construction of a surface mesh: faces that look outward may all be turned inward (C86_outward_refuted); after a repair of the orientation the stale normals make a flat edge sharp (C86_flat_refuted); the test for
  faces that run the same way along an edge compares corners number ic of the other face instead of jc, so it misses most such pairs (n).
* A configuration without INPUT_MESH_FILE reads filenames[0] of an empty vector (C85_no_file_refuted). A file that cannot be opened is read as an empty model.
* Seeds: no connected pair or no seeds in colouring (C36); partners need not be mutual (C37_mutual_refuted); open edges between feature spheres are accepted (C38_boundary_refuted);
  region merging loses links (C39_lost_link_refuted).
* Sides of the surface: an open fan links the two sides (C77_open_fan_refuted); an edge sphere without a neighbour on a feature reads an empty table (C77_no_feature_refuted); a sheet made of one triangle is
  continued into another sheet and joins two sectors (C77_one_triangle_sheet_refuted).
* Seeds for sharp edges: a search without answer is taken for an answer, so an edge sphere with all others on one side reads out of bounds (C74_one_edge_sphere_refuted, C74_two_edge_spheres_refuted); the
  same circle is visited from both spheres and may get the same seed twice (C74_added_apart_refuted); link arrays sized for the surface spheres (C74_undersized_refuted).
* Features without cleaning: a model without sharp edges, such as a flat sheet or a smooth closed surface, reads past the end of the point list or builds an empty tree (C75_smooth_refuted, C75_flat_refuted);
  a clean model without faces reads outside its table of areas (C76_no_faces_refuted); the smooth angle 0 never ends (C75_zero_angle_refuted); a sharp edge is reported once for each of its faces.
* Volume: cells without bound never finish (C43_unbounded_refuted); adjacent front seeds are not compared and an empty front is read out of bounds (C44); the shared counter loses updates and
  trees are undersized (C45); the reported number of imposed seeds counts the seeds of sharp edges, which protects generated seeds inside the sphere of an imposed point (C79_cleared_refuted), and
  monitoring_points_closest_seeds.csv may list a dropped seed (C79_closest_refuted); meshing a saved seeds file does not merge regions as the saving run did (C80_same_regions_refuted); the slope is not global (C67) and wrong regions occur for slopes below 1/4 (C69_small_slope_refuted).
* Not formalised (n): a half-covered triple without a shrinkable sphere is dropped silently; the third sphere is read from attrib[3]; a failed power vertex uses a stale point; `clear_memory` deletes the
  samplers twice; `sample_active_pool` with OpenMP races on the radii; the mesher's Lipschitz loop shares `x` between threads; coincident seeds give a NaN direction in the PFLOTRAN file; `main` ignores the
  result of `execute`; `_num_faces` and `_face_normal` are unset on the path through detect_features_generate_point_clouds.

## Testing the theorems against wrong programs

`seeded/LOG.jsonl` has one line per edit of the model that imitates a bug: the definition, the edit, the claim it breaks, the theorems that
stopped compiling, and what was tightened when none did.

### What `Print Assumptions` lists

Every theorem named in MANIFEST.json, grouped by the result of `Print Assumptions` (the commands
are at the end of the `Props*.v` files).

* Closed under the global context (no axiom): C01_quicksort, C01_quicksort_companion, C01_quicksort_three_companions, C02_growable_array, C02_zero_capacity_overflows, C03_uniform_in_unit_interval, C03_stream, C11_order, C12_graph, C12_symmetric, C12_idempotent, C12_missing_point_refuted, C12_neighbors_without_graph_refuted, C13_get, C13_get_none, C13_set, C13_past_end_refuted, C14_split_join, C14_join_split, C14_blank_line_has_token, C14_numbers, C14_seeds_roundtrip, C14_seeds_identical, C14_spheres_roundtrip, C14_seeds_any_file, C14_spheres_any_file, C15_sparse_vector, C15_unset_vector_refuted, C17_empty_row_refuted, C17_solve_empty_refuted, C21_read, C21_roundtrip, C21_merge, C21_quads_truncated_refuted, C21_short_line_refuted, C23_remove_isolated, C24_point_faces, C24_exact, C24_out_of_range, C24_polygons_refuted, C25_edge_faces, C25_no_overrun, C25_filled_refuted, C25_water_tight, C25_exactly_two_refuted, C26_corners, C26_terminates, C26_consistent_kept, C26_growing_partial, C26_all_orders_refuted, C26_memory_refuted, C31_partition, C31_no_faces, C32_refine, C32_elements, C32_erefine, C32_segments, C34_threads, C34_serial, C39_regions, C39_linked_partial, C39_lost_link_refuted, C40_cells, C40_row, C40_explicit_mesh, C42_passes_agree, C42_no_face_lost, C44_partition, C44_empty_refuted, C45_counter, C45_lost_update_refuted, C48_configuration, C48_missing_value_refuted, C48_no_blanks_ignored_refuted, C48_job, C48_seeds_file_shadowed_refuted, C49_command_line, C49_runs_exactly, C50_identifiers, C50_open_writer, C50_closed_writer, C50_exceptions_keep_the_writer, C50_all_closed, C50_failures_are_reported, C50_open, C50_close, C50_initialize, C50_axis_coordinates, C50_blocks, C50_connectivity, C50_maps, C50_node_sets, C50_write_without_file_refuted, C50_double_open_refuted, C50_set_coordinates_refuted, C50_set_coordinates_not_injective_refuted, C50_side_set_swapped_refuted, C50_name_failure_refuted, C50_assembly_refuted, C50_negative_count_refuted, C50_title_overrun_refuted, C54_thread_seeds_distinct, C54_seed_collision_refuted, C54_default_seeds_distinct, C54_default_seed_collision_refuted, C54_thread_zero_shares_seed_refuted, C57_balanced, C57_duplicates_refuted, C60_underdetermined_refuted, C61_wrong_count, C73_content, C73_returns, C73_always_closed, C73_regions_refuted, C73_create_failure_refuted, C77_no_feature_refuted, C80_regions_kept, C80_same_cells, C80_same_regions_refuted, C85_no_file_refuted.
* `ClassicalDedekindReals.sig_forall_dec`, `FunctionalExtensionality.functional_extensionality_dep`: C11_reenumerate, C11_mesher, C14_sixteen_digits_refuted.
* `ClassicalDedekindReals.sig_forall_dec`, `ClassicalDedekindReals.sig_not_dec`, `FunctionalExtensionality.functional_extensionality_dep`: C05_box_inside, C05_box_onto, C05_simplex_inside, C05_simplex_onto, C06_discrete_cdf, C06_active_pool, C06_cdf_table, C06_empty_is_out_of_bounds, C07_any_history, C07_from_array, C07_mesher_tree, C07_empty_build_refuted, C07_insert_after_array_refuted, C08_closest_point, C08_closest_other_point, C08_closest_not_excluded, C08_closest_among_first, C08_is_minimum, C08_empty_tree, C09_closest_seed, C09_closest_seed_ahead, C09_closest_other_seed_ahead, C10_points_in_ball, C10_points_in_ball_among_first, C10_seeds_in_ball, C10_shell_refuted, C11_same_answers, C14_blank_line_refuted, C14_tree_roundtrip, C14_sizing_file, C15_set_entry, C16_sparse_sparse, C16_sparse_dense, C17_factorization, C17_solve, C17_factor_solve, C17_exact_refuted, C18_segment, C18_line, C18_triangle, C18_triangle_closest, C18_null_triangle_refuted, C19_normal_success, C19_normal_fails_iff, C19_area, C19_area_any_order, C19_normal_component, C19_normal_component_fails, C19_normalize, C20_two_spheres, C20_n_spheres, C22_weld, C22_collapsed_dropped_refuted, C26_outer_face, C26_normals_refuted, C27_one_sphere, C27_no_spheres, C27_point_sound, C27_point_complete, C27_edge_sound, C27_edge_complete, C27_face_sound, C27_face_complete, C27_any_radii_refuted, C28_brute_force, C28_brute_force_positive, C28_brute_force_idempotent, C29_tree, C29_tree_idempotent, C29_global_refuted, C29_no_spheres_refuted, C29_coverage_complete, C30_sound, C30_complete, C30_complete_member, C30_no_spheres, C32_tile, C32_disjoint, C32_area, C32_halves, C32_depth, C32_edepth, C33_total, C33_invariant, C33_patch, C33_surface, C33_etotal, C33_edges, C35_pair, C35_found, C35_coverage, C64_generation, C36_regions, C36_no_pairs_refuted, C36_no_seeds_refuted, C37_merge, C37_mutual, C38_accepted, C38_shrinking, C38_triangles, C38_boundary_refuted, C41_pflotran, C41_height, C41_unit, C41_no_cells_refuted, C42_faces_partial, C43_no_closer_seed, C43_removed, C43_unbounded_refuted, C44_separated_partial, C44_darts_apart, C44_adjacent_refuted, C45_imposed, C45_undersized_refuted, C46_shuffle, C46_monitoring_points, C47_compaction, C47_kept, C51_corner_spheres, C51_disjoint, C52_features, C52_any_orientation, C52_orientation_refuted, C53_removal_partial, C53_one_degenerate, C53_caller_refuted, C53_last_but_one_refuted, C56_trim_spoke, C56_cut_is_bisector, C58_bounding_box, C59_closest_nonsmooth, C59_closest_nonsmooth_edge, C59_closest_nonsmooth_normal, C59_closest_nonsmooth_normals, C60_least_squares, C60_householder, C61_voronoi_vertex, C62_cos_angle, C63_meeting_points, C63_least_shrinkage, C64_reason, C64_delivers, C65_surface, C65_narrow, C65_no_samples_refuted, C66_round, C66_radius, C66_empty_pool_refuted, C67_smoothing, C68_darts, C68_disjoint, C69_interior_seeds, C70_ply, C70_cut, C70_uchar_refuted, C71_surface_cloud, C72_edge_spheres, C72_radius, C72_no_corners_refuted, C74_outcome, C74_no_undefined, C74_at_most_two, C74_added, C74_needs_neighbours, C74_one_edge_sphere_refuted, C74_two_edge_spheres_refuted, C74_undersized_refuted, C75_detection, C75_edge_cover, C75_smooth_refuted, C75_flat_refuted, C75_zero_angle_refuted, C76_clean_clouds, C76_no_faces_refuted, C77_surface_side, C79_seeds, C79_monitoring, C79_imposed, C81_add_row, C82_rank_one, C83_remove_row, C83_remove_undoes_add, C84_placement, C84_covered, C84_no_corners_refuted, C85_one_file, C85_several_files, C86_construction, C86_turned_same, C87_seeds, C88_cut, C88_apart, C88_closed.
* `ClassicalDedekindReals.sig_forall_dec`, `ClassicalDedekindReals.sig_not_dec`, `Classical_Prop.classic`, `FunctionalExtensionality.functional_extensionality_dep`: C04_floating_point_is_exact, C04_doubles_in_unit_interval, C55_unit_sphere, C55_zero_draw_refuted, C62_point_angle, C62_below_axis_refuted, C77_edge_sector, C77_links, C78_regions, C78_no_leak, C87_mesh, C87_no_leak.
* the primitives of `PrimFloat`/`PrimInt63` (`PrimFloat.abs`, `PrimFloat.add`, `PrimFloat.div`, `PrimFloat.eqb`, `PrimFloat.float`, `PrimFloat.frshiftexp`, `PrimFloat.ldshiftexp`, `PrimFloat.leb`, `PrimFloat.ltb`, `PrimFloat.mul`, `PrimFloat.normfr_mantissa`, `PrimFloat.of_uint63`, `PrimFloat.opp`, `PrimFloat.sqrt`, `PrimFloat.sub`, `PrimInt63.eqb`, `PrimInt63.int`, `PrimInt63.land`, `PrimInt63.lor`, `PrimInt63.lsl`, `PrimInt63.lsr`, `PrimInt63.sub`): C18_null_segment_refuted, C20_parallel_dart_refuted, C37_mutual_refuted, C42_unused_refuted, C60_null_column_refuted, C66_stale_radius_refuted, C72_second_refuted, C74_added_apart_refuted, C77_open_fan_refuted, C77_one_triangle_sheet_refuted, C79_closest_refuted, C81_null_row_refuted, C82_full_row_refuted, C83_full_rows_refuted, C86_outward_refuted, C86_flat_refuted.
* `ClassicalDedekindReals.sig_forall_dec`, `ClassicalDedekindReals.sig_not_dec`, `FunctionalExtensionality.functional_extensionality_dep`; and the primitives of `PrimFloat`/`PrimInt63` (`PrimFloat.abs`, `PrimFloat.add`, `PrimFloat.div`, `PrimFloat.eqb`, `PrimFloat.float`, `PrimFloat.frshiftexp`, `PrimFloat.ldshiftexp`, `PrimFloat.leb`, `PrimFloat.ltb`, `PrimFloat.mul`, `PrimFloat.normfr_mantissa`, `PrimFloat.of_uint63`, `PrimFloat.opp`, `PrimFloat.sqrt`, `PrimFloat.sub`, `PrimInt63.eqb`, `PrimInt63.int`, `PrimInt63.land`, `PrimInt63.lor`, `PrimInt63.lsl`, `PrimInt63.lsr`, `PrimInt63.sub`): C67_not_global_refuted, C69_small_slope_refuted, C79_cleared_refuted.
