{"id": "C01", "title": "In-place sorting is correct and memory safe", "statement": "Each of the quicksort overloads (plain indices, keys with a companion index array, and the sampler's private copy), called on a valid index range, terminates, never touches memory outside the range, leaves the range sorted, is a permutation of what was there, and moves the companion array by the same permutation; everything outside the range is unchanged.", "quantifier": "every array, every range left<=right inside it, every key type with a strict weak order (so every array of finite doubles or of size_t)", "why_tests_cant": "the Hoare partition relies on sentinel arguments for its unguarded inner scans; a violating array can have any length, and out-of-range reads are usually silent", "anchors": ["src/Meshing/MeshingMemoryHandler.cpp: quicksort (3 overloads)", "src/Meshing/MeshingRandomSampler.cpp: quicksort", "src/Meshing/MeshingSmartTree.cpp: quicksort"]}
{"id": "C02", "title": "Growable arrays behave as append-only sequences", "statement": "Starting from a capacity of at least one, any sequence of add_entry calls leaves exactly the appended values in order, the count equals the number of calls, the capacity stays strictly above the count and no write is out of bounds. With capacity zero the first call already writes out of bounds.", "quantifier": "every sequence of appended values of any length and every initial capacity", "why_tests_cant": "an off-by-one in the grow test shows up only at particular count/capacity pairs", "anchors": ["src/Meshing/MeshingMemoryHandler.cpp: add_entry (5 overloads)", "src/Meshing/MeshingSmartTree.cpp: add_entry"]}
{"id": "C03", "title": "Uniform random numbers lie in [0,1)", "statement": "Whatever the seed and however many numbers were drawn before, generate_uniform_random_number returns a value u with 0 <= u < 1, never indexes its 1220-entry state out of bounds, and depends only on the seed and the number of previous draws.", "quantifier": "every 64-bit seed (including 0) and every number of draws", "why_tests_cant": "every caller indexes arrays with size_t(u*n); a single u=1.0 at an unlucky draw is out of bounds and the state space is about 2^65000", "anchors": ["src/Meshing/MeshingRandomSampler.cpp: initiate_random_number_generator", "src/Meshing/MeshingRandomSampler.cpp: generate_uniform_random_number"]}
{"id": "C04", "title": "The random stream is exact: floating point never rounds", "statement": "Every intermediate value of the generator is an integer multiple of 2^-53 of magnitude at most 1, so every double operation it performs is exact; the stream is the integer subtract-with-borrow stream divided by 2^53, independent of rounding mode.", "quantifier": "every seed, every number of draws, every rounding function that is the identity on representable numbers", "why_tests_cant": "rounding differences would appear at isolated draws out of 2^53 possibilities", "anchors": ["src/Meshing/MeshingRandomSampler.cpp: generate_uniform_random_number"]}
{"id": "C05", "title": "Box and simplex sampling stay inside the domain", "statement": "sample_uniformly_from_box returns a point inside the closed box; sample_uniformly_from_simplex returns a convex combination of the given corners (weights non-negative, summing to one).", "quantifier": "every box, every list of corners, every outcome of the random numbers", "why_tests_cant": "ranges over every random outcome and corner list", "anchors": ["src/Meshing/MeshingRandomSampler.cpp: sample_uniformly_from_box", "src/Meshing/MeshingRandomSampler.cpp: sample_uniformly_from_simplex"]}
{"id": "C06", "title": "Discrete sampling picks the cell that contains the random number", "statement": "sample_uniformly_from_discrete_cdf terminates, returns an index below n, and for a nondecreasing cdf with positive total returns a cell whose interval contains u*total; with zero total it returns floor(n*u). The hand-written searches used for choosing an active edge/face do the same.", "quantifier": "every nondecreasing cdf of every length and every u in [0,1)", "why_tests_cant": "binary-search boundary mistakes need particular cdf/plateau shapes of unbounded length", "anchors": ["src/Meshing/MeshingRandomSampler.cpp: sample_uniformly_from_discrete_cdf", "src/Meshing/MeshingVoroCrustSampler.cpp: sample_active_edges_uniformly", "src/Meshing/MeshingVoroCrustSampler.cpp: sample_active_faces_uniformly"]}
{"id": "C07", "title": "The point tree contains every added point exactly once, in search order", "statement": "After any history of add_tree_point calls (with the automatic rebalances they trigger) and explicit balanced rebuilds, the tree reaches every stored point exactly once, no link is dangling, and along the splitting axis of each node the right subtree is strictly greater and the left subtree is less or equal.", "quantifier": "every sequence of insertions and rebuilds, any dimension >= 1, any coordinates (including duplicates)", "why_tests_cant": "histories are unbounded and the order of splits depends on all previous points", "anchors": ["src/Meshing/MeshingSmartTree.cpp: add_tree_point", "src/Meshing/MeshingSmartTree.cpp: kd_tree_add_point", "src/Meshing/MeshingSmartTree.cpp: kd_tree_build_balanced", "src/Meshing/MeshingSmartTree.cpp: kd_tree_balance_quicksort", "src/Meshing/MeshingSmartTree.cpp: kd_tree_quicksort_adjust_target_position"]}
{"id": "C08", "title": "Nearest-point queries are exact", "statement": "get_closest_tree_point returns a stored point at minimal Euclidean distance to the query together with that distance (exact arithmetic), for the query-by-point form, the query-by-index form (which never returns the index itself), and the forms that exclude a list of indices.", "quantifier": "every reachable tree, every query, every exclusion list, every initial search bound", "why_tests_cant": "a wrong prune loses the true nearest point only for particular relative positions", "anchors": ["src/Meshing/MeshingSmartTree.cpp: get_closest_tree_point", "src/Meshing/MeshingSmartTree.cpp: kd_tree_get_closest_seed"]}
{"id": "C09", "title": "Filtered nearest-point queries are exact", "statement": "The flat-array variants used during seeding/meshing return the minimal-distance point among those with non-negative dot product with a direction (and other than a given index), and report failure (unchanged outputs) exactly when there is none nearer than the initial bound.", "quantifier": "every point array, direction and query", "why_tests_cant": "depends on all point positions", "anchors": ["src/Meshing/MeshingVoronoiMesher.cpp: get_closest_tree_point (3 overloads)", "src/Meshing/MeshingVoronoiMesher.cpp: kd_tree_get_closest_seed"]}
{"id": "C10", "title": "Range queries are complete and duplicate free", "statement": "get_tree_points_in_sphere returns every stored point at distance < r from the query, no point at squared distance >= (1+2e-6) r^2, and no point twice. Points in the tolerance shell between the two radii may or may not be returned.", "quantifier": "every reachable tree, query and radius r >= 0", "why_tests_cant": "a wrong prune loses points only for particular configurations", "anchors": ["src/Meshing/MeshingSmartTree.cpp: get_tree_points_in_sphere", "src/Meshing/MeshingSmartTree.cpp: kd_tree_get_seeds_in_sphere", "src/Meshing/MeshingVoronoiMesher.cpp: get_tree_points_in_sphere", "src/Meshing/MeshingVoronoiMesher.cpp: kd_tree_get_seeds_in_sphere"]}
{"id": "C11", "title": "Re-enumerating points for locality only renames them", "statement": "re_enumerate_points_for_better_memory_access applies one permutation consistently to points, sizes, ids and tree links: it loses and duplicates nothing, and queries afterwards give the same answers as before up to that permutation.", "quantifier": "every tree", "why_tests_cant": "a permutation applied in the wrong direction is invisible on symmetric samples", "anchors": ["src/Meshing/MeshingSmartTree.cpp: re_enumerate_points_for_better_memory_access", "src/Meshing/MeshingSmartTree.cpp: kd_tree_get_nodes_order", "src/Meshing/MeshingVoronoiMesher.cpp: re_enumerate_points_for_better_memory_access", "src/Meshing/MeshingVoronoiMesher.cpp: kd_tree_get_nodes_order"]}
{"id": "C12", "title": "The point graph is a set of links", "statement": "After any sequence of graph_connect_nodes / graph_connect calls, graph_connected(i,j) holds exactly if i was connected to j, connecting twice changes nothing, graph_connect_nodes makes the relation symmetric, and neighbor lists contain no duplicates whatever the number of neighbors.", "quantifier": "every sequence of connect calls", "why_tests_cant": "adjacency rows are reallocated when full, so errors occur at particular degrees", "anchors": ["src/Meshing/MeshingSmartTree.cpp: graph_connect_nodes", "src/Meshing/MeshingSmartTree.cpp: graph_connect", "src/Meshing/MeshingSmartTree.cpp: graph_connected", "src/Meshing/MeshingSmartTree.cpp: reset_graph"]}
{"id": "C13", "title": "Attributes are read in bounds", "statement": "For every stored attribute record and every index k of an attribute in it, get_tree_point_attrib(i,k) returns that attribute, and set_tree_point_attrib changes that attribute of that point only; for points without a record and for indices at least the length of the record it reports failure. The index just after the last attribute passes the test and is read out of bounds.", "quantifier": "every attribute record and attribute index", "why_tests_cant": "the index test interacts with the length stored inside the record; tests use fixed records", "anchors": ["src/Meshing/MeshingSmartTree.cpp: get_tree_point_attrib", "src/Meshing/MeshingSmartTree.cpp: set_tree_point_attrib"]}
{"id": "C14", "title": "CSV seed files survive a save/load cycle", "statement": "Splitting a line on the separator and joining again is the identity; every saved record is read back as the same record in the same order; lines with missing fields are either skipped or cause an out-of-bounds access, and which of the two happens per reader is determined.", "quantifier": "every list of records and every file content", "why_tests_cant": "file contents are unbounded; empty lines and short lines are the interesting inputs", "anchors": ["src/Meshing/MeshingVoroCrust.cpp: get_tokens", "src/Meshing/MeshingVoroCrust.cpp: read_seeds_csv", "src/Meshing/MeshingVoronoiMesher.cpp: save_spheres_csv", "src/Meshing/MeshingVoronoiMesher.cpp: load_spheres_csv", "src/Meshing/MeshingVoronoiMesher.cpp: get_tokens", "src/Meshing/MeshingSmartTree.cpp: load_tree_csv", "src/Meshing/MeshingSmartTree.cpp: get_tokens"]}
{"id": "C15", "title": "Sparse vectors behave as finite maps", "statement": "After any sequence of set_sparse_vector_entry calls, get_sparse_vector_entry(row) returns the last value set for that row, or 0 if it was never set or was last set to a value below the drop tolerance; entries stay strictly sorted and within capacity.", "quantifier": "every sequence of (row,value) updates", "why_tests_cant": "insertion, overwrite, deletion and growth interact in unboundedly many orders", "anchors": ["src/Meshing/MeshingLinearSolver.cpp: set_sparse_vector_entry", "src/Meshing/MeshingLinearSolver.cpp: get_sparse_vector_entry", "src/Meshing/MeshingLinearSolver.cpp: find_entry_position_binary"]}
{"id": "C16", "title": "Sparse dot products equal the dense dot product", "statement": "get_dot_product of two sparse vectors, and of a sparse with a dense vector, equals the sum over all rows of the products of entries.", "quantifier": "every pair of well-formed sparse vectors", "why_tests_cant": "early-exit conditions on index ranges", "anchors": ["src/Meshing/MeshingLinearSolver.cpp: get_dot_product (2 overloads)"]}
{"id": "C17", "title": "Cholesky solve solves the system", "statement": "If factorization reports success, L L^T = A with positive diagonal, and the two triangular solves return x with A x = b (exact arithmetic).", "quantifier": "every symmetric matrix of every size and every right-hand side", "why_tests_cant": "all sizes and all matrices", "anchors": ["src/Meshing/MeshingLinearSolver.cpp: Cholesky_factorization", "src/Meshing/MeshingLinearSolver.cpp: Cholesky_Solver"]}
{"id": "C18", "title": "Closest-point projections are closest", "statement": "project_to_3d_line_segment returns a point of the segment at minimal distance; project_to_3d_line returns the foot of the perpendicular; project_to_3d_triangle returns a distance not exceeding the distance to any point of the triangle, attained at a point that lies in the triangle unless the inside test met a degenerate sub-triangle; distances returned equal the distance to the returned point.", "quantifier": "every segment/line/non-degenerate triangle and query point", "why_tests_cant": "continuous domain", "anchors": ["src/Meshing/MeshingGeometricalMethods.h: project_to_3d_line_segment", "src/Meshing/MeshingGeometricalMethods.h: project_to_3d_line", "src/Meshing/MeshingGeometricalMethods.cpp: project_to_3d_triangle"]}
{"id": "C19", "title": "Normals and normal components", "statement": "get_3d_triangle_normal returns a unit vector orthogonal to all edges when it reports success, get_3d_triangle_area the triangle area; get_normal_component returns a unit vector orthogonal to the given orthonormal basis; normalize_vector returns a unit vector or reports failure.", "quantifier": "every triangle / basis / vector", "why_tests_cant": "continuous domain", "anchors": ["src/Meshing/MeshingGeometricalMethods.cpp: get_normal_component", "src/Meshing/MeshingGeometricalMethods.cpp: normalize_vector", "src/Meshing/MeshingGeometricalMethods.cpp: get_3d_triangle_area", "src/Meshing/MeshingGeometricalMethods.cpp: get_3d_triangle_normal"]}
{"id": "C20", "title": "Power vertices have equal power", "statement": "The two-sphere power vertex lies on the line of centers and has equal power distance to both spheres; likewise for n spheres.", "quantifier": "all spheres with distinct centers", "why_tests_cant": "continuous domain", "anchors": ["src/Meshing/MeshingGeometricalMethods.cpp: get_power_vertex"]}
{"id": "C21", "title": "Reading and merging surface files keeps connectivity valid", "statement": "Every face read from an OBJ file with in-range indices refers to existing vertices; merging several models offsets each model's faces so that the geometric triangles are the union of the inputs' triangles in order.", "quantifier": "every list of models", "why_tests_cant": "numbers and sizes of models are unbounded", "anchors": ["src/Meshing/MeshingPolyMesh.cpp: read_input_obj_file", "src/Meshing/MeshingVoroCrust.cpp: execute"]}
{"id": "C22", "title": "Welding nearby points", "statement": "weld_nearby_points with tolerance h: kept points are pairwise at distance >= h, every original point is within h of its representative, every face refers to the representatives of its original corners, faces that collapse are dropped and no others, and indices are valid; when nothing is welded the mesh is unchanged.", "quantifier": "every mesh and tolerance", "why_tests_cant": "order-dependent clustering, all geometries", "anchors": ["src/Meshing/MeshingPolyMesh.cpp: weld_nearby_points"]}
{"id": "C23", "title": "Removing isolated points preserves the triangles", "statement": "remove_isolated_points keeps exactly the points used by some face, in order, and re-indexes faces so each face has the same corner coordinates as before.", "quantifier": "every mesh with in-range indices", "why_tests_cant": "all meshes", "anchors": ["src/Meshing/MeshingPolyMesh.cpp: remove_isolated_points"]}
{"id": "C24", "title": "Point-to-face incidence is exact", "statement": "build_point_faces lists for every point exactly the faces having it as a corner (with multiplicity, in increasing order), including an empty list for isolated points.", "quantifier": "every mesh with in-range indices", "why_tests_cant": "all meshes", "anchors": ["src/Meshing/MeshingPolyMesh.cpp: build_point_faces"]}
{"id": "C25", "title": "Edge-face counts and water-tightness", "statement": "On triangles with three different corners get_num_edge_faces counts exactly the faces having both end points among their corners and get_edge_faces lists exactly them; for any polygons the list never overruns the array sized by the count; water_tight_model answers true exactly if no edge of a face belongs to that face only (edges with more than two faces pass).", "quantifier": "every mesh", "why_tests_cant": "all meshes; count and fill use different loops", "anchors": ["src/Meshing/MeshingPolyMesh.cpp: get_num_edge_faces", "src/Meshing/MeshingPolyMesh.cpp: get_edge_faces", "src/Meshing/MeshingPolyMesh.cpp: water_tight_model"]}
{"id": "C26", "title": "Global orientation repair", "statement": "impose_consistent_orientation only permutes corners inside faces; when it finishes every pair of faces sharing an edge traverses it in opposite directions whenever the model is orientable.", "quantifier": "every manifold mesh and face order", "why_tests_cant": "dependence on face order", "anchors": ["src/Meshing/MeshingPolyMesh.cpp: impose_consistent_orientation"]}
{"id": "C27", "title": "Coverage tests find every covering sphere", "statement": "point_covered, edge_covered and face_covered against a tree of spheres answer true only if one sphere contains the point (the whole edge, the whole triangle) within the tested fraction of its radius, and answer false only if no sphere that contains the point (the corners) passes that test, provided the radii vary with slope at most L < 1 between spheres within twice the radius of each other; without that provision a covered point may be reported uncovered; with no spheres nothing is covered.", "quantifier": "every set of spheres, every L in [0,1), every alpha and every query point, edge or triangle", "why_tests_cant": "The search radius is extrapolated from the nearest sphere only; whether it suffices depends on all radii and distances, which cannot be enumerated.", "anchors": ["src/Meshing/MeshingSpheresMethods.cpp:point_covered", "src/Meshing/MeshingSpheresMethods.cpp:edge_covered", "src/Meshing/MeshingSpheresMethods.cpp:face_covered"]}
{"id": "C28", "title": "Brute-force Lipschitz smoothing yields the largest admissible radii", "statement": "impose_lipschitz_continuity_brute terminates; afterwards r_i <= r_j + L*dist(i,j) for all pairs; no radius increased; the result is the largest such assignment below the input; it is idempotent.", "quantifier": "every finite set of spheres, every L >= 0", "why_tests_cant": "the in-place sweep order could matter; all sets of spheres", "anchors": ["src/Meshing/MeshingSpheresMethods.cpp: impose_lipschitz_continuity_brute"]}
{"id": "C29", "title": "Neighbourhood Lipschitz smoothing", "statement": "The tree-based impose_lipschitz_continuity terminates after at most as many iterations as there are spheres, changes nothing but radii, never increases a radius, never goes below the largest L-Lipschitz radii, reports whether it changed anything, leaves L-Lipschitz radii alone, and establishes r_i <= r_j + L*dist(i,j) whenever sphere j is centred within 2 r_i of sphere i, which is what the coverage tests need; the condition over all pairs is not guaranteed; with no spheres it reads out of bounds.", "quantifier": "every set of spheres with positive radii, every L >= 0", "why_tests_cant": "Termination and the reached bound are statements about all iterations on all inputs.", "anchors": ["src/Meshing/MeshingSpheresMethods.cpp:impose_lipschitz_continuity"]}
{"id": "C30", "title": "All overlapping spheres are found", "statement": "get_overlapping_spheres returns, once each, every sphere of the tree that overlaps the given sphere, and nothing that does not overlap it (up to 1e-10), provided the radii are L-Lipschitz over all pairs, or the given sphere is in the tree and the condition of C29 holds.", "quantifier": "every set of spheres, L in [0,1), every query sphere", "why_tests_cant": "The search radius is extrapolated from one sphere; see C27.", "anchors": ["src/Meshing/MeshingSpheresMethods.cpp:get_overlapping_spheres"]}
{"id": "C31", "title": "Surface patches partition the faces", "statement": "Over all patches, initiate_active_pool schedules every face exactly once whatever the number of faces and patches.", "quantifier": "every number of faces and patches", "why_tests_cant": "boundary arithmetic with integer division", "anchors": ["src/Meshing/MeshingVoroCrustSampler.cpp: initiate_active_pool"]}
{"id": "C32", "title": "Active element subdivision tiles the parent", "statement": "The children produced by refine_active_edge/refine_active_face cover the parent exactly, have equal size, and decoding a child's subdivision path with get_active_*_corners yields exactly the corners computed when it was created, at every depth.", "quantifier": "every element, every refinement depth and path", "why_tests_cant": "paths are unbounded", "anchors": ["src/Meshing/MeshingVoroCrustSampler.cpp: refine_active_edge", "src/Meshing/MeshingVoroCrustSampler.cpp: refine_active_face", "src/Meshing/MeshingVoroCrustSampler.cpp: get_active_edge_corners", "src/Meshing/MeshingVoroCrustSampler.cpp: get_active_face_corners"]}
{"id": "C33", "title": "An emptied active pool means the surface is covered", "statement": "Elements are dropped from the pool only if some sphere covers them completely, so when the pool is empty every point of every input face (edge) lies inside some sphere.", "quantifier": "every face set, every sequence of added spheres and refinements, every schedule", "why_tests_cant": "coverage is a statement about uncountably many points and every random outcome", "anchors": ["src/Meshing/MeshingVoroCrustSampler.cpp: refine_active_pool", "src/Meshing/MeshingVoroCrustSampler.cpp: refine_active_pool_edges", "src/Meshing/MeshingVoroCrustSampler.cpp: refine_active_face", "src/Meshing/MeshingVoroCrustSampler.cpp: generate_surface_spheres", "src/Meshing/MeshingSpheresMethods.cpp: face_covered", "src/Meshing/MeshingSpheresMethods.cpp: edge_covered"]}
{"id": "C34", "title": "Refinement does not depend on the number of threads", "statement": "refine_active_pool produces the same pool (same elements, same order) for every number of threads; no element is lost or duplicated at chunk boundaries.", "quantifier": "every pool size and every thread count >= 1", "why_tests_cant": "chunk arithmetic for all size/thread combinations, all schedules", "anchors": ["src/Meshing/MeshingVoroCrustSampler.cpp: refine_active_pool"]}
{"id": "C35", "title": "Surface seed pairs lie on their three spheres", "statement": "The two seeds generated for a triple of overlapping spheres lie on all three spheres, are mirror images in the plane of the centers, and the reported pair is accepted only if no sphere strictly contains either seed.", "quantifier": "every triple of spheres with non-collinear centers", "why_tests_cant": "continuous domain", "anchors": ["src/Meshing/MeshingVoroCrustSampler.cpp: generate_surface_seeds", "src/Meshing/MeshingGeometricalMethods.cpp: get_power_vertex"]}
{"id": "C36", "title": "Seed coloring computes connected components", "statement": "color_surface_seeds gives two seeds the same region id exactly if they are connected by a chain of non-separated seeds; ids are dense, the exterior component gets id 0 and the others keep their relative order.", "quantifier": "every seed graph", "why_tests_cant": "all graphs of all sizes", "anchors": ["src/Meshing/MeshingVoroCrustSampler.cpp: color_surface_seeds"]}
{"id": "C37", "title": "Partners of seeds", "statement": "After the upper and lower seed lists are concatenated, the partner index of every seed designates the same physical seed as before, with normals and spheres unchanged; when no ball comes within 1e-10 of a seed of another triple, seeds a of the two lists are the two points of one pair and name each other.", "quantifier": "every pair of seed lists that the generation produces", "why_tests_cant": "index-offset mistakes, all sizes", "anchors": ["src/Meshing/MeshingVoroCrustSampler.cpp: color_surface_seeds", "src/Meshing/MeshingVoroCrustSampler.cpp: generate_surface_seeds"]}
{"id": "C38", "title": "Accepted surface mesh is closed", "statement": "validate_surface_mesh accepts only if every edge incident to a surface sphere has exactly two triangles, and otherwise shrinks at least one sphere; edges between two sharp-feature spheres are not checked.", "quantifier": "every triangle set over surface/edge/corner spheres", "why_tests_cant": "all meshes", "anchors": ["src/Meshing/MeshingVoroCrustSampler.cpp: validate_surface_mesh"]}
{"id": "C39", "title": "Volume region merging", "statement": "generate_explicit_mesh assigns the same final region to seeds of two patches exactly if they are linked by a chain of faces between interior seeds; the id chase terminates.", "quantifier": "every list of faces and region ids", "why_tests_cant": "all face orders", "anchors": ["src/Meshing/MeshingVoroCrust.cpp: generate_explicit_mesh"]}
{"id": "C40", "title": "Cell-to-face incidence of the volume mesh", "statement": "For every non-exterior cell the reported face list contains exactly the faces bounding it, each once per side, in increasing order, within the allocated size.", "quantifier": "every face list and region assignment", "why_tests_cant": "all meshes", "anchors": ["src/Meshing/MeshingVoroCrust.cpp: generate_explicit_mesh"]}
{"id": "C41", "title": "PFLOTRAN file: cell numbering, connections, areas and volumes", "statement": "save_vcg_file_pflotran numbers the non-exterior cells densely in order, writes every face adjacent to a meshed cell, and writes for each planar convex face its true area; counts in headers equal the number of records written.", "quantifier": "every mesh", "why_tests_cant": "all meshes; header counts and records come from separate loops", "anchors": ["src/Meshing/MeshingVoronoiMesher.cpp: save_vcg_file_pflotran"]}
{"id": "C42", "title": "Extracted Voronoi faces are valid polygons owned once", "statement": "generate_3d_voronoi_mesh: every emitted face has at least three distinct vertices, all vertex ids are in range and all ids used, the face is attributed to exactly one unordered seed pair, exterior-exterior faces are never emitted, and the counting pass and the filling pass agree.", "quantifier": "every set of cells produced by clipping", "why_tests_cant": "all meshes; two loops must agree", "anchors": ["src/Meshing/MeshingVoronoiMesher.cpp: generate_3d_voronoi_mesh"]}
{"id": "C43", "title": "Clipped cells have the Voronoi property", "statement": "A vertex of a cell accepted by get_3d_Voronoi_cell is (up to the stated tolerance) at least as close to its own seed as to every other seed of the whole set, although only seeds in a local ball were examined.", "quantifier": "every seed set and every seed with a bounded cell", "why_tests_cant": "global property established from a local search", "anchors": ["src/Meshing/MeshingVoronoiMesher.cpp: get_3d_Voronoi_cell", "src/Meshing/MeshingVoronoiMesher.cpp: trim_vertex", "src/Meshing/MeshingVoronoiMesher.cpp: construct_initial_polytope"]}
{"id": "C44", "title": "Simultaneously active front seeds are separated", "statement": "Two front seeds processed in parallel are farther apart than the conflict distance, so their insertions cannot interfere.", "quantifier": "every front", "why_tests_cant": "depends on front order and all sizes", "anchors": ["src/Meshing/MeshingVoronoiMesher.cpp: generate_interior_seeds"]}
{"id": "C45", "title": "Imposed interior seeds", "statement": "Every imposed point that survives lies outside all surface, edge and corner spheres, gets the region of its nearest seed, and is never exterior; survivors are appended in order after the existing seeds, which are unchanged.", "quantifier": "every set of spheres, seeds and imposed points, every thread schedule", "why_tests_cant": "thread schedules: the number of survivors is counted without synchronisation", "anchors": ["src/Meshing/MeshingVoronoiMesher.cpp: impose_interior_seeds"]}
{"id": "C46", "title": "Shuffles are permutations", "statement": "The random shuffles of front and seed indices permute their range, never index outside it, and keep the surface part in place.", "quantifier": "every length and every sequence of random numbers in [0,1)", "why_tests_cant": "all lengths and random outcomes", "anchors": ["src/Meshing/MeshingVoroCrust.cpp: generate_interior_seeds", "src/Meshing/MeshingVoronoiMesher.cpp: generate_interior_seeds"]}
{"id": "C47", "title": "Invalidated seeds are compacted consistently", "statement": "Removing invalidated seeds keeps position, size and region arrays aligned and in order and never removes a surface or imposed seed.", "quantifier": "every mask", "why_tests_cant": "all masks", "anchors": ["src/Meshing/MeshingVoroCrust.cpp: generate_interior_seeds"]}
{"id": "C48", "title": "Configuration file parsing", "statement": "execute reads the configuration keyword by keyword: later lines override earlier ones, unknown keywords and blank lines are ignored, input files accumulate in order; a value keyword with fewer than three tokens is an out-of-bounds read.", "quantifier": "every configuration file", "why_tests_cant": "all file contents", "anchors": ["src/Meshing/MeshingVoroCrust.cpp: execute"]}
{"id": "C49", "title": "Command line decisions", "statement": "vc_mesh prints usage and exits 0 for no arguments or -h, exits 1 for an unknown request, runs the mesher exactly if -vc is present with a value (which is the token after the first -vc), and throws if the value is missing.", "quantifier": "every argument vector", "why_tests_cant": "all argument vectors", "anchors": ["src/Meshing/MeshingOptionParser.h: parse", "src/Meshing/MeshingOptionParser.h: parse_options", "src/Meshing/MeshingOptionParser.h: get_option_value", "src/Meshing/vc_mesh.cxx: main"]}
{"id": "C50", "title": "Exodus writer protocol", "statement": "Every call into the Exodus library carries the identifier of a file that is open at that moment, or -1 when the writer has no file; an exception leaves the writer as it was, and closing or initialising without a file, or closing twice, raises one before any call; after destruction every file is closed provided no file was opened over an open one; what reaches the library is what was given (coordinates per axis, blocks, connectivity, maps, node sets), and a failing library call raises an exception. The code violates the wider expectations: writing without a file, opening twice, setCoordinates, side sets and set names are refuted.", "quantifier": "every sequence of method calls with any arguments, and every library whose answers depend on the history of calls", "why_tests_cant": "call histories are unbounded", "anchors": ["src/Meshing/MeshingExodusIO.cpp: openFile", "src/Meshing/MeshingExodusIO.cpp: initializeFile", "src/Meshing/MeshingExodusIO.cpp: setCoordinates", "src/Meshing/MeshingExodusIO.cpp: closeFile", "src/Meshing/MeshingExodusIO.cpp: hasOpenFile"]}
{"id": "C51", "title": "Corner spheres are disjoint and bounded", "statement": "Corner spheres produced by generate_corner_spheres are pairwise disjoint, have radius at most rmax and 0.4 of the distance to the nearest sharp/non-smooth sample, and satisfy the Lipschitz bound.", "quantifier": "every set of sharp corners", "why_tests_cant": "all configurations", "anchors": ["src/Meshing/MeshingVoroCrustSampler.cpp: generate_corner_spheres"]}
{"id": "C52", "title": "Sharp feature detection", "statement": "Feature detection on clean models reports an edge as sharp exactly if it does not have two incident faces or the dihedral test fails, and a corner as sharp exactly if its number of distinct sharp edges is not 2 (and not 0) or the two edges bend beyond the threshold.", "quantifier": "every mesh and threshold", "why_tests_cant": "all meshes", "anchors": ["src/Meshing/MeshingVoroCrustSampler.cpp: detect_features_generate_point_clouds_clean"]}
{"id": "C53", "title": "Degenerate faces are dropped before sampling", "statement": "The feature detection with tolerance removes every degenerate face and processes every other face.", "quantifier": "every list of faces and degeneracy pattern", "why_tests_cant": "the removal swaps with the last face while iterating; failures need the degenerate face in a particular position", "anchors": ["src/Meshing/MeshingVoroCrustSampler.cpp: detect_features_generate_point_clouds", "src/Meshing/MeshingVoroCrustSampler.cpp: dont_detect_features_generate_point_clouds"]}
{"id": "C54", "title": "Samplers draw from different random streams", "statement": "From one clock value, the seeds given to two different threads differ as long as the clock value is at least t(t+1) for the larger thread number t. The seeds of the n1-th and n2-th (n1 < n2) default-constructed samplers differ when n2(n2-1) is at most the clock value or the clock value is below 1000 n2. Outside those ranges seeds can coincide, and thread 0 always shares the seed of the first default-constructed sampler.", "quantifier": "every clock value, every pair of thread numbers and every pair of construction ranks", "why_tests_cant": "a collision depends on the wall clock, the number of threads and the number of samplers created before", "anchors": ["src/Meshing/MeshingRandomSampler.cpp: MeshingRandomSampler()", "src/Meshing/MeshingRandomSampler.cpp: MeshingRandomSampler(size_t thread_id)"]}
{"id": "C55", "title": "Directions on the unit sphere", "statement": "Sampling a direction from the unit sphere returns a vector of the requested dimension with norm exactly one (in exact arithmetic) whenever every uniform draw it consumes is positive; a zero draw, which the generator can return, makes it take the logarithm of zero.", "quantifier": "every number of dimensions and every stream of uniform draws", "why_tests_cant": "needs all streams; a zero draw has probability 2^-53", "anchors": ["src/Meshing/MeshingRandomSampler.cpp: sample_uniformly_from_unit_sphere", "src/Meshing/MeshingRandomSampler.cpp: generate_uniform_random_number"]}
{"id": "C56", "title": "Spoke trimming is exact", "statement": "trim_spoke, given a spoke that starts at an origin, runs along a unit direction and has a length, and a seed on whose cell the spoke is traced, returns the length at which the spoke first meets the bisector between that seed and another active seed (not in the list of already involved ones), together with that other seed; it leaves the spoke unchanged exactly when no other active seed lying ahead cuts it earlier.", "quantifier": "every reachable tree, origin, unit direction and non-negative length", "why_tests_cant": "the answer depends on geometry of all stored seeds and on the pruning bound of the recursive search", "anchors": ["src/Meshing/MeshingSmartTree.cpp: trim_spoke", "src/Meshing/MeshingSmartTree.cpp: kd_tree_trim_spoke"]}
{"id": "C57", "title": "Rebuilt trees are balanced", "statement": "A balanced rebuild of n points whose coordinates are pairwise distinct along every axis gives a tree of height at most 1 + floor(log2 n). Repeated coordinates can destroy the balance.", "quantifier": "every number of points and every coordinates", "why_tests_cant": "holds for every size; a test sees only a few sizes", "anchors": ["src/Meshing/MeshingSmartTree.cpp: kd_tree_build_balanced", "src/Meshing/MeshingSmartTree.cpp: kd_tree_balance_quicksort"]}
{"id": "C58", "title": "Bounding box is exact", "statement": "After any history of insertions, rebuilds and re-enumerations the recorded bounding box has, on every axis, the least and the greatest coordinate of all points added so far.", "quantifier": "every sequence of calls, any dimension", "why_tests_cant": "the box is updated incrementally and must survive rebuilds", "anchors": ["src/Meshing/MeshingSmartTree.cpp: add_tree_point", "src/Meshing/MeshingSmartTree.cpp: get_tree_bounding_box"]}
{"id": "C59", "title": "Nearest point across a sharp feature", "statement": "The non-smooth variants of get_closest_tree_point return the nearest active point among those which do not satisfy the smoothness criterion with respect to the query (by distance tolerance, angle with stored normal, given normal, or any of several given normals), and report none exactly when there is no such point nearer than the initial bound.", "quantifier": "every reachable tree with stored normals, every query, tolerance and threshold", "why_tests_cant": "the filter interacts with the pruning of the recursive search", "anchors": ["src/Meshing/MeshingSmartTree.cpp: get_closest_non_smooth_tree_point", "src/Meshing/MeshingSmartTree.cpp: get_closest_non_smooth_tree_edge_point"]}
{"id": "C60", "title": "The least-squares solver minimises the residual", "statement": "LS_QR_Solver returns x with |A x - b| <= |A w - b| for every w, and A x = b for a square matrix (exact arithmetic), when every column is farther than 1e-10 from the span of the previous ones; the Householder factors satisfy Q orthogonal, Q R = A, R upper triangular.", "quantifier": "every matrix of every size and every right-hand side", "why_tests_cant": "all sizes and all matrices", "anchors": ["src/Meshing/MeshingLinearSolver.cpp: LS_QR_Solver", "src/Meshing/MeshingLinearSolver.cpp: householder"]}
{"id": "C61", "title": "Voronoi vertices are equidistant from their seeds", "statement": "get_Voronoi_vertex, given num_dim + 1 affinely independent seeds, returns a point at the same distance from all of them; with another number of seeds it returns false.", "quantifier": "every dimension and every set of affinely independent seeds", "why_tests_cant": "continuum of seed positions, all dimensions", "anchors": ["src/Meshing/MeshingSmartTree.cpp: get_Voronoi_vertex"]}
{"id": "C62", "title": "Angles", "statement": "get_point_angle returns the polar angle in [0, 2 pi) of every planar point away from the tolerance bands below the axes; cos_angle returns the cosine of the angle at the middle point, within [-1, 1], or 1 when an arm is shorter than 1e-10.", "quantifier": "every point of the plane outside the tolerance bands; every triple of points in every dimension", "why_tests_cant": "continuous domain; sign and quadrant cases", "anchors": ["src/Meshing/MeshingGeometricalMethods.cpp: get_point_angle", "src/Meshing/MeshingGeometricalMethods.cpp: cos_angle"]}
{"id": "C63", "title": "Sliver resolution shrinks the least", "statement": "resolve_sliver reports no sphere exactly if no shrinkable sphere contains a point where three others meet; otherwise it reports such a sphere, the new radius is 0.95 of the distance to the nearer of the two meeting points (so both are left strictly outside, unless the centre is one of them and the radius becomes 0), and no other choice decreases a radius by less; the meeting points lie on the three spheres when the power vertex and normal are right.", "quantifier": "every number of spheres and every choice of fixed ones", "why_tests_cant": "The minimum ranges over all triplets and all spheres of inputs of any size.", "anchors": ["src/Meshing/MeshingSpheresMethods.cpp:resolve_sliver"]}
{"id": "C64", "title": "Generation of the surface seeds either shrinks spheres or delivers all pairs", "statement": "The generation of surface seeds always ends with one of two outcomes: (a) at least one surface sphere has a strictly smaller radius, no radius grows, nothing else of the spheres changes, and both seed lists are empty; (b) the spheres are unchanged, every seed is a point of a triple of overlapping spheres contained in no other ball and records its spheres and its partner, seeds of a list are distinct and at least a hundredth of their spheres' radii apart. Every triple that meets was settled: both points inside other balls, or both points are seeds, or it is half covered and a sphere was shrunk off a point or none could be. Outcome (a) has one of two causes: some three spheres meet in a pair with one point inside a fourth ball and the other outside all of them, or two different points of kept pairs on one side are closer than a hundredth of the radius of their sphere. Hence spheres with neither fault are never shrunk, and both points of every triple that meets become seeds unless both are inside other balls.", "quantifier": "every three sets of spheres with Lipschitz radii and every draw of directions that yields power vertices", "why_tests_cant": "global statement over all triples and a continuous domain", "anchors": ["src/Meshing/MeshingVoroCrustSampler.cpp: generate_surface_seeds", "src/Meshing/MeshingVoroCrustSampler.cpp: impose_lipschitz_continuity"]}
{"id": "C66", "title": "A round of surface samples", "statement": "Every sample proposed for the surface is a point of an active piece of its face; it is dropped only if an existing sphere, or a sphere proposed earlier in the same round, covers it; otherwise its radius is exactly the least of the size limits (maximum radius, 0.4 of the distance to points not smoothly connected, input sizing, slope and coverage limits of the overlapping spheres), raised to the minimum radius, and is positive.", "quantifier": "every mesh, pool reached by refinements, sets of spheres, random numbers and number of threads (run one after the other)", "why_tests_cant": "random numbers, real-valued geometry and all pools", "anchors": ["src/Meshing/MeshingVoroCrustSampler.cpp: sample_active_pool, sample_active_faces_uniformly"]}
{"id": "C65", "title": "Placing the surface spheres ends only with a covered surface and complete seeds", "statement": "When the generation of surface spheres returns, every point of the input surface is inside a sphere, every surface sphere is centred on the face it records and is not larger than the maximum radius, radii have the requested slope between each sphere and those near it; every seed is a point of a triple of overlapping spheres inside no other ball and records its partner; every triple of overlapping spheres that meets was treated (both points inside other balls, both are seeds, or exactly one is inside another ball); seeds are distinct and spaced; and the triangles of the lower seeds form a surface in which every edge at a surface sphere has exactly two triangles.", "quantifier": "every mesh, feature spheres, parameters, number of threads, random numbers, contents of uninitialised memory and number of passes, for which the routine returns", "why_tests_cant": "all random choices and all numbers of passes; the surface is a continuum", "anchors": ["src/Meshing/MeshingVoroCrustSampler.cpp: generate_surface_spheres"]}
{"id": "C67", "title": "Smoothing of the seed sizes of the volume mesh", "statement": "Smoothing the seed sizes always ends, keeps the centres, only shrinks sizes, makes sizes of near seeds vary with at most the given slope (up to 1e-10), and never shrinks a size below what some slope-respecting assignment below the given sizes would allow.", "quantifier": "every slope >= 0, every non-empty set of seeds with sizes", "why_tests_cant": "ranges over all seed sets; termination and optimality are not observable on examples", "anchors": ["src/Meshing/MeshingVoronoiMesher.cpp: impose_lipschitz_continuity"]}
{"id": "C68", "title": "Accepted darts of the interior front", "statement": "Every dart of an active seed that becomes a seed is within two radii of that seed, outside all surface, edge and corner spheres and all near seeds, nearest to a seed of the same region, and sized by the slope to it, the maximal size and the nearest sizing point; darts of one seed are outside the earlier ones; there are at most twenty.", "quantifier": "every state of the front, every draw, every slope in [1/4, 1)", "why_tests_cant": "the draws are random and the neighbourhood queries depend on all spheres", "anchors": ["src/Meshing/MeshingVoronoiMesher.cpp: generate_interior_seeds"]}
{"id": "C69", "title": "Interior seeding as a whole", "statement": "When interior seeding returns, the given seeds keep places, centres and regions and their sizes only shrank, and every added seed has the interior region of the seed nearest to it when it was added, is outside all given spheres, and respects the maximal size and the sizing points.", "quantifier": "every input and every sequence of draws, slope in [1/4, 1)", "why_tests_cant": "an invariant over an unbounded number of random rounds", "anchors": ["src/Meshing/MeshingVoronoiMesher.cpp: generate_interior_seeds"]}
{"id": "C70", "title": "PLY files contain the mesh", "statement": "save_Voronoi_tessellation writes every vertex and every face (corner count and corners) once and in order; with a cutting plane it writes exactly the faces with no corner behind the plane; the counts announced in the header equal the numbers of lines written.", "quantifier": "every list of vertices, list of faces and plane", "why_tests_cant": "all meshes; the header count and the lines come from separate loops", "anchors": ["src/Meshing/MeshingVoronoiMesher.cpp: save_Voronoi_tessellation"]}
{"id": "C71", "title": "The surface point cloud is a sample of the surface", "statement": "Without degenerate faces the surface point cloud holds, for every face, its three corners, its three edge midpoints and the requested number of further points of that face, then the requested number of points, each on the face selected by its random number in proportion to the areas; every point is labelled with its face and carries that face's oriented unit normal; the minimum surface size is the square root of the area per point.", "quantifier": "every list of points, list of non-degenerate triangles, random stream and number of points", "why_tests_cant": "the domain is continuous and the number of points is a million; tests see one stream", "anchors": ["src/Meshing/MeshingVoroCrustSampler.cpp: dont_detect_features_generate_point_clouds", "src/Meshing/MeshingVoroCrustSampler.cpp: detect_features_generate_point_clouds"]}
{"id": "C72", "title": "Sphere packing of the sharp edges", "statement": "The spheres generated for the sharp edges of the input have their centres on the edges, at pairwise different places. When the generation ends, every point of every sharp edge lies in a corner sphere or, reduced by sqrt(1 - ratio^2), in an edge sphere. Radii are positive, at most the given maximum, at most 0.4 times the distance to any feature that is not smoothly connected (but the minimal edge radius is always allowed) and at most the input size. They respect the Lipschitz constant locally, and no sphere is larger than 0.4 times the distance to the edge of an overlapping sphere, up to 1e-8. For an input with sharp corners only.", "quantifier": "All points, edges, point clouds, corner spheres, parameters and all sequences of random numbers.", "why_tests_cant": "The coverage of a continuum of points after a randomised loop with data-dependent ending; tests sample a few seeds and check no point of the edge in between.", "anchors": ["src/Meshing/MeshingVoroCrustSampler.cpp: generate_edge_spheres, sample_active_edges_uniformly"]}
{"id": "C73", "title": "The Exodus file contains the mesh", "statement": "When the Exodus export returns, the file was given the coordinates of every vertex (as single precision), and arrays from which a reader gets back the corners of every face and the faces of every cell that is not a ghost, in order, with ids counted from 1 and counts that match; the file is closed on success and on failure, and nothing is written after a failing call.", "quantifier": "every mesh whose counts fit a 32-bit int, every library behaviour and every conversion of coordinates", "why_tests_cant": "meshes are unbounded, and the library is not part of the tests", "anchors": ["src/Meshing/MeshingVoronoiMesher.cpp: save_exodus_file", "src/Meshing/MeshingVoroCrust.cpp: generate_exodus_file"]}
{"id": "C74", "title": "Seeds added for sharp edges lie on the edge spheres, outside the surface spheres and inside the model", "statement": "For every edge sphere the neighbour along the sharp edge (the nearest other edge sphere if it overlaps, else the nearest corner sphere) is found on both sides. If the sphere around the circle in which the two spheres meet contains at most two seeds, one of ten random points of the circle is added as a seed: the one farthest from the given seeds among those outside all surface spheres (up to 1e-10) whose nearest seed is not an exterior one. The added seed is on both spheres, has the radius of the circle as size and the region of the nearest given seed, and is at least 1e-10 from the given seeds. The given seeds keep their places and regions; at most two seeds are added for each edge sphere.", "quantifier": "All lists of seeds, regions, surface, edge, corner spheres and sizing points, all Lipschitz constants in [0,1), all answers of the random sampler", "why_tests_cant": "The result depends on random directions and on the arrangement of all spheres; no set of test models shows that every added seed is outside every surface sphere, nor which arrangements make the neighbour search read outside its arrays.", "anchors": ["src/Meshing/MeshingVoronoiMesher.cpp: ensure_sharp_edge_spheres_are_Delaunay", "src/Meshing/MeshingVoroCrust.cpp: execute"]}
{"id": "C75", "title": "Feature detection without cleaning reports exactly the edges and points whose surroundings look sharp", "statement": "For a model that is not cleaned first: the surface points handed to the later stages lie on the faces recorded with them and carry their unit normals. An edge of a face is reported only if some point of the face sees, as the nearest surface point off its own smooth sheet (farther than the smallest radius and outside the smooth angle), a face that is apart from that point but touches the middle of the edge; it is left out only if nothing off the sheet is as near to the centre as the corners, or 100 points of the face show no such face. Every reported edge is covered by edge points: they lie on it, carry its unit direction, and each point of the edge is closer than half the spacing to one of them. A point is reported as corner, once, exactly when a reported edge turns there (seen from the edge points off its smooth curve), when the faces around it have more than two different normals, or when they have two and no reported edge ends there. The detection ends within as many steps as there are faces, and is undefined only when no sharp edge exists or a tested point sees no other sheet or curve.", "quantifier": "All points within the range of doubles, all lists of non-degenerate triangles, all thresholds below 1, all smallest radii and budgets, all random numbers", "why_tests_cant": "Which points are seen as off the sheet depends on the whole surface cloud and on random numbers; a test can neither enumerate the models nor show that no sharp edge is missed, and the undefined cases occur for perfectly ordinary models (a flat sheet, a smooth closed surface).", "anchors": ["src/Meshing/MeshingVoroCrustSampler.cpp: detect_features_generate_point_clouds", "src/Meshing/MeshingVoroCrust.cpp: execute", "src/Meshing/MeshingSmartTree.cpp: get_closest_non_smooth_tree_point, get_closest_non_smooth_tree_edge_point"]}
{"id": "C76", "title": "The point clouds of a clean model lie on its sharp edges and on its surface, by length and by area", "statement": "For a clean model (no smallest radius given) the sharp edges and corners are exactly those of the smooth angle; the edge cloud handed to the later stages has exactly as many points as asked for if there is a sharp edge and is empty otherwise, the surface cloud exactly as many as asked for. Each point is thrown on the edge (face) whose part of the cumulated lengths (areas) contains the random number; it lies on that edge at the fraction given by the next random number (on that face), is stored with the number of the edge (face) and with the unit direction of the edge (unit normal of the face), and the trees answer queries. A model without faces is undefined.", "quantifier": "All clean, consistently oriented meshes of proper triangles with at least one face, all thresholds, all budgets, all random numbers, all decisions of the tree to rebalance", "why_tests_cant": "The points are random and there are 600000 of them; a test sees one random sequence on a few models and cannot show that no element is missed or wrongly labelled.", "anchors": ["src/Meshing/MeshingVoroCrustSampler.cpp: detect_features_generate_point_clouds_clean", "src/Meshing/MeshingRandomSampler.cpp: sample_uniformly_from_simplex", "src/Meshing/MeshingSmartTree.cpp: add_tree_point"]}
{"id": "C77", "title": "Seeds are put on the same side of the surface exactly when no triangle separates them around a common sphere", "statement": "Before regions are numbered, the seeds that come from a common sphere are linked. Around a surface sphere whose surface triangles form a closed fan, two seeds are linked exactly if both are below or both above the fan. Around a sphere on a sharp edge, whose triangles form sheets that meet in the edge like the pages of a book, two seeds are linked exactly if they are in the same sector between two sheets that follow each other around the edge. Over the whole model the links are exactly these pairs, whatever the order in which seeds and triangles are stored, and no marker is left behind. An open fan, an edge sphere without a neighbour on a feature, and a sheet made of a single triangle are handled wrongly.", "quantifier": "All sets of spheres and seeds, all closed fans of any size, all books with any number of sheets of at least two triangles each (components used for the angles outside the tolerance), all orders of the seeds, all capacities that hold the spheres", "why_tests_cant": "A test sees one order of the seeds on a few models; that a walk around the sphere neither misses a triangle nor crosses the surface for any number and order of triangles is a claim about all of them.", "anchors": ["src/Meshing/MeshingVoroCrustSampler.cpp: color_surface_seeds", "src/Meshing/MeshingGeometricalMethods.cpp: get_3d_triangle_normal, get_point_angle", "src/Meshing/MeshingMemoryHandler.cpp: quicksort", "src/Meshing/MeshingSmartTree.cpp: graph_connect_nodes, graph_get_neighbors"]}
{"id": "C78", "title": "Two surface seeds get the same region exactly if a chain of neighbouring seeds on one side of the surface joins them", "statement": "For spheres whose triangles form closed fans (surface) and books of sheets (sharp edges), colouring the surface seeds gives two seeds the same region exactly if a chain of seeds leads from one to the other in which any two consecutive ones are, around a common sphere, not separated by the surface. Regions are numbered 0 to the reported count without gaps, region 0 is the exterior, no invalid colouring is reported. No region leaks: whenever the seeds can be labelled so that neighbours on one side agree (for instance inside/outside of a closed surface), every region has a single label.", "quantifier": "All sets of spheres and seeds of this shape, all orders, all capacities that hold them, all labellings", "why_tests_cant": "A test can compare region numbers on a few models; that no model of this shape ever mixes two sides is a statement about all of them.", "anchors": ["src/Meshing/MeshingVoroCrustSampler.cpp: color_surface_seeds"]}
{"id": "C79", "title": "Generating the seeds of the volume keeps the surface seeds, adds only seeds inside the model and outside the surface spheres, and honours imposed seeds", "statement": "Generating the seeds of the volume from coloured surface seeds returns a list whose first seeds are the surface seeds at their places with their regions. Every added seed has a region of the model other than the exterior and lies outside every surface sphere; there is one size per seed, and the size of a surface seed is never enlarged (except to that of an imposed seed at the same place). With monitoring points asked for, 100 (or as many as there are) different added seeds are listed with their sizes, none of them on the surface. With a file of imposed seeds, every imposed point that is not covered by a sphere becomes a seed at its place with the region of the nearest seed, and the reported number is the number added.", "quantifier": "All sets of spheres and coloured seeds, all sizing functions, imposed point lists, random numbers and numbers of threads", "why_tests_cant": "Tests run a few models with few random numbers; the claim is about every random sequence, input and thread count.", "anchors": ["src/Meshing/MeshingVoroCrust.cpp: generate_interior_seeds", "src/Meshing/MeshingVoronoiMesher.cpp: impose_interior_seeds, generate_interior_seeds, ensure_sharp_edge_cells"]}
{"id": "C80", "title": "Meshing a saved seeds file gives the same cells as the run that saved it", "statement": "Saving the seeds of a run to seeds.csv and meshing that file gives the same vertices, faces, cells and seeds as the run that saved it. Regions are kept as they are in the file.", "quantifier": "All seed lists, regions and sizes, all ways of printing numbers that are read back unchanged, all tessellations", "why_tests_cant": "A round trip on a model compares one mesh; the claim ranges over all seed lists and over the choice of surface seeds.", "anchors": ["src/Meshing/MeshingVoroCrust.cpp: generate_mesh_from_seeds_file, execute_vc, save_vc_seeds, load_vc_seeds"]}
{"id": "C81", "title": "Adding a row to a Cholesky factorization gives a factorization of the bordered matrix", "statement": "Given the stored factor of a matrix and a new row, the call that adds the row either reports failure, and then the last pivot of the bordered matrix is below 1e-10, or returns a stored factor with one more row whose old part is unchanged and which factors the bordered matrix in the same sense as a factorization from scratch.", "quantifier": "All sizes, all stored factors, all matrices they factor, all new rows", "why_tests_cant": "The claim is about every size, every sparsity pattern and every real value, including the failing ones; a unit test multiplies out one small factor.", "anchors": ["src/Meshing/MeshingLinearSolver.cpp: Cholesky_factorization_add_row, set_sparse_vector_entry, get_sparse_vector_entry"]}
{"id": "C82", "title": "The rank-one update of a Cholesky factorization adds x x^T", "statement": "Updating a stored factor L with a sparse vector x returns a stored factor L' with L' L'^T = L L^T + x x^T up to the entries below 1e-12 that are dropped on the way, with a bound on the error that is proportional to the number of rows and the length of the rows; the diagonal never gets smaller and no array is read or written out of bounds, provided the rows have room for more entries than there are rows.", "quantifier": "All sizes, all stored factors with room in their rows, all sparse vectors", "why_tests_cant": "Entries appear and disappear in the row and in x while both are being traversed; a test exercises a few patterns, the claim ranges over all interleavings of the two sparsity patterns.", "anchors": ["src/Meshing/MeshingLinearSolver.cpp: Cholesky_factorization_rank_one_update, set_sparse_vector_entry, find_entry_position_binary"]}
{"id": "C83", "title": "Removing a row from a Cholesky factorization", "statement": "Removing row d from a stored factor L of an n-row matrix with fewer than ten rows below row d returns a stored factor of n-1 rows. Its L' L'^T equals L L^T without row and column d: exactly for entries with a row or column above d, and up to the dropped entries below 1e-12 (with an explicit bound) elsewhere. Adding a row and removing it again returns the entries the factor had. No array is read or written out of bounds.", "quantifier": "All sizes, all stored factors, all rows with fewer than ten rows below; for removing the row just added, all sizes and all rows that can be added", "why_tests_cant": "The call splits the factor into blocks in sparse storage, renumbers rows and columns around the gap, updates one block and reassembles the rest; a test checks a few patterns, the claim is for all sparsity patterns and all positions of the gap.", "anchors": ["src/Meshing/MeshingLinearSolver.cpp: Cholesky_factorization_remove_row, Cholesky_factorization_add_row, Cholesky_factorization_rank_one_update"]}
{"id": "C84", "title": "The stages that place the spheres work together", "statement": "For every clean input (triangles with three different corners, no slivers, no two points at one place, consistent orientation) and every usable set of parameters, if the mesher finishes the stages up to the surface spheres then: the sharp edges and corners are exactly those of the definition; there is one corner sphere at each sharp corner and none elsewhere, with positive radii of at most rmax and 0.4 times the distance to the other corners; every point of a sharp edge is in a corner sphere or well inside an edge sphere; and (if the radii of the edge spheres have slope Lip between all pairs, which holds for Lip of 0.5 and more, and the final spheres are in general position and not too large) every point of the input surface is in a sphere, the surface spheres lie on the surface, and the seeds are those of their triples. An input with sharp edges and no sharp corner is not meshed: the program reads outside its arrays.", "quantifier": "All meshes, thresholds, rmax, Lip, sizing functions, random numbers, thread schedules and cloud sizes.", "why_tests_cant": "Each stage is run by the program on the output of the earlier ones; tests see single meshes with single random seeds, and cannot show that the output of each stage always meets what the next one needs, nor that surfaces are covered everywhere.", "anchors": ["src/Meshing/MeshingVoroCrust.cpp: MeshingVoroCrust::execute_vc", "src/Meshing/MeshingVoroCrustSampler.cpp: detect_features_generate_point_clouds_clean, generate_corner_spheres, generate_edge_spheres, generate_surface_spheres"]}
{"id": "C85", "title": "The model that is meshed holds the triangles of the input files", "statement": "Given one or several OBJ files whose faces refer to their own points, the surface that is meshed consists of points of the files no two of which are closer than 10^-8; every point of a file has a point of the surface at the same place or closer than eps, where eps is 10^-8 for one file and 2*10^-8 for several; the triangles of the files correspond one to one to the triangles of the surface, each corner being the same point or one closer than eps, except triangles of which two corners were taken for one point of a file; no triangle of the surface has a corner twice unless one of a file has. For several files, model_combined.obj read back is that surface, with its coordinates reread from their decimals. A configuration without an input file is not diagnosed: the name of a first file is read out of bounds.", "quantifier": "all lists of one or more OBJ texts that can be read, with any numbers of points and faces, any coordinates, and any times at which the search trees are rebuilt", "why_tests_cant": "Whether a triangle gets lost or connected to points of another file depends on the numbering of all files together and on which points are within the tolerance of each other; a test covers a few files.", "anchors": ["src/Meshing/MeshingVoroCrust.cpp:MeshingVoroCrust::execute", "src/Meshing/MeshingPolyMesh.cpp:MeshingPolyMesh::read_input_obj_file", "src/Meshing/MeshingPolyMesh.cpp:MeshingPolyMesh::weld_nearby_points", "src/Meshing/MeshingPolyMesh.cpp:MeshingPolyMesh::save_mesh_obj"]}
{"id": "C86", "title": "A surface mesh holds the points in use, its faces with their normals, and exactly the sharp edges and corners", "statement": "Constructing a MeshingPolyMesh from proper triangles that are consistently oriented, not degenerate, with points at least 10^-10 apart and coordinates below 2^1000 succeeds. The mesh holds the points that are corners of faces, in their order; the given faces with the same corner places, in their given direction or all turned around; for each face its unit normal by the right-hand rule. Each sharp edge, that is an edge with other than two faces or with two faces whose normals have a product below the cosine of the threshold, is listed exactly once, and nothing else is listed. The sharp corners are listed in ascending order and are the points with sharp edges that have not exactly two of them or two that bend by more than the threshold, and the points without sharp edges at which two faces meet at that point only at an angle beyond the threshold. The query whether two points bound a sharp edge is right, in both orders. The reported angle between smooth neighbours is the smallest. Which edges and corners are sharp does not depend on the turning. Not kept: faces that look outward may be turned inward, and for inconsistent input the normals are those before the repair, so that a flat edge may be listed.", "quantifier": "all surface meshes of any size, open, closed or non-manifold, any threshold, and any content of the uninitialised memory the orientation repair reads", "why_tests_cant": "Which face decides on an edge, which edges meet at a point and which normals are compared depends on the numbering and orientation of all faces; a test sees a few meshes.", "anchors": ["src/Meshing/MeshingPolyMesh.cpp:MeshingPolyMesh::MeshingPolyMesh", "src/Meshing/MeshingPolyMesh.cpp:MeshingPolyMesh::process_model", "src/Meshing/MeshingPolyMesh.cpp:MeshingPolyMesh::extract_model_sharp_features", "src/Meshing/MeshingPolyMesh.cpp:MeshingPolyMesh::build_point_sharp_edges", "src/Meshing/MeshingPolyMesh.cpp:MeshingPolyMesh::sharp_edge", "src/Meshing/MeshingPolyMesh.cpp:MeshingPolyMesh::build_bounding_box"]}
{"id": "C87", "title": "The finished volume mesh: outside cells are dropped, regions follow the sides of the surface, faces are the Voronoi faces of the seeds", "statement": "Let the surface seeds with their partners and spheres be coloured, the volume be seeded and the Voronoi mesh of all seeds be built and grouped into regions, as a VoroCrust run does after placing its spheres, and let it succeed. Then the surface seeds stay where they are and come first, and added seeds are outside all surface spheres. A seed is in region 0, whose cells are dropped, exactly when it is a surface seed joined to the outermost seed by a chain of seeds on one side of the surface; in particular no added seed is dropped. Surface seeds on one side have one region; every added seed shares its region with a surface seed that is not outside. The cell of a seed that is not dropped lists exactly the faces around it, and the reported number of cells is that of the seeds not dropped. Every face is a polygon between two seeds of which the first is inside and the second is inside or an outer surface seed, its corners are Voronoi vertices of the seeds, and no two faces separate the same two seeds. No leak: seeds in one final region have the same label, for every labelling that is constant on each side of the surface, that gives added seeds the label of the surface seeds of their first region and that does not change between neighbouring added seeds. The surface seeds come from the spheres: after a seed generation that shrinks nothing, the merged list is readable by the colouring, each seed lies on the three spheres it records and inside no other ball, and its partner is the mirror point in the other half of the list.", "quantifier": "all sets of surface seeds and spheres in which the triangles are separated as C78 asks, all slope bounds, thread counts, random draws, imposed points and settings, and all seeds that end up at positive distances", "why_tests_cant": "The result depends on five stages and the order of their outputs; the regions depend on chains of any length through the whole surface. A test sees a few models.", "anchors": ["src/Meshing/MeshingVoroCrust.cpp:MeshingVoroCrust::execute_vc", "src/Meshing/MeshingVoroCrustSampler.cpp:MeshingVoroCrustSampler::color_surface_seeds", "src/Meshing/MeshingVoroCrustSampler.cpp:MeshingVoroCrustSampler::generate_interior_seeds", "src/Meshing/MeshingVoronoiMesher.cpp:MeshingVoronoiMesher::generate_3d_voronoi_mesh"]}
{"id": "C88", "title": "Checking a generated surface mesh cuts back exactly the spheres at open edges", "statement": "Let the surface, edge and corner spheres be numbered through and let the faces be proper triangles over those numbers. Checking the mesh succeeds and saves it with the centres and the faces. Only radii change. Afterwards the radius of each sphere is the least of its old radius and 0.49 times the lengths of the open edges at it, where an edge is open if exactly one face has both ends; so spheres of an open edge with distinct ends no longer touch, and spheres without open edges keep their radii. The flag for surface spheres is set if and only if it was set or a surface sphere has shrunk; the flag for edge spheres if and only if it was set or an edge or corner sphere has shrunk. A mesh without open edges changes nothing. Not kept: the flag for corner spheres is never set, also if corner spheres shrink.", "quantifier": "all sets of spheres in three trees (some may be empty), all radii, all lists of proper triangles of any length, all initial flags", "why_tests_cant": "The result is a minimum over all open edges at a sphere, met in the order of the faces and several times; a test sees a few meshes.", "anchors": ["src/Meshing/MeshingPolyMesh.cpp:MeshingPolyMesh::valid_surface_mesh", "src/Meshing/MeshingPolyMesh.cpp:MeshingPolyMesh::get_num_edge_faces"]}
