# Formal model of gpytoolbox in Rocq (Coq 8.16.1)

## Layout

* `rocq/theories/*Model.v`  - total Gallina transcriptions of the Python and C++ code. Each definition cites file:lines and says where it simplifies.
* `rocq/theories/*Spec.v`   - small, model-independent vocabulary in which properties are phrased (for later properties the section "specification" at the top of the `P_` file).
* `rocq/theories/*Proofs.v` - lemmas.
* `rocq/theories/P_*.v`     - the property theorems `Theorem Cxx_...`, with concrete cases beside them (`Cxx_example`, `Cxx_contract_satisfiable`, `Example`).
* `properties.jsonl`, `MANIFEST.json`: generated by `tools/gen_properties.py`, `tools/gen_manifest.py` (+ `tools/status.json`); `seeded/LOG.jsonl`: mutation tests, run by `tools/mut.py`.
* A theorem with suffix `_refuted` proves that the English claim fails, by a witness or for a whole class of inputs; `_partial` marks a weaker statement. A property with a refuted or missing part has status "partial" and the note says which part.

## Modelling conventions

* numpy integer arrays: lists of `Z` (or `nat` when an index); an `(m,3)` array is a list of triples or a function with separate size.
* numpy float arrays: Coq's real numbers `R` (exact arithmetic). Rounding, overflow, NaN and inf are **not** modelled unless the comment at the definition says so (division by zero etc. are then explicit option/exception values). Consequently no theorem speaks about floating-point error.
* Python exceptions (`assert`, IndexError, ValueError, TypeError ...) are values: `option`, `res`, `E`. Out-of-range reads in C++ are `None`/`IndexError`.
* `while` loops carry fuel; termination theorems show that enough fuel exists, and results do not depend on it.
* Random number generators are arbitrary streams (universally quantified).
* Warnings, printing, plotting, timing and memory use are not modelled.

## Trusted base

* Coq's kernel 8.16.1 and its checker; no `Admitted`, no axioms of our own, no functors/module types, no plugin, no switched-off check.
* The standard library axioms that `Print Assumptions` lists: `ClassicalDedekindReals.sig_forall_dec`, `ClassicalDedekindReals.sig_not_dec`, `FunctionalExtensionality.functional_extensionality_dep` (all three come with `Reals`) and in a few theorems `Classical_Prop.classic`. Appendix A gives them for every theorem (output of `tools/assumptions.py`).
* The reading of the Python/C++ code into the model: that every definition does what the cited lines do.
* The reading of numpy, scipy, Eigen and libigl into the model: functions that are transcribed (`np.unique`, `np.sort`, `argsort`, fancy indexing, broadcasting, sparse assembly with summed duplicates, `np.setdiff1d`, `np.einsum` ...) with their documented semantics, and functions that stay parameters with a contract as hypothesis of the theorem (next section).

## Parameters with contracts

| contract (Coq name) | stands for | used in | shown to be satisfiable |
|---|---|---|---|
| `csgraph_ok`, `csgraph_range` | scipy.sparse.csgraph.connected_components | C10, C60, C61 | C10_contract_satisfiable, C61_contract_satisfiable |
| `solver_ok`, `spd_solver` | scipy.sparse.linalg.splu / spsolve: solves exactly when it returns, and returns on positive definite systems | C43, C73 | elimination (P_ElDyn, P_Solve) |
| `cg_ok` | scipy cg: solves positive definite systems | C70 | elimination (P_Gp) |
| `bicg_ok`, `blurs` | scipy bicg with its exit code, gaussian_filter | C78 | P_Psr |
| `scs_contract`, `msk_contract`, `chol_contract` | SCS, MOSEK, Cholesky | C72 | C72_example |
| `show_ok`, `token_ok` | printing and parsing of floats are inverse | C44, C58 | examples in P_Obj, P_Dmat |
| `argsort_ok` | np.argsort sorts (ties arbitrary) | C75 | selection sort (P_Eig) |
| contract of `rng.choice` | returns an index of positive probability | C54 | P_Random |
| `distance_to`, `first_hit` | signed distance and ray casting against the outer mesh | C79 | P_Matry |
| `query_ok`, `closest_ok` | closest-point query of reach_for_the_spheres | C81, C82 | P_Rfs2, P_RfsLine |
| `coherent` + `once` | igl::unique_edge_map | C83, C84, C87 | built for every oriented edge-manifold in P_RemeshCpp2 |
| `flip_ok` | igl::flip_edge | C84, C87 | `igl_flip` (P_Flip) |
| `run`, `decimated` | igl::decimate with a cost callback: any sequence of collapses the callback allows | C86, C87 | P_Collapse, P_RemeshCpp2 |
| `closest_on_mesh` | igl::point_mesh_squared_distance | C85, C87 | all-faces search (P_RemeshCpp2) |
| contract of the sweep | C++ swept volume core: only its inputs are described | C76 | - |

## What is modelled, what is not

Modelled line by line: all of the pure Python modules named as anchors in `properties.jsonl` (topology, half-edges, DEC, relabelling, loops, subdivision, meshes of primitives, grids and finite differences, quadtrees, AABB trees and distances, rays, barycentric coordinates, areas, normals, angles, curvature, Laplacians, mass matrices, gradients, quadratic and L1 solvers, elasticity, I/O in OBJ and DMAT, marching squares, particle swarm and Metropolis-Hastings, rotations, splines, skinning, kernels, Gaussian processes, stochastic PSR, matryoshka, swept volume wrapper, remesh_botsch wrapper, reach_for_the_spheres, lazy_cage, mesh_boolean), and from the C++ sources the OBJ reader and writer, the particle swarm, upper_envelope, the remesher (split, collapse, flip, relax and the loop around them) reach_for_the_arcs (driver, sphere tree, collision resolution, feasibility search, fine tuning), the readers and writers of STL and PLY files, of swept_volume the motion and the search for the closest time, and point_cloud_to_mesh around its solver.

Not modelled: floating-point rounding; the bindings (`src/cpp/binding_*.cpp`, except for the file formats); libigl, CGAL, Eigen and the other third-party libraries under `src/cpp` (PoissonRecon); `marching_cubes`, `offset_surface`, `dual_contouring_of_signed_distance_data`, `fast_winding_number`, `png2poly` and their C++ cores; of `reach_for_the_arcs` the rasterization (`outside_points_from_rasterization.cpp`); of the C++ core of `swept_volume`, of the continuation over voxels (`sparse_continuation.cpp`) the times, intervals and the choice of the next voxel. Properties of these would be statements about third-party code or about parameters without a contract.

## How each property is modelled and proved

| id | model | proof |
|----|-------|-------|
| C01 | halfedges/halffaces on lists of tuples | direct |
| C02-C06 | flat half-edges, row sort, `np.unique(axis=0)` with first index and counts | specification of unique by induction; C03 refuted by a witness |
| C07 | stable argsort + unique as first-index lookup | induction |
| C08, C09 | flat index `k%m`, `k//m`, correspondence with the flipped array | index arithmetic + C02, C07 |
| C10, C60 | adjacency matrix; csgraph labelling as oracle with its contract | induction on paths |
| C11, C12 | sparse matrices as sums of (i,j,v) triples | sums over lists |
| C13, C14 | relabelling | lists; C13 empty and C14 tolerance by witness |
| C15 | the two nested while loops with fuel | loop invariant + termination measure |
| C16 | list generators over n | lia / trigonometric identities |
| C17, C18 | subdivision via halfedge_edge_map, iterated | C08 + sums, induction over iterations |
| C19-C21 | index generators over all sizes | div/mod arithmetic |
| C22-C24 | linear index arithmetic, interpolation weights, matrices from functions | div/mod arithmetic, sums |
| C25-C29 | quadtree arrays as lists; subdivision step; operators | invariants over all histories of subdivisions |
| C30, C31, C33, C34 | array/queue construction, traversal with pruning | loop invariants with fuel, box lower bounds |
| C32, C56, C62 | point-triangle, segment-segment, triangle-triangle distance region by region | convexity, case analysis over all regions |
| C35-C37 | slab test, Moeller-Trumbore, 2x2 solves | case analysis, field |
| C36-C42, C59, C66, C67 | real geometry of triangles and tets | field/nra, trigonometry, sums over faces |
| C43 | matrices over R, block elimination, inner solve as an oracle with contract | convexity of the quadratic form |
| C44, C58, C63 | lists of characters/tokens; float printing/parsing as an oracle with inverse contract | codec induction |
| C45 | cell cases over a grid of any size | finite case analysis lifted to all grids, degree counting |
| C46, C47, C54 | loops over a stream of random draws | invariants |
| C48-C53, C55, C57 | small real functions | algebra; witnesses where the code violates the claim |
| C61 | cut graph over half-edges, components oracle | paths around vertices |
| C64, C65 | winding number as sum of signed angles | angle lifting, rotation, crossing arguments |
| C68 | biharmonic and Hessian energies as matrix products | Gram matrices, kernels |
| C69, C70, C78 | kernels with derivatives (Coquelicot-free derivability from Reals), posterior by solves | calculus, linear algebra over functions |
| C71 | icosphere by iterated subdivision | invariants over levels: closed, oriented, star-shaped |
| C72 | conic reformulations handed to the solvers | equivalence of the optimisation problems |
| C73, C74 | elastic stiffness, implicit Euler step, intrinsic gradients | energy identities, positive definiteness |
| C75 | tensor products of cosines, argsort | eigenvalue identities, order statistics |
| C76, C77 | the wrappers: what the C++ core is handed | matrices, permutations |
| C79 | nested loops of matryoshka with oracles and arbitrary randomness | loop invariants |
| C80 | upper_envelope.cpp with array reads/writes that can fail | invariants on the carved tets; witnesses for the defects |
| C81, C82 | flow loop and 2-D remesher of reach_for_the_spheres | descent of an implicit step, invariants of the curve rounds |
| C83-C87 | C++ remesher: face/edge/half-edge tables updated in place, union-find, loop | table invariants (`omesh`, `coherent`, `once`) preserved by every step, for every order of steps |
| C88 | lazy_cage: bisection over offset surfaces with libigl parts as parameters | loop invariant of the bisection; witnesses |
| C89 | argument handling of mesh_boolean, decimate and barycenters | case analysis |
| C90 | bad_quad_mesh_from_quadtree: leaf corners stacked, duplicates merged with tolerance, index gathering | corners lie on a dyadic lattice, so tolerance merging is exact; index arithmetic on column blocks |
| C91, C92 | the C++ core of reach_for_the_arcs: sphere tree, collision resolution, feasibility search and fine tuning as loops over an arbitrary schedule of (iteration, thread) pairs | each iteration's outcome does not depend on the thread's buffers; tangency is an invariant of the collision resolution; tree coverage by boxes |
| C93 | the Python driver of reach_for_the_arcs around that core; searches, reconstruction and random draws are parameters with contracts | the data in the unit box and back; goodness of a point (own sphere, other spheres of a set, normal) is an invariant of the fine-tuning iterations; scaling by functional extensionality of the normalised data |
| C94 | the C++ OBJ reader (scanning, stoi, growing Eigen matrices with -1 filled index rows, final shrinking) and writer; stod and the number format are parameters | an invariant that relates the used rows of each matrix to the lines read so far, by induction on the lines; words by an inductive spacing relation; the written text is a list of such lines, so the round trip follows from the reading theorem; the Python writer's text is equal by comparing row by row |
| C95 | ray_mesh_intersect without Embree over initialize_aabbtree's tree; a parameter of infinity is None | the queue invariant of C30: every triangle whose box was dropped is behind the best hit; the box entry distance bounds the hit parameters of everything in the box; barycentric coordinates from the signed areas |
| C96 | microstl's reader (ASCII/binary detection, line reader, state machine, binary layout) and writer with the wrappers, on byte strings; float printing and parsing are parameters with a contract, the uninitialised byte at the end of the file is universally quantified | little endian round trip by division; the accepted token sequences of the state machine by induction with a trap state; keyword prefixes exclude one another; trimming related to 'blanks, keyword, rest'; merging by C14 |
| C97 | tinyply's header parser, property lookup, the measuring and the reading pass over the body (ascii, little and big endian, lists, skipped properties), the wrapper's conversion to matrices, and the writer, on byte strings; numbers are bit patterns, operator<< and operator>> parameters with a contract, uninitialised memory is universally quantified | a relational description of bodies (cells, rows, elements); both passes simulated against it with the invariant 'stream, list size, dummy count, buffers'; buffers decoded to the named columns; headers by induction over declared lines; the writer shown to emit a described file |
| C98 | gradient_descent_test with its store of intervals, values and minima, over rationals; the distance, its derivative and the stopping test are parameters | invariants of the line search and of the descent (in range, value evaluated, no increase, start in the path), the store as a list of entries; histories by induction |
| C99 | interpolate_position of swept_volume.cpp over exact reals: tangents, segment and fraction of a time, position, velocity, scales, rotation matrix and its velocity; the quaternion path of a segment and its derivative are parameters | each segment is a cubic whose Taylor form gives the derivative; neighbouring segments are glued; the translation is identified with the model of C50; product rule for the matrices |
| C100 | point_cloud_to_mesh: assertions, names of the boundary condition, normalisation, the call of the solver (a parameter) and the inverse map, over exact reals | bounds of minima and maxima; the two affine maps are inverse to each other; minima and maxima commute with translation |
| C101 | swept_volume's sparse_continuation: neighbor, corner and mask tables, cubes, vertices, values and the inside test, for arbitrary queue entries and answers | the tables are checked by computation (shared corners, partners, masks); invariant: every cube entry is the number of its corner, vertices distinct; values follow by a second invariant |

## Findings (theorems with suffix `_refuted`, see the notes in MANIFEST.json)

Each "partial" entry names what fails and for which inputs; these were found by trying to prove the documented behaviour.


## Appendix A: assumptions per theorem
* closed under the global context (114 theorems): C30_points, C34_default_refuted, C34_default_single, C89_boolean, C89_subtraction_refuted, C89_intersect, C10_adjacency, C10_components, C10_empty, C10_contract_satisfiable, C60_adjacency_empty_refuted, C94_read, C94_writer_checks, C94_roundtrip, C94_engines, C94_shape, C94_short_row_refuted, C94_quad_refuted, C94_lenient_refuted, C94_example, C61_cut, C61_empty_refuted, C61_contract_satisfiable, C58_ascii, C58_binary, C58_ascii_empty_rejected, C22_neighbors_2d, C22_neighbors_3d, C22_walks_2d, C22_walks_3d, C22_order3_refuted, C22_self_refuted, C22_unique_partial, C22_unique_refuted, C84_example, C21_unknown_type, C15_sound, C15_terminates, C15_complete, C44_roundtrip, C44_writer_checks, C63_fmt_argument_refuted, C63_extension, C22_unique_order2_refuted, C13_with_vertices, C13_without_vertices, C13_rejects, C13_empty_refuted, C14_exact, C81_no_samples_refuted, C83_past_end_refuted, C96_binary_roundtrip, C96_ascii_roundtrip, C96_merged, C96_binary_format, C96_ascii_grammar, C96_long_line, C96_nonfinite_refuted, C96_empty_refuted, C96_example, C16_edge_indices, C17_upsample, C17_iterations, C17_polyline, C17_polyline_iterations, C01_halfedges, C01_halffaces, C02_edges, C03_edges_interior_indices_refuted, C03_edges_nonmanifold_indices_refuted, C03_faces_interior_indices_refuted, C03_edges_indices_closed_partial, C04_faces, C05_boundary_edges, C05_boundary_vertices, C05_boundary_faces, C06_non_manifold_edges, C07_array_correspondence, C08_halfedge_edge_map, C08_halfedge_edge_map_nonmanifold, C09_triangle_triangle_adjacency, C97_bytes, C97_read, C97_roundtrip_binary, C97_roundtrip_text, C97_roundtrip_partial, C97_colors_refuted, C97_property_order_refuted, C97_truncated_refuted, C97_normals_refuted, C97_no_vertices_refuted, C97_quad_refuted, C98_again, C98_kept, C98_covered, C98_reuse, C98_value, C98_descends, C98_stays, C98_first_try, C98_history, C98_reuse_refuted, C100_boundary, C101_voxels, C101_cubes, C101_vertices, C101_glued, C101_appends, C101_order, C101_run_cubes, C101_skipped, C101_value_answered, C101_value_least, C101_monotone

* `ClassicalDedekindReals.sig_forall_dec` (4 theorems): C72_factor_refuted, C72_errors, C24_dense, C43_fixed_dof_accepts

* `ClassicalDedekindReals.sig_forall_dec`, `FunctionalExtensionality.functional_extensionality_dep` (148 theorems): C30_bvh, C30_nested, C30_root_box, C30_empty, C30_nested_refuted, C90_quadtree, C90_octree, C90_empty_H_refuted, C90_example, C88_bisection, C88_tight, C88_no_iterations_refuted, C88_containment_refuted, C88_example, C89_decimate, C89_barycenters, C89_example, C57_range, C57_explicit_range, C11_dd_zero, C11_meaning, C32_triangle, C32_point, C43_min_quad_succeeds, C23_interpolate_2d, C23_interpolate_3d, C23_partial_2d, C23_partial_3d, C23_grad_2d, C23_grad_3d, C38_planar, C38_spatial, C38_corners, C39_volume, C70_interpolates, C19_regular_square_mesh, C21_regular_cube_mesh, C21_conforming_partial, C21_five_conforming_refuted, C21_hex, C53_normal_value, C53_bspline_spec, C53_normal_nonneg, C53_normal_support, C53_normal_symmetric, C53_normal_continuous_odd, C53_normal_discontinuous_refuted, C53_normal_second_derivative, C53_normal_bad_order, C53_kernel_value, C53_kernel_nonneg_support_symmetric, C53_kernel_derivative_first, C53_kernel_derivative_second, C53_kernel_continuous, C24_full, C24_pattern, C24_pattern_repeated, C45_contour, C45_closed, C45_exactly_one, C45_exactly_one_refuted, C49_unit_box, C49_caller_refuted, C51_blend, C51_common_transform, C51_identity, C51_linear_in_weights, C51_equivariant, C78_grid_from_cloud_valid, C78_covariance_3d_refuted, C78_small_grid_refuted, C25_tree, C25_tiling, C25_progress, C26_adjacency, C26_boundary, C27_in_quadtree, C28_build, C28_box, C28_graded_step, C27_smallest_refuted, C26_boundary_octree_refuted, C29_laplacian, C29_laplacian_signs, C29_laplacian_exact, C29_gradient, C29_gradient_exact, C29_single_cell_refuted, C29_octree_refuted, C29_gradient_linear_refuted, C35_hit, C35_whole_line_refuted, C35_miss_infinite_refuted, C36_sound, C36_complete_partial, C36_complete_refuted, C95_first_hit_partial, C95_miss, C95_tree_independent, C95_empty, C95_rows_refused, C95_example, C95_short_direction_refuted, C14_eps, C14_tolerance_refuted, C81_default_min_h, C81_linesearch, C43_min_quad, C43_min_quad_constrained_psd, C43_fixed_dof, C43_min_quad_accepts, C50_interpolates, C50_defined, C50_continuous, C50_tangent, C50_above, C50_single, C83_pillow_refuted, C17_children_area, C17_matrix, C18_stencils, C18_boundary_vertex, C18_row_sums_partial, C18_faces_partial, C18_row_sums_unreferenced_refuted, C18_faces_trailing_refuted, C18_row_sums_bowtie_refuted, C46_best, C46_monotone, C46_other_topology, C47_samples, C47_first_value_refuted, C47_terminates, C80_partial, C80_first_row_refuted, C80_volume_refuted, C80_one_material_refuted, C80_uniform_refuted, C80_single_refuted, C99_position, C99_keyframes, C99_velocity, C99_rotation_velocity, C100_mesh, C100_raises, C100_depth, C100_translation, C100_boundary_refuted

* `ClassicalDedekindReals.sig_forall_dec`, `ClassicalDedekindReals.sig_not_dec`, `FunctionalExtensionality.functional_extensionality_dep` (172 theorems): C31_aabb, C31_brute, C31_same_distance, C31_distance_to_shape, C31_unsigned, C31_hausdorff, C33_minimum_distance, C33_gap, C91_query, C91_cloud, C91_resolve, C91_example, C91_resolves, C68_mixed, C68_hessian_planar, C68_hessian_surface, C68_hessian_affine, C86_merges, C86_positions, C86_output, C86_corner_refuted, C86_allowed, C86_normal_refuted, C11_laplacian, C12_h1, C12_h2, C12_h0_partial, C12_h0_refuted, C32_segment3, C32_segment2, C32_segment_short, C32_segment_short_refuted, C56_segments, C56_symmetric, C56_zero, C75_planar, C75_eigenfunction, C75_grid_eigenvector, C75_spatial_partial, C75_spatial_refuted, C73_step, C73_succeeds, C73_default_mass, C73_momentum, C73_stable, C73_rigid, C73_von_mises_refuted, C73_errors, C73_example, C55_elastic_energy_partial, C55_needs_many_faces_refuted, C84_flips, C84_effects, C84_progress, C84_all_features, C39_area_any_dim, C39_area, C39_area_perm, C40_intrinsic, C40_mesh, C41_mesh, C41_intrinsic, C41_polyline, C41_voronoi_share, C42_surface, C42_planar, C42_polyline, C70_posterior, C70_induced_same, C70_compact_1d_partial, C70_compact_refuted, C74_intrinsic, C74_embedded, C74_default_n, C74_errors, C20_torus, C20_cylinder, C20_cone, C20_rings, C20_guards, C71_icosphere, C71_negative, C72_scs, C72_mosek, C72_factor_order_refuted, C72_example, C67_face_normals, C67_vertex_normals, C67_vertex_normals_polyline, C67_degenerate_refuted, C67_closed_surface, C52_distance, C52_even_odd_partial, C52_triangle, C52_level_vertex_refuted, C78_mean, C78_succeeds, C78_not_converged, C78_variance, C78_subspace, C78_grid_from_cloud, C78_arguments, C78_grid_order_2d, C78_grid_order_3d_refuted, C78_outside, C78_one_sided_refuted, C54_uniform, C54_triangles, C54_polyline, C37_first_hit_partial, C37_default_edges, C37_vertex_refuted, C37_collinear_refuted, C37_overwrite_refuted, C85_relax, C85_no_project_refuted, C85_example, C77_example, C87_remesh, C87_example, C87_noop, C87_noop_refuted, C81_descent, C81_fixed_boundary, C81_fix_boundary_closed_refuted, C81_fix_boundary_2d_refuted, C81_iteration, C81_terminates, C81_outcome, C81_zero, C81_target, C81_step_succeeds, C81_stationary, C81_plane_mass, C81_fixed_point, C81_h_bounds, C81_samples, C81_samples_kept, C81_result, C81_h_given, C81_ignored, C82_split, C82_collapse, C82_collapse_terminates, C82_small_curves_refuted, C82_relaxation, C82_relax_step, C82_remesh, C48_3d_partial, C48_3d_refuted, C83_split, C83_features, C83_example, C83_one_pass_refuted, C83_one_pass_example, C83_duplicate_refuted, C69_derivatives, C69_rows, C69_positive_definite, C16_circle_partial, C16_circle_distinct_refuted, C17_total_area, C76_alignment, C76_keyframes, C76_transformations, C76_precedence_refuted, C76_errors, C76_example, C62_small_refuted, C99_matrices, C99_matrix_derivative, C99_velocity_refuted

* `ClassicalDedekindReals.sig_forall_dec`, `ClassicalDedekindReals.sig_not_dec`, `Classical_Prop.classic`, `FunctionalExtensionality.functional_extensionality_dep` (54 theorems): C59_cosine_rule, C59_positions, C59_small_value, C59_scale_refuted, C92_cloud, C92_move, C92_antipode_refuted, C92_example, C57_value, C57_ends, C57_single, C66_values, C66_gauss_bonnet, C66_planar, C66_small_refuted, C70_default, C70_mean_function, C70_shape_refuted, C79_nested, C79_search, C79_best, C79_none, C79_round_trip, C79_warm_dict, C79_warm_true, C79_unknown_mode_refuted, C79_tolerance_refuted, C79_warm_direction_refuted, C79_nonvacuous, C79_warm_nonvacuous, C67_dihedral, C93_points, C93_found, C93_mesh, C93_equivariant, C93_single, C93_example, C77_arguments, C77_errors, C48_2d, C69_value, C69_rows_total, C62_distance, C62_zero, C62_symmetric, C33_triangle_meshes, C64_crossings, C64_reverse, C64_outside, C64_inside, C64_triangle, C65_signed_distance, C65_counterclockwise, C65_clockwise_refuted

