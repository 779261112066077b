{
 "claims": [
  {
   "property": "C01",
   "status": "proved",
   "theorems": [
    "C01_halfedges",
    "C01_halffaces"
   ],
   "note": ""
  },
  {
   "property": "C02",
   "status": "proved",
   "theorems": [
    "C02_edges"
   ],
   "note": ""
  },
  {
   "property": "C03",
   "status": "partial",
   "theorems": [
    "C03_edges_interior_indices_refuted",
    "C03_edges_nonmanifold_indices_refuted",
    "C03_faces_interior_indices_refuted",
    "C03_edges_indices_closed_partial"
   ],
   "note": "The documented claim is false of the code: interior_indices / nonmanifold_indices index np.unique's output, not the returned (boundary-first) array (edges.py:71,74; faces.py:71,74). Refutations with witnesses; the claim is proved for meshes without boundary."
  },
  {
   "property": "C04",
   "status": "proved",
   "theorems": [
    "C04_faces"
   ],
   "note": ""
  },
  {
   "property": "C05",
   "status": "proved",
   "theorems": [
    "C05_boundary_edges",
    "C05_boundary_vertices",
    "C05_boundary_faces"
   ],
   "note": ""
  },
  {
   "property": "C06",
   "status": "proved",
   "theorems": [
    "C06_non_manifold_edges"
   ],
   "note": ""
  },
  {
   "property": "C07",
   "status": "proved",
   "theorems": [
    "C07_array_correspondence"
   ],
   "note": ""
  },
  {
   "property": "C08",
   "status": "proved",
   "theorems": [
    "C08_halfedge_edge_map",
    "C08_halfedge_edge_map_nonmanifold"
   ],
   "note": ""
  },
  {
   "property": "C09",
   "status": "proved",
   "theorems": [
    "C09_triangle_triangle_adjacency"
   ],
   "note": ""
  },
  {
   "property": "C10",
   "status": "proved",
   "theorems": [
    "C10_adjacency",
    "C10_components",
    "C10_empty",
    "C10_contract_satisfiable"
   ],
   "note": "scipy's csgraph.connected_components is a parameter with a stated contract, shown satisfiable."
  },
  {
   "property": "C11",
   "status": "proved",
   "theorems": [
    "C11_dd_zero",
    "C11_meaning",
    "C11_laplacian"
   ],
   "note": ""
  },
  {
   "property": "C12",
   "status": "partial",
   "theorems": [
    "C12_h1",
    "C12_h2",
    "C12_h0_partial",
    "C12_h0_refuted"
   ],
   "note": "h1, h2: proved. h0: false of the code, dec_h0inv sums reciprocals (dec_h0inv_intrinsic.py:40-46); the product with dec_h0 is >= k^2 at a vertex with k corners, 1 only for k=1."
  },
  {
   "property": "C13",
   "status": "partial",
   "theorems": [
    "C13_with_vertices",
    "C13_without_vertices",
    "C13_rejects",
    "C13_empty_refuted"
   ],
   "note": "proved for non-empty F; for empty F the code raises (remove_unreferenced.py:70-82 dead branch)."
  },
  {
   "property": "C14",
   "status": "partial",
   "theorems": [
    "C14_exact",
    "C14_eps",
    "C14_tolerance_refuted"
   ],
   "note": "epsilon=0: proved. epsilon>0: proved what rounding to cells guarantees; the documented 'closer than epsilon are merged' is refuted."
  },
  {
   "property": "C15",
   "status": "proved",
   "theorems": [
    "C15_sound",
    "C15_terminates",
    "C15_complete"
   ],
   "note": ""
  },
  {
   "property": "C16",
   "status": "partial",
   "theorems": [
    "C16_edge_indices",
    "C16_circle_partial",
    "C16_circle_distinct_refuted"
   ],
   "note": "edge_indices proved; circle: on the unit circle, edges form the cycle; distinctness refuted: first and last vertex coincide for every n (regular_circle_polyline.py:35, linspace includes the endpoint)."
  },
  {
   "property": "C17",
   "status": "proved",
   "theorems": [
    "C17_upsample",
    "C17_children_area",
    "C17_iterations",
    "C17_total_area",
    "C17_matrix",
    "C17_polyline",
    "C17_polyline_iterations"
   ],
   "note": "hypothesis good_mesh: oriented edge-manifold, proper triangles, no two faces on the same vertex set (needed so that a second iteration is again manifold)."
  },
  {
   "property": "C18",
   "status": "partial",
   "theorems": [
    "C18_stencils",
    "C18_boundary_vertex",
    "C18_row_sums_partial",
    "C18_faces_partial",
    "C18_row_sums_unreferenced_refuted",
    "C18_faces_trailing_refuted",
    "C18_row_sums_bowtie_refuted"
   ],
   "note": "exact stencils proved for all rows; row sums one proved when every vertex belongs to a face and boundary vertices have one boundary fan; refuted for unreferenced vertices (zero row), bow-tie boundary vertices (sum 2), and trailing unreferenced vertices (faces index wrong rows; subdivide.py:198-201)."
  },
  {
   "property": "C19",
   "status": "proved",
   "theorems": [
    "C19_regular_square_mesh"
   ],
   "note": ""
  },
  {
   "property": "C20",
   "status": "proved",
   "theorems": [
    "C20_torus",
    "C20_cylinder",
    "C20_cone",
    "C20_rings",
    "C20_guards"
   ],
   "note": ""
  },
  {
   "property": "C21",
   "status": "partial",
   "theorems": [
    "C21_regular_cube_mesh",
    "C21_conforming_partial",
    "C21_five_conforming_refuted",
    "C21_hex",
    "C21_unknown_type"
   ],
   "note": "Indices, positions, positive volumes summing to 1 and uniqueness of oriented facets are proved for all three tet types; conformity is proved for the two symmetric types and refuted for 'five' (regular_cube_mesh.py:77-83 repeats one pattern where alternating mirrored ones are needed)."
  },
  {
   "property": "C22",
   "status": "partial",
   "theorems": [
    "C22_neighbors_2d",
    "C22_neighbors_3d",
    "C22_walks_2d",
    "C22_walks_3d",
    "C22_order3_refuted",
    "C22_self_refuted",
    "C22_unique_partial",
    "C22_unique_refuted",
    "C22_unique_order2_refuted"
   ],
   "note": "order=1 exact (2D, 3D); any order: every listed cell is reached by a walk of at most 2^(order-1) steps; refuted as documented: order=3 returns 4-step cells, order>=2 lists the cell itself even with include_self=False, output_unique drops real neighbours when a side is 2, and with order=2 in 3D next to a face."
  },
  {
   "property": "C23",
   "status": "proved",
   "theorems": [
    "C23_interpolate_2d",
    "C23_interpolate_3d",
    "C23_partial_2d",
    "C23_partial_3d",
    "C23_grad_2d",
    "C23_grad_3d"
   ],
   "note": ""
  },
  {
   "property": "C24",
   "status": "proved",
   "theorems": [
    "C24_full",
    "C24_dense",
    "C24_pattern",
    "C24_pattern_repeated"
   ],
   "note": ""
  },
  {
   "property": "C25",
   "status": "proved",
   "theorems": [
    "C25_tree",
    "C25_tiling",
    "C25_progress"
   ],
   "note": "2D and 3D, any history of graded or ungraded subdivisions; also progress: subdividing any leaf of a reachable tree never fails"
  },
  {
   "property": "C26",
   "status": "proved",
   "theorems": [
    "C26_adjacency",
    "C26_boundary",
    "C26_boundary_octree_refuted"
   ],
   "note": "2D and 3D, all cells (not only leaves). C26_boundary is for quadtrees; C26_boundary_octree_refuted: for octrees quadtree_boundary tests only four of the six directions"
  },
  {
   "property": "C27",
   "status": "partial",
   "theorems": [
    "C27_in_quadtree",
    "C27_smallest_refuted"
   ],
   "note": "everything but the documented tie-breaking is proved (C27_in_quadtree); C27_smallest_refuted: on a shared cell boundary the returned leaf need not be the smallest and others misses cells and contains the leaf itself"
  },
  {
   "property": "C28",
   "status": "proved",
   "theorems": [
    "C28_build",
    "C28_box",
    "C28_graded_step"
   ],
   "note": "2D and 3D"
  },
  {
   "property": "C29",
   "status": "partial",
   "theorems": [
    "C29_laplacian",
    "C29_laplacian_signs",
    "C29_laplacian_exact",
    "C29_gradient",
    "C29_gradient_exact",
    "C29_single_cell_refuted",
    "C29_octree_refuted",
    "C29_gradient_linear_refuted"
   ],
   "note": "Graded quadtrees with more than one cell: success, the exact finite-difference formula at every leaf for both operators, zero row sums, sign pattern (positive exactly between touching leaves), exactness on affine/quadratic functions under stated neighbour conditions - all proved. The full statement is false: a single cell makes both raise, every octree makes the Laplacian raise, and the gradient of an affine function is wrong next to a coarser neighbour (the _refuted theorems)."
  },
  {
   "property": "C30",
   "status": "partial",
   "theorems": [
    "C30_bvh",
    "C30_nested",
    "C30_root_box",
    "C30_points",
    "C30_empty",
    "C30_nested_refuted"
   ],
   "note": "C30_nested_refuted: the root box need not contain its children's boxes once coordinates exceed the 10000 clamp; everything else (leaf partition, child links, boxes contain their elements, termination) is proved"
  },
  {
   "property": "C31",
   "status": "proved",
   "theorems": [
    "C31_aabb",
    "C31_brute",
    "C31_same_distance",
    "C31_distance_to_shape",
    "C31_unsigned",
    "C31_hausdorff"
   ],
   "note": "Python path over exact reals; argsort is any sorting permutation; triangles non-degenerate; C++ acceleration path not modelled"
  },
  {
   "property": "C32",
   "status": "proved",
   "theorems": [
    "C32_triangle",
    "C32_segment3",
    "C32_segment2",
    "C32_segment_short",
    "C32_segment_short_refuted",
    "C32_point"
   ],
   "note": "Exact real arithmetic. Triangles in 3D (all seven regions), segments in 2D/3D, points in any dimension. Segments shorter than the documented 1e-10 threshold (and not a single point) are measured to their first end point: C32_segment_short, and C32_segment_short_refuted shows this is not the minimum."
  },
  {
   "property": "C33",
   "status": "proved",
   "theorems": [
    "C33_minimum_distance",
    "C33_gap",
    "C33_triangle_meshes"
   ],
   "note": "C33_minimum_distance takes triangle_triangle_distance as an arbitrary function whose value is attained by points of the two triangles; C33_triangle_meshes discharges this with the model of triangle_triangle_distance for meshes without tiny non-degenerate faces (see C62)."
  },
  {
   "property": "C34",
   "status": "partial",
   "theorems": [
    "C34_default_refuted",
    "C34_default_single"
   ],
   "note": "C34_default_refuted: default_add_to_queue calls itself with two arguments, so the default policy raises TypeError whenever an internal root is accepted; other add_to_queue policies are covered by C31/C33"
  },
  {
   "property": "C35",
   "status": "proved",
   "theorems": [
    "C35_hit",
    "C35_whole_line_refuted",
    "C35_miss_infinite_refuted"
   ],
   "note": "for rays (t >= 0). The docstring's two extra remarks (whole line; some coordinate infinite on a miss) are refuted."
  },
  {
   "property": "C36",
   "status": "partial",
   "theorems": [
    "C36_sound",
    "C36_complete_partial",
    "C36_complete_refuted"
   ],
   "note": "sound; complete when |dir.(v0v2 x v0v1)| >= 1e-6; refuted below that absolute threshold (ray_triangle_intersect.py:62): small triangles are invisible."
  },
  {
   "property": "C37",
   "status": "partial",
   "theorems": [
    "C37_first_hit_partial",
    "C37_default_edges",
    "C37_vertex_refuted",
    "C37_collinear_refuted",
    "C37_overwrite_refuted"
   ],
   "note": "first proper crossing proved when no edge is (nearly) parallel to the ray; refuted for rays through a vertex (strict inequalities, :105), collinear edges (:75 uses a0 twice) and collinear edges overriding nearer hits / max_distance."
  },
  {
   "property": "C38",
   "status": "proved",
   "theorems": [
    "C38_planar",
    "C38_spatial",
    "C38_corners"
   ],
   "note": ""
  },
  {
   "property": "C39",
   "status": "proved",
   "theorems": [
    "C39_area_any_dim",
    "C39_area",
    "C39_area_perm",
    "C39_volume"
   ],
   "note": ""
  },
  {
   "property": "C40",
   "status": "proved",
   "theorems": [
    "C40_intrinsic",
    "C40_mesh"
   ],
   "note": ""
  },
  {
   "property": "C41",
   "status": "proved",
   "theorems": [
    "C41_mesh",
    "C41_intrinsic",
    "C41_polyline",
    "C41_voronoi_share"
   ],
   "note": ""
  },
  {
   "property": "C42",
   "status": "proved",
   "theorems": [
    "C42_surface",
    "C42_planar",
    "C42_polyline"
   ],
   "note": ""
  },
  {
   "property": "C43",
   "status": "proved",
   "theorems": [
    "C43_min_quad_succeeds",
    "C43_min_quad",
    "C43_min_quad_constrained_psd",
    "C43_fixed_dof",
    "C43_min_quad_accepts",
    "C43_fixed_dof_accepts"
   ],
   "note": "The sparse factorisation is a parameter with the contract that it solves exactly when it returns (solver_ok). Symmetry of Q is not needed. Reuse: the precomputed object does not depend on the right-hand sides."
  },
  {
   "property": "C44",
   "status": "proved",
   "theorems": [
    "C44_roundtrip",
    "C44_writer_checks"
   ],
   "note": "Text-level model of the python writer and reader (lines, blanks, slashes, decimal integers); float formatting is an abstract show/parse pair with the round-trip contract as a hypothesis."
  },
  {
   "property": "C45",
   "status": "proved",
   "theorems": [
    "C45_contour",
    "C45_closed",
    "C45_exactly_one",
    "C45_exactly_one_refuted"
   ],
   "note": "exact reals; vertices merged by rounding to 2^-26 grid units as in the code. C45_exactly_one_refuted: where a node value is zero, branches share a vertex with several outgoing edges (why the property says as many in as out)."
  },
  {
   "property": "C46",
   "status": "proved",
   "theorems": [
    "C46_best",
    "C46_monotone",
    "C46_other_topology"
   ],
   "note": "Python path and particle_swarm.cpp, every draw sequence, finite objective values; exact reals; documented topologies"
  },
  {
   "property": "C47",
   "status": "partial",
   "theorems": [
    "C47_samples",
    "C47_first_value_refuted",
    "C47_terminates"
   ],
   "note": "C47_first_value_refuted: F[0] is never assigned and stays 0; all other parts proved; termination depends on the draws (C47_terminates for always-accepted proposals)"
  },
  {
   "property": "C48",
   "status": "partial",
   "theorems": [
    "C48_2d",
    "C48_3d_partial",
    "C48_3d_refuted"
   ],
   "note": "2D proved for all non-zero pairs; 3D proved except opposite directions, where C48_3d_refuted shows the result is -I (determinant -1). Uses Classical_Prop.classic through the standard library's acos"
  },
  {
   "property": "C49",
   "status": "partial",
   "theorems": [
    "C49_unit_box",
    "C49_caller_refuted"
   ],
   "note": "box, uniform scale, centring and unit extent proved (C49_unit_box); C49_caller_refuted: the caller's array is overwritten unless every column already has minimum 0"
  },
  {
   "property": "C50",
   "status": "proved",
   "theorems": [
    "C50_interpolates",
    "C50_defined",
    "C50_continuous",
    "C50_tangent",
    "C50_above",
    "C50_single"
   ],
   "note": "One coordinate and one query time (queries and columns are elementwise in the code); exact reals. Times below 0 silently wrap (negative index) and are outside the documented range; not claimed."
  },
  {
   "property": "C51",
   "status": "proved",
   "theorems": [
    "C51_blend",
    "C51_common_transform",
    "C51_identity",
    "C51_linear_in_weights",
    "C51_equivariant"
   ],
   "note": ""
  },
  {
   "property": "C52",
   "status": "partial",
   "theorems": [
    "C52_distance",
    "C52_even_odd_partial",
    "C52_triangle",
    "C52_level_vertex_refuted"
   ],
   "note": "Distance proved for all polygons (C52_distance). Sign: proved to be the even-odd rule for query points level with no vertex, and the exact inside test for triangles. Refuted when the query point is level with a vertex (C52_level_vertex_refuted: line 55 uses <= where < is needed). Equivalence of the even-odd rule with the interior of a general simple polygon (Jordan curve theorem) is not proved."
  },
  {
   "property": "C53",
   "status": "partial",
   "theorems": [
    "C53_normal_value",
    "C53_bspline_spec",
    "C53_normal_nonneg",
    "C53_normal_support",
    "C53_normal_symmetric",
    "C53_normal_continuous_odd",
    "C53_normal_discontinuous_refuted",
    "C53_normal_second_derivative",
    "C53_normal_bad_order",
    "C53_kernel_value",
    "C53_kernel_nonneg_support_symmetric",
    "C53_kernel_derivative_first",
    "C53_kernel_derivative_second",
    "C53_kernel_continuous"
   ],
   "note": "Proved: values are scaled products of B-splines (specified independently by the box-convolution recursion and unit mass), non-negativity, support, symmetry; kernel: all value/derivative options are the true derivatives everywhere, continuity. Refuted: compactly_supported_normal with n=2 returns 0 and with n=4 returns twice the density at points exactly on interior knots, so it is discontinuous there (_refuted theorem)."
  },
  {
   "property": "C54",
   "status": "proved",
   "theorems": [
    "C54_uniform",
    "C54_triangles",
    "C54_polyline"
   ],
   "note": "rng.choice by contract is_choice (n indices of positive probability; defined on every probability vector); uniform draws in [0,1)"
  },
  {
   "property": "C55",
   "status": "partial",
   "theorems": [
    "C55_elastic_energy_partial",
    "C55_needs_many_faces_refuted"
   ],
   "note": "Refuted as stated: with 2m<n (e.g. one triangle) line 68 slices columns by the face count and the call raises ValueError (C55_needs_many_faces_refuted). For n<=2m the operator is proved to be the elastic energy of piecewise linear displacements, symmetric, PSD, annihilating all rigid motions."
  },
  {
   "property": "C56",
   "status": "proved",
   "theorems": [
    "C56_segments",
    "C56_symmetric",
    "C56_zero"
   ],
   "note": "3D points, exact reals; numpy's 0/0 modelled as nan"
  },
  {
   "property": "C57",
   "status": "proved",
   "theorems": [
    "C57_value",
    "C57_ends",
    "C57_single",
    "C57_range",
    "C57_explicit_range"
   ],
   "note": "Exact reals; scipy interp1d linear/nearest and numpy rounding modelled. Colours are rounded to integers, so the result is the rounded hull point (within 1/2 per channel, exact for integer tables in nearest mode)."
  },
  {
   "property": "C58",
   "status": "proved",
   "theorems": [
    "C58_ascii",
    "C58_binary",
    "C58_ascii_empty_rejected"
   ],
   "note": "Byte-level model, float()/struct.unpack abstract with round-trip contracts; an ASCII 0x0 file is rejected because the 0 0 header announces binary data (C58_ascii_empty_rejected)."
  },
  {
   "property": "C59",
   "status": "partial",
   "theorems": [
    "C59_cosine_rule",
    "C59_positions",
    "C59_small_value",
    "C59_scale_refuted"
   ],
   "note": "cosine rule, range and sum pi proved without the series branch; below the absolute threshold the code returns 2 sin(angle/2) (proved), so sums and scale invariance are refuted (tip_angles_intrinsic.py:47-54)."
  },
  {
   "property": "C60",
   "status": "partial",
   "theorems": [
    "C60_adjacency_empty_refuted"
   ],
   "note": "adjacency_matrix of a (0,3) array raises TypeError (csr_matrix() without arguments)."
  },
  {
   "property": "C61",
   "status": "partial",
   "theorems": [
    "C61_cut",
    "C61_empty_refuted",
    "C61_contract_satisfiable"
   ],
   "note": "proved for non-empty edge lists (C61_cut; scipy connected_components by contract); for an empty edge list the function raises TypeError (C61_empty_refuted, cut_edges.py:49)."
  },
  {
   "property": "C62",
   "status": "partial",
   "theorems": [
    "C62_distance",
    "C62_zero",
    "C62_symmetric",
    "C62_small_refuted"
   ],
   "note": "Proved exactly (value attained, lower bound, zero iff the triangles meet, symmetric) for all triangles except non-degenerate ones with (2*area)^2 <= 1e-15, where the code skips the face test: C62_small_refuted exhibits two triangles of size 1e-5 for which the value is not their distance. The documented closest points s, t are not returned by the code."
  },
  {
   "property": "C63",
   "status": "partial",
   "theorems": [
    "C63_fmt_argument_refuted",
    "C63_extension"
   ],
   "note": "Refuted: fmt[1:] drops the first letter of the documented names, so fmt=\"obj\" always fails (C63_fmt_argument_refuted); selection by extension proved."
  },
  {
   "property": "C64",
   "status": "proved",
   "theorems": [
    "C64_crossings",
    "C64_reverse",
    "C64_outside",
    "C64_inside",
    "C64_triangle"
   ],
   "note": "2D branch (the 3D branch calls the C++ fast winding number, not modelled)"
  },
  {
   "property": "C65",
   "status": "partial",
   "theorems": [
    "C65_signed_distance",
    "C65_counterclockwise",
    "C65_clockwise_refuted"
   ],
   "note": "2D, Python path of squared_distance. Absolute value proved for all polygons; sign proved to be negative iff the winding number is >= 1, hence right for counterclockwise convex polygons; C65_clockwise_refuted: for clockwise polygons the sign is positive inside (np.sign(-2W+1) with W=-1). Edges shorter than 1e-10 but not degenerate are excluded, as in C31."
  },
  {
   "property": "C66",
   "status": "partial",
   "theorems": [
    "C66_values",
    "C66_gauss_bonnet",
    "C66_planar",
    "C66_small_refuted"
   ],
   "note": "Proved: values at every vertex, Gauss-Bonnet on closed meshes, planar vertices (defect 2 pi (1-w), w the winding number of the ring), all without the small-angle series or above its threshold. C66_small_refuted: with the default use_small_angle_approx=True a regular tetrahedron with squared edge length below sqrt(eps) has total curvature 8 pi - 12 instead of 4 pi."
  },
  {
   "property": "C67",
   "status": "partial",
   "theorems": [
    "C67_face_normals",
    "C67_vertex_normals",
    "C67_vertex_normals_polyline",
    "C67_degenerate_refuted",
    "C67_closed_surface",
    "C67_dihedral"
   ],
   "note": "Everything proved for meshes without zero-area faces. C67_degenerate_refuted: a zero-area face makes the vertex normals of its corners NaN (0 times NaN) although its area weight is zero and the weighted sum of the other normals is not zero (per_vertex_normals.py:38,50)."
  },
  {
   "property": "C68",
   "status": "proved",
   "theorems": [
    "C68_mixed",
    "C68_hessian_planar",
    "C68_hessian_surface",
    "C68_hessian_affine"
   ],
   "note": "Both energies (bc='mixedfem_zero_neumann' and bc='hessian' in 2D and 3D) over exact reals. The curved_hessian option is C++ and outside the model. The affine kernel is proved for consistently oriented planar meshes without foldovers."
  },
  {
   "property": "C69",
   "status": "proved",
   "theorems": [
    "C69_value",
    "C69_derivatives",
    "C69_rows",
    "C69_rows_total",
    "C69_positive_definite"
   ],
   "note": "exact reals; broadcasting a single row against many rows is not modelled"
  },
  {
   "property": "C70",
   "status": "partial",
   "theorems": [
    "C70_posterior",
    "C70_interpolates",
    "C70_default",
    "C70_mean_function",
    "C70_induced_same",
    "C70_compact_1d_partial",
    "C70_compact_refuted",
    "C70_shape_refuted"
   ],
   "note": "posterior formula, semidefiniteness, interpolation, gradients, inducing points = training points proved for exact splu/cg (contracts; elimination is a witness). compact_kernel refuted in the plane (C70_compact_refuted: support measured along the diagonal), proved in 1D for supports up to 1; output shape refuted with gradients (C70_shape_refuted: (dim+1)*num_test entries)."
  },
  {
   "property": "C71",
   "status": "proved",
   "theorems": [
    "C71_icosphere",
    "C71_negative"
   ],
   "note": "Exact reals; the table of base coordinates is the decimal table of the source, recentred and normalised as in the code."
  },
  {
   "property": "C72",
   "status": "partial",
   "theorems": [
    "C72_scs",
    "C72_mosek",
    "C72_factor_refuted",
    "C72_factor_order_refuted",
    "C72_errors",
    "C72_example"
   ],
   "note": "C72_scs and C72_mosek: both encodings are exact, for every problem of matching shapes, given solvers (and for MOSEK a Cholesky factorisation) meeting their contracts; Q symmetric, k without repetitions for MOSEK. Refuted part: L is documented with shape (?,n), but a non-square L is an AssertionError (C72_factor_refuted) and a square one means Q = L L^T instead of L^T L (C72_factor_order_refuted). d >= 2 with a G without rows is a ValueError on the SCS path (not covered)."
  },
  {
   "property": "C73",
   "status": "partial",
   "theorems": [
    "C73_step",
    "C73_succeeds",
    "C73_default_mass",
    "C73_momentum",
    "C73_stable",
    "C73_rigid",
    "C73_von_mises_refuted",
    "C73_errors",
    "C73_example"
   ],
   "note": "Time step, constraints, momentum, stability, rigid motions and success (for factorisations that succeed on SPD matrices; elimination is a witness) proved for meshes with n <= 2 #F (otherwise the stiffness call raises, C55). Refuted: sigma_v carries a spurious factor 0.5 inside the root, so it is the von Mises stress divided by sqrt 2 (C73_von_mises_refuted, linear_elasticity.py:96). U is returned as a flat vector of length 2n rather than the documented matrix."
  },
  {
   "property": "C74",
   "status": "proved",
   "theorems": [
    "C74_intrinsic",
    "C74_embedded",
    "C74_default_n",
    "C74_errors"
   ],
   "note": "Exact reals; NaN is modelled as an error."
  },
  {
   "property": "C75",
   "status": "partial",
   "theorems": [
    "C75_planar",
    "C75_eigenfunction",
    "C75_grid_eigenvector",
    "C75_spatial_partial",
    "C75_spatial_refuted"
   ],
   "note": "Proved in two dimensions. In three dimensions the code only tries mode indices below round(sqrt(num_modes//8)) and fills the remaining columns with ones: refuted for every spatial grid with 2 <= num_modes < 456 (first and last column are the same constant); what does hold there is C75_spatial_partial. The documented example unpacks two results but only vecs is returned (not expressed)."
  },
  {
   "property": "C76",
   "status": "partial",
   "theorems": [
    "C76_alignment",
    "C76_keyframes",
    "C76_transformations",
    "C76_precedence_refuted",
    "C76_errors",
    "C76_example"
   ],
   "note": "Keyframes, alignment and errors proved for all paths; the documented precedence of transformations over translations is refuted (C76_precedence_refuted). The C++ sweep and decimation are parameters."
  },
  {
   "property": "C77",
   "status": "proved",
   "theorems": [
    "C77_arguments",
    "C77_errors",
    "C77_example"
   ],
   "note": "The C++ remesher is a parameter receiving the prepared arguments. Noted: on closed meshes without features the feature edges reach it unchecked; naming a vertex both by v and v-n raises ValueError."
  },
  {
   "property": "C78",
   "status": "partial",
   "theorems": [
    "C78_mean",
    "C78_succeeds",
    "C78_not_converged",
    "C78_variance",
    "C78_subspace",
    "C78_grid_from_cloud",
    "C78_arguments",
    "C78_grid_order_2d",
    "C78_grid_order_3d_refuted",
    "C78_outside",
    "C78_one_sided_refuted",
    "C78_grid_from_cloud_valid",
    "C78_covariance_3d_refuted",
    "C78_small_grid_refuted"
   ],
   "note": "Proved: mean (2D, 3D), success, variance and subspace variance (2D), arguments, automatic grid, samples outside. Refuted: the 3D covariance drops kernel values of node pairs near faces (grid_neighbors with output_unique), fewer than eight nodes double-count kernel values, the automatic grid rejects clouds on one side of a coordinate hyperplane, the returned 3D coordinate arrays match neither reading order of the mean. Missing: the 3D variance (false near faces). An integer corner array makes += raise (not modelled)."
  },
  {
   "property": "C79",
   "status": "partial",
   "theorems": [
    "C79_nested",
    "C79_search",
    "C79_best",
    "C79_none",
    "C79_round_trip",
    "C79_warm_dict",
    "C79_warm_true",
    "C79_unknown_mode_refuted",
    "C79_tolerance_refuted",
    "C79_warm_direction_refuted",
    "C79_nonvacuous",
    "C79_warm_nonvacuous"
   ],
   "note": "Proved for every signed distance and first-hit oracle and every swarm run (composed with the particle_swarm model of C46): nesting of the returned copy, range and rotation, the scale search up to max(scale_tol, 3.05e-5), best-so-far, bounding box, zero result, warm starts not below the seed (exact axis-angle round trip for rotation angles 0, pi or in [1e-12, pi-1e-6], same samples). Refuted: scale_tol below 3e-5 is not reached (15 bisection steps); unknown mode strings are treated as 'rigid'; a seed with a removal direction on the wrong side is flipped and its scale can drop to 0. Missing: seeds with angles strictly between pi-1e-6 and pi."
  },
  {
   "property": "C80",
   "status": "partial",
   "theorems": [
    "C80_partial",
    "C80_first_row_refuted",
    "C80_volume_refuted",
    "C80_one_material_refuted",
    "C80_uniform_refuted",
    "C80_single_refuted"
   ],
   "note": "C80_partial proves, for every returned result, that the input vertices are kept, every tetrahedron after the first row is positive, inside an input tetrahedron and soundly labelled at each of its points, and that together with left-out pieces they tile the input. The tiling claim itself is false: C80_first_row_refuted (the first returned row is always (0,0,0,0) without a label), C80_volume_refuted (volume is lost on every nonempty mesh), C80_one_material_refuted (with one material the last two tetrahedra are missing), C80_uniform_refuted (a material that is largest everywhere, k>=2, at least three tetrahedra: out-of-range read), C80_single_refuted (one tetrahedron with one vertex against three: out-of-range write). C80_nonvacuous is a run that returns."
  },
  {
   "property": "C81",
   "status": "partial",
   "theorems": [
    "C81_descent",
    "C81_fixed_boundary",
    "C81_fix_boundary_closed_refuted",
    "C81_fix_boundary_2d_refuted",
    "C81_no_samples_refuted",
    "C81_iteration",
    "C81_terminates",
    "C81_outcome",
    "C81_zero",
    "C81_target",
    "C81_step_succeeds",
    "C81_stationary",
    "C81_plane_mass",
    "C81_fixed_point",
    "C81_h_bounds",
    "C81_samples",
    "C81_samples_kept",
    "C81_result",
    "C81_default_min_h",
    "C81_linesearch",
    "C81_h_given",
    "C81_ignored"
   ],
   "note": "the flow part holds; refuted parts: calling without U always raises, fix_boundary raises on closed surfaces and always in the plane (C81_*_refuted). The remeshing stage, the closest-point query, the linear solver, the random sampling and the degeneracy test are parameters; its 2D remeshing is C82"
  },
  {
   "property": "C82",
   "status": "partial",
   "theorems": [
    "C82_split",
    "C82_collapse",
    "C82_collapse_terminates",
    "C82_small_curves_refuted",
    "C82_relaxation",
    "C82_relax_step",
    "C82_remesh"
   ],
   "note": "All parts proved (C82_split, C82_collapse, C82_collapse_terminates, C82_relaxation, C82_relax_step, C82_remesh) except the last sentence, which is refuted: closed curves without features that fit into a convex region of diameter below 0.7h collapse completely and remove_unreferenced raises ValueError on the empty edge list (C82_small_curves_refuted); C82_remesh shows this is the only way to raise."
  },
  {
   "property": "C83",
   "status": "partial",
   "theorems": [
    "C83_split",
    "C83_features",
    "C83_example",
    "C83_one_pass_refuted",
    "C83_one_pass_example",
    "C83_duplicate_refuted",
    "C83_pillow_refuted",
    "C83_past_end_refuted"
   ],
   "note": "Proved in full for meshes that satisfy omesh, with tables as igl::unique_edge_map gives them (contract coherent/once); refuted parts are theorems ending in _refuted."
  },
  {
   "property": "C84",
   "status": "proved",
   "theorems": [
    "C84_flips",
    "C84_effects",
    "C84_progress",
    "C84_all_features",
    "C84_example"
   ],
   "note": "equalize_valences.cpp over exact reals; igl::flip_edge and igl::unique_edge_map enter through contracts flip_ok and coherent/once, and a witness igl_flip is proved to meet flip_ok. Valence is the number of incident faces, so boundary vertices are driven to six as well. std::remove_if over an empty range leaves stale neighbours in the adjacency lists, which makes the non-manifold test conservative."
  },
  {
   "property": "C85",
   "status": "partial",
   "theorems": [
    "C85_relax",
    "C85_no_project_refuted",
    "C85_example"
   ],
   "note": "The stage is fully characterised; the documented reprojection of curve vertices without project is refuted (C85_no_project_refuted). point_mesh_squared_distance is a contract (closest_on_mesh)."
  },
  {
   "property": "C86",
   "status": "partial",
   "theorems": [
    "C86_corner_refuted",
    "C86_allowed",
    "C86_normal_refuted"
   ],
   "note": "igl::decimate is a contract (run/decimated: any sequence of collapses the callback allows). Refuted parts: C86_corner_refuted (an end of a curve is lost after it has been merged into a lower numbered ordinary vertex) and C86_normal_refuted (face number 0 is not tested); these are stated with tables given only as far as the callback reads them."
  },
  {
   "property": "C87",
   "status": "proved",
   "theorems": [
    "C87_remesh",
    "C87_example",
    "C87_noop",
    "C87_noop_refuted"
   ],
   "note": "Over the igl_ok contracts of the libigl functions."
  },
  {
   "property": "C88",
   "status": "partial",
   "theorems": [
    "C88_bisection",
    "C88_tight",
    "C88_no_iterations_refuted",
    "C88_containment_refuted",
    "C88_example"
   ],
   "note": "The bisection bracket, the returned candidate and its tightness are proved for every implementation of the geometric tools; refuted: with max_iter <= 0 force_output raises UnboundLocalError, and containment is never tested (an empty candidate is returned as a cage)."
  },
  {
   "property": "C89",
   "status": "partial",
   "theorems": [
    "C89_boolean",
    "C89_subtraction_refuted",
    "C89_intersect",
    "C89_decimate",
    "C89_barycenters",
    "C89_example"
   ],
   "note": "All parts proved; refuted: the documented alias 'subtraction' is not in the table and fails with an unbound variable, as does every unknown operation."
  },
  {
   "property": "C90",
   "status": "partial",
   "theorems": [
    "C90_quadtree",
    "C90_octree",
    "C90_empty_H_refuted",
    "C90_example"
   ],
   "note": "Vertices, quads and hexahedra proved exact for every reachable tree; refuted: H is not empty for quadtrees but one row of indices."
  },
  {
   "property": "C91",
   "status": "proved",
   "theorems": [
    "C91_query",
    "C91_cloud",
    "C91_resolve",
    "C91_example",
    "C91_resolves"
   ],
   "note": "Proved in dimension 2 and 3 for the C++ core as a state machine over arbitrary schedules (iterations of different threads touch different memory and are taken as atomic), exact reals, nanoflann's nearest point arbitrary. Distinct sample positions are assumed (coinciding ones divide by zero). C91_resolve specifies the planar collision resolution. Found by reading, outside the model: in dimension 2 the comma initialisers of sAABB.cpp:118-121 write a third coefficient behind 2-vectors, and get_k_closest_spheres_unsafe (unused) increments its index twice."
  },
  {
   "property": "C92",
   "status": "partial",
   "theorems": [
    "C92_cloud",
    "C92_move",
    "C92_antipode_refuted",
    "C92_example"
   ],
   "note": "Proved in dimension 2, and in dimension 3 when no point is sent to its antipode; C92_antipode_refuted: an antipodal target gives a zero rotation axis and the point leaves its sphere. The line search ignores the sphere with the number of its iteration instead of the point's own sphere (the loop variable hides it): a moved point may lie deep inside one other sphere (C92_move) until the feasibility search. If the line search fails the target itself is taken."
  },
  {
   "property": "C93",
   "status": "proved",
   "theorems": [
    "C93_points",
    "C93_found",
    "C93_mesh",
    "C93_equivariant",
    "C93_single",
    "C93_example"
   ],
   "note": "The random draws, the outside points found by rasterization, nanoflann's nearest point, thread schedules, libigl's answers about the mesh and the surface reconstruction are parameters with contracts stated in the theorem; in space the mesh must not send a point to its antipode (C92_antipode_refuted). Found: with no point on the positive side and no negative samples P and N are None instead of empty arrays; integer U raises at U /= scale; batches are drawn with replacement."
  },
  {
   "property": "C94",
   "status": "partial",
   "theorems": [
    "C94_read",
    "C94_writer_checks",
    "C94_roundtrip",
    "C94_engines",
    "C94_shape",
    "C94_short_row_refuted",
    "C94_quad_refuted",
    "C94_lenient_refuted",
    "C94_example"
   ],
   "note": "The last sentence is refuted: a short vertex row repeats its last number (C94_short_row_refuted), a fourth corner of a later face is dropped silently (C94_quad_refuted; the Python reader raises in both cases), an unreadable face number becomes -1 and a line with a tab after its letter is skipped (C94_lenient_refuted); everything else is proved. std::stod and operator<< are parameters. Found by reading, outside the model: std::stod throws std::out_of_range for subnormal numbers, which is not caught, so they cannot be read back; stream.imbue throws where the locale en_US.UTF-8 is not installed; a blank before a carriage return adds a column of NaN; a line 'v ' with one number fewer and a trailing blank gives NaN instead of the repeated number."
  },
  {
   "property": "C95",
   "status": "partial",
   "theorems": [
    "C95_first_hit_partial",
    "C95_miss",
    "C95_tree_independent",
    "C95_empty",
    "C95_rows_refused",
    "C95_example",
    "C95_short_direction_refuted"
   ],
   "note": "The last claim is refuted and with it completeness: ray_triangle_intersect rejects a triangle when (v1-v0).(d x (v2-v0)) is below 1e-6 in absolute value, so short directions and small triangles are missed (C95_short_direction_refuted: the same ray, with a direction shorter than 1e-6, misses the unit triangle it goes through). C95_first_hit_partial is the full claim with these triangles left out; C95_miss and C95_tree_independent are complete for rays that meet no such triangle. Also proved: an empty mesh is an AssertionError, fewer directions than origins an IndexError. The Embree path is not modelled."
  },
  {
   "property": "C96",
   "status": "partial",
   "theorems": [
    "C96_binary_roundtrip",
    "C96_ascii_roundtrip",
    "C96_merged",
    "C96_binary_format",
    "C96_ascii_grammar",
    "C96_long_line",
    "C96_nonfinite_refuted",
    "C96_empty_refuted",
    "C96_example"
   ],
   "note": "The last sentence is refuted: a binary file without faces is reported as empty (C96_empty_refuted; the ASCII file reads), and an ASCII file with nan or inf at a corner cannot be read (C96_nonfinite_refuted); lines of more than 257 bytes make reading fail (C96_long_line). Everything else is proved. operator<< and operator>> on floats and the conversions between float and double are parameters. Found: the reader appends an uninitialised byte to the last line (:178-186, stream.get at the end of the file), a last line of exactly 257 bytes is dropped, the wrapper reports a wrong facet count and an unexpected keyword as 'Unknown error', ASCII files keep the stream's default precision of six digits although the arrays are doubles."
  },
  {
   "property": "C97",
   "status": "partial",
   "theorems": [
    "C97_bytes",
    "C97_read",
    "C97_roundtrip_binary",
    "C97_roundtrip_text",
    "C97_roundtrip_partial",
    "C97_colors_refuted",
    "C97_property_order_refuted",
    "C97_truncated_refuted",
    "C97_normals_refuted",
    "C97_no_vertices_refuted",
    "C97_quad_refuted"
   ],
   "note": "Proved: C97_read (any format, element and property order, extra properties and elements, for x y z / nx ny nz / colours declared in this order with the types the wrapper handles, triangles with four-byte indices and lists of fewer than 256 entries, and no element-property pair that runs together to a requested name), the round trip of V, F, N in binary (C97_roundtrip_binary, C97_roundtrip_partial) and text files (C97_roundtrip_text, operator<< and operator>> are parameters with the contract text_io). Refuted: colours never survive a round trip unless all but the first red are zero (C97_colors_refuted): write_ply registers a uint4 matrix as UINT8, so entry i of the flattened matrix becomes the red of row i; test_write_mesh compares with np.isclose(...).all without calling it. Coordinates declared as y x z come back in file order (C97_property_order_refuted); truncated files are read without an error into uninitialised memory (C97_truncated_refuted); double normals next to float coordinates are dropped (C97_normals_refuted, tinyply_wrappers.cpp:200 tests the vertices' type); a file without vertices follows a null pointer (C97_no_vertices_refuted); a quadrilateral is reported as unexpected EOF (C97_quad_refuted). Missing: files with coordinates of other types, face indices of one or two bytes."
  },
  {
   "property": "C98",
   "status": "partial",
   "theorems": [
    "C98_again",
    "C98_kept",
    "C98_covered",
    "C98_reuse",
    "C98_value",
    "C98_descends",
    "C98_stays",
    "C98_first_try",
    "C98_history",
    "C98_reuse_refuted"
   ],
   "note": "Proved for all functions f, gf (any derivative, also a wrong one), all starts in [0,1] for which the loop's first test holds (0..1 against 1e7) and all stores: C98_value, C98_descends, C98_kept, C98_covered, C98_reuse, C98_again, C98_stays, C98_first_try, C98_history (every one for all histories through the arbitrary store; C98_stays and C98_first_try: the nine tries at 1/50, 1/100, ... against the derivative, the first that gains enough is taken). C98_reuse_refuted: with stored intervals the answer need not be as good as the start: every time in an interval gets the stored result of an earlier path, even if the distance is smaller at the start itself. Not claimed: that the result is a local minimum (the search stops after 100 evaluations or when nine halvings fail). Model: rationals instead of doubles; assert() compiled out (the assertion in line 60 can fail in a debug build when 100 evaluations are reached); the distance and its derivative are parameters."
  },
  {
   "property": "C99",
   "status": "partial",
   "theorems": [
    "C99_position",
    "C99_keyframes",
    "C99_velocity",
    "C99_rotation_velocity",
    "C99_matrices",
    "C99_matrix_derivative",
    "C99_velocity_refuted"
   ],
   "note": "Proved: C99_position (the same function as catmull_rom_spline of C50), C99_keyframes, C99_velocity (for all 0 < t < 1), C99_matrices, C99_rotation_velocity (the four matrices of partial derivatives along any differentiable quaternion path), C99_matrix_derivative. C99_velocity_refuted: between keyframes of different scale the code's VRt is not the derivative of Rt (line 162 multiplies the already scaled Rt with the derivative of the scale): from I to 2I at the middle the entry (0,0) has derivative 1, the code says 3/2; C99_matrix_derivative gives the exact error for all inputs and shows that VRt is right if the two scales agree. Parameters: the quaternion path of each segment and its derivative (Eigen's Quaternion(R), slerp, and logq), with the contract that it joins the rotations of the keyframes (not needed for the translation). Negative scales and shears do not meet the contract. Exact reals."
  },
  {
   "property": "C100",
   "status": "partial",
   "theorems": [
    "C100_mesh",
    "C100_raises",
    "C100_depth",
    "C100_translation",
    "C100_boundary",
    "C100_boundary_refuted"
   ],
   "note": "Proved: C100_mesh, C100_raises, C100_depth, C100_translation, C100_boundary, for every solver. C100_boundary_refuted: any other name of the boundary condition, also DIRICHLET, silently means Neumann. The Poisson solver (PoissonRecon) is a parameter without a contract: nothing is claimed about the surface it finds. Not modelled: threads, verbose, conversion to float64; exact reals."
  },
  {
   "property": "C101",
   "status": "partial",
   "theorems": [
    "C101_voxels",
    "C101_cubes",
    "C101_vertices",
    "C101_glued",
    "C101_appends",
    "C101_order",
    "C101_run_cubes",
    "C101_skipped",
    "C101_value_answered",
    "C101_value_least",
    "C101_monotone"
   ],
   "note": "Proved: C101_run_cubes, C101_skipped, C101_value_answered, C101_value_least, C101_monotone for every sequence of queue entries with arbitrary answers of the scalar function; C101_voxels, C101_cubes, C101_vertices, C101_glued, C101_appends, C101_order for the grid alone, for every sequence of entries that are not skipped. Not modelled: times and intervals (they decide what is asked), which neighbors are queued and with which times, termination of the loop, hence that the grid meets the whole surface; marching cubes on the grid (libigl). Values are rationals, exact as the code only compares the answers; nan and infinities are not modelled."
  }
 ]
}