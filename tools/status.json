{
 "C01": [
  "proved",
  ""
 ],
 "C02": [
  "proved",
  ""
 ],
 "C03": [
  "partial",
  "The documented claim is false of the code: interior_indices / nonmanifold_indices index np.unique's output, not the returned (boundary-first) array (edges.py:71,74; faces.py:71,74). Refutations with witnesses; the claim is proved for meshes without boundary."
 ],
 "C04": [
  "proved",
  ""
 ],
 "C05": [
  "proved",
  ""
 ],
 "C06": [
  "proved",
  ""
 ],
 "C07": [
  "proved",
  ""
 ],
 "C08": [
  "proved",
  ""
 ],
 "C09": [
  "proved",
  ""
 ],
 "C11": [
  "proved",
  ""
 ],
 "C15": [
  "proved",
  ""
 ],
 "C38": [
  "proved",
  ""
 ],
 "C39": [
  "proved",
  ""
 ],
 "C40": [
  "proved",
  ""
 ],
 "C41": [
  "proved",
  ""
 ],
 "C42": [
  "proved",
  ""
 ],
 "C12": [
  "partial",
  "h1, h2: proved. h0: false of the code, dec_h0inv sums reciprocals (dec_h0inv_intrinsic.py:40-46); the product with dec_h0 is >= k^2 at a vertex with k corners, 1 only for k=1."
 ],
 "C13": [
  "partial",
  "proved for non-empty F; for empty F the code raises (remove_unreferenced.py:70-82 dead branch)."
 ],
 "C14": [
  "partial",
  "epsilon=0: proved. epsilon>0: proved what rounding to cells guarantees; the documented 'closer than epsilon are merged' is refuted."
 ],
 "C10": [
  "proved",
  "scipy's csgraph.connected_components is a parameter with a stated contract, shown satisfiable."
 ],
 "C16": [
  "partial",
  "edge_indices proved; circle: on the unit circle, edges form the cycle; distinctness refuted: first and last vertex coincide for every n (regular_circle_polyline.py:35, linspace includes the endpoint)."
 ],
 "C17": [
  "proved",
  "hypothesis good_mesh: oriented edge-manifold, proper triangles, no two faces on the same vertex set (needed so that a second iteration is again manifold)."
 ],
 "C18": [
  "partial",
  "exact stencils proved for all rows; row sums one proved when every vertex belongs to a face and boundary vertices have one boundary fan; refuted for unreferenced vertices (zero row), bow-tie boundary vertices (sum 2), and trailing unreferenced vertices (faces index wrong rows; subdivide.py:198-201)."
 ],
 "C19": [
  "proved",
  ""
 ],
 "C20": [
  "proved",
  ""
 ],
 "C21": [
  "partial",
  "Indices, positions, positive volumes summing to 1 and uniqueness of oriented facets are proved for all three tet types; conformity is proved for the two symmetric types and refuted for 'five' (regular_cube_mesh.py:77-83 repeats one pattern where alternating mirrored ones are needed)."
 ],
 "C60": [
  "partial",
  "adjacency_matrix of a (0,3) array raises TypeError (csr_matrix() without arguments)."
 ],
 "C22": [
  "partial",
  "order=1 exact (2D, 3D); any order: every listed cell is reached by a walk of at most 2^(order-1) steps; refuted as documented: order=3 returns 4-step cells, order>=2 lists the cell itself even with include_self=False, output_unique drops real neighbours when a side is 2, and with order=2 in 3D next to a face."
 ],
 "C23": [
  "proved",
  ""
 ],
 "C24": [
  "proved",
  ""
 ],
 "C35": [
  "proved",
  "for rays (t >= 0). The docstring's two extra remarks (whole line; some coordinate infinite on a miss) are refuted."
 ],
 "C36": [
  "partial",
  "sound; complete when |dir.(v0v2 x v0v1)| >= 1e-6; refuted below that absolute threshold (ray_triangle_intersect.py:62): small triangles are invisible."
 ],
 "C37": [
  "partial",
  "first proper crossing proved when no edge is (nearly) parallel to the ray; refuted for rays through a vertex (strict inequalities, :105), collinear edges (:75 uses a0 twice) and collinear edges overriding nearer hits / max_distance."
 ],
 "C59": [
  "partial",
  "cosine rule, range and sum pi proved without the series branch; below the absolute threshold the code returns 2 sin(angle/2) (proved), so sums and scale invariance are refuted (tip_angles_intrinsic.py:47-54)."
 ],
 "C32": [
  "proved",
  "Exact real arithmetic. Triangles in 3D (all seven regions), segments in 2D/3D, points in any dimension. Segments shorter than the documented 1e-10 threshold (and not a single point) are measured to their first end point: C32_segment_short, and C32_segment_short_refuted shows this is not the minimum."
 ],
 "C30": [
  "partial",
  "C30_nested_refuted: the root box need not contain its children's boxes once coordinates exceed the 10000 clamp; everything else (leaf partition, child links, boxes contain their elements, termination) is proved"
 ],
 "C31": [
  "proved",
  "Python path over exact reals; argsort is any sorting permutation; triangles non-degenerate; C++ acceleration path not modelled"
 ],
 "C33": [
  "proved",
  "C33_minimum_distance takes triangle_triangle_distance as an arbitrary function whose value is attained by points of the two triangles; C33_triangle_meshes discharges this with the model of triangle_triangle_distance for meshes without tiny non-degenerate faces (see C62)."
 ],
 "C34": [
  "partial",
  "C34_default_refuted: default_add_to_queue calls itself with two arguments, so the default policy raises TypeError whenever an internal root is accepted; other add_to_queue policies are covered by C31/C33"
 ],
 "C46": [
  "proved",
  "Python path and particle_swarm.cpp, every draw sequence, finite objective values; exact reals; documented topologies"
 ],
 "C47": [
  "partial",
  "C47_first_value_refuted: F[0] is never assigned and stays 0; all other parts proved; termination depends on the draws (C47_terminates for always-accepted proposals)"
 ],
 "C48": [
  "partial",
  "2D proved for all non-zero pairs; 3D proved except opposite directions, where C48_3d_refuted shows the result is -I (determinant -1). Uses Classical_Prop.classic through the standard library's acos"
 ],
 "C49": [
  "partial",
  "box, uniform scale, centring and unit extent proved (C49_unit_box); C49_caller_refuted: the caller's array is overwritten unless every column already has minimum 0"
 ],
 "C51": [
  "proved",
  ""
 ],
 "C54": [
  "proved",
  "rng.choice by contract is_choice (n indices of positive probability; defined on every probability vector); uniform draws in [0,1)"
 ],
 "C56": [
  "proved",
  "3D points, exact reals; numpy's 0/0 modelled as nan"
 ],
 "C50": [
  "proved",
  "One coordinate and one query time (queries and columns are elementwise in the code); exact reals. Times below 0 silently wrap (negative index) and are outside the documented range; not claimed."
 ],
 "C53": [
  "partial",
  "Proved: values are scaled products of B-splines (specified independently by the box-convolution recursion and unit mass), non-negativity, support, symmetry; kernel: all value/derivative options are the true derivatives everywhere, continuity. Refuted: compactly_supported_normal with n=2 returns 0 and with n=4 returns twice the density at points exactly on interior knots, so it is discontinuous there (_refuted theorem)."
 ],
 "C44": [
  "proved",
  "Text-level model of the python writer and reader (lines, blanks, slashes, decimal integers); float formatting is an abstract show/parse pair with the round-trip contract as a hypothesis."
 ],
 "C58": [
  "proved",
  "Byte-level model, float()/struct.unpack abstract with round-trip contracts; an ASCII 0x0 file is rejected because the 0 0 header announces binary data (C58_ascii_empty_rejected)."
 ],
 "C62": [
  "partial",
  "Proved exactly (value attained, lower bound, zero iff the triangles meet, symmetric) for all triangles except non-degenerate ones with (2*area)^2 <= 1e-15, where the code skips the face test: C62_small_refuted exhibits two triangles of size 1e-5 for which the value is not their distance. The documented closest points s, t are not returned by the code."
 ],
 "C63": [
  "partial",
  "Refuted: fmt[1:] drops the first letter of the documented names, so fmt=\"obj\" always fails (C63_fmt_argument_refuted); selection by extension proved."
 ],
 "C57": [
  "proved",
  "Exact reals; scipy interp1d linear/nearest and numpy rounding modelled. Colours are rounded to integers, so the result is the rounded hull point (within 1/2 per channel, exact for integer tables in nearest mode)."
 ],
 "C55": [
  "partial",
  "Refuted as stated: with 2m<n (e.g. one triangle) line 68 slices columns by the face count and the call raises ValueError (C55_needs_many_faces_refuted). For n<=2m the operator is proved to be the elastic energy of piecewise linear displacements, symmetric, PSD, annihilating all rigid motions."
 ],
 "C43": [
  "proved",
  "The sparse factorisation is a parameter with the contract that it solves exactly when it returns (solver_ok). Symmetry of Q is not needed. Reuse: the precomputed object does not depend on the right-hand sides."
 ],
 "C52": [
  "partial",
  "Distance proved for all polygons (C52_distance). Sign: proved to be the even-odd rule for query points level with no vertex, and the exact inside test for triangles. Refuted when the query point is level with a vertex (C52_level_vertex_refuted: line 55 uses <= where < is needed). Equivalence of the even-odd rule with the interior of a general simple polygon (Jordan curve theorem) is not proved."
 ],
 "C45": [
  "proved",
  "exact reals; vertices merged by rounding to 2^-26 grid units as in the code. C45_exactly_one_refuted: where a node value is zero, branches share a vertex with several outgoing edges (why the property says as many in as out)."
 ],
 "C61": [
  "partial",
  "proved for non-empty edge lists (C61_cut; scipy connected_components by contract); for an empty edge list the function raises TypeError (C61_empty_refuted, cut_edges.py:49)."
 ],
 "C25": [
  "proved",
  "2D and 3D, any history of graded or ungraded subdivisions; also progress: subdividing any leaf of a reachable tree never fails"
 ],
 "C26": [
  "proved",
  "2D and 3D, all cells (not only leaves). C26_boundary is for quadtrees; C26_boundary_octree_refuted: for octrees quadtree_boundary tests only four of the six directions"
 ],
 "C27": [
  "partial",
  "everything but the documented tie-breaking is proved (C27_in_quadtree); C27_smallest_refuted: on a shared cell boundary the returned leaf need not be the smallest and others misses cells and contains the leaf itself"
 ],
 "C28": [
  "proved",
  "2D and 3D"
 ],
 "C29": [
  "partial",
  "Graded quadtrees with more than one cell: success, the exact finite-difference formula at every leaf for both operators, zero row sums, sign pattern (positive exactly between touching leaves), exactness on affine/quadratic functions under stated neighbour conditions - all proved. The full statement is false: a single cell makes both raise, every octree makes the Laplacian raise, and the gradient of an affine function is wrong next to a coarser neighbour (the _refuted theorems)."
 ],
 "C64": [
  "proved",
  "2D branch (the 3D branch calls the C++ fast winding number, not modelled)"
 ],
 "C65": [
  "partial",
  "2D, Python path of squared_distance. Absolute value proved for all polygons; sign proved to be negative iff the winding number is >= 1, hence right for counterclockwise convex polygons; C65_clockwise_refuted: for clockwise polygons the sign is positive inside (np.sign(-2W+1) with W=-1). Edges shorter than 1e-10 but not degenerate are excluded, as in C31."
 ],
 "C66": [
  "partial",
  "Proved: values at every vertex, Gauss-Bonnet on closed meshes, planar vertices (defect 2 pi (1-w), w the winding number of the ring), all without the small-angle series or above its threshold. C66_small_refuted: with the default use_small_angle_approx=True a regular tetrahedron with squared edge length below sqrt(eps) has total curvature 8 pi - 12 instead of 4 pi."
 ],
 "C67": [
  "partial",
  "Everything proved for meshes without zero-area faces. C67_degenerate_refuted: a zero-area face makes the vertex normals of its corners NaN (0 times NaN) although its area weight is zero and the weighted sum of the other normals is not zero (per_vertex_normals.py:38,50)."
 ],
 "C68": [
  "proved",
  "Both energies (bc='mixedfem_zero_neumann' and bc='hessian' in 2D and 3D) over exact reals. The curved_hessian option is C++ and outside the model. The affine kernel is proved for consistently oriented planar meshes without foldovers."
 ],
 "C69": [
  "proved",
  "exact reals; broadcasting a single row against many rows is not modelled"
 ],
 "C70": [
  "partial",
  "posterior formula, semidefiniteness, interpolation, gradients, inducing points = training points proved for exact splu/cg (contracts; elimination is a witness). compact_kernel refuted in the plane (C70_compact_refuted: support measured along the diagonal), proved in 1D for supports up to 1; output shape refuted with gradients (C70_shape_refuted: (dim+1)*num_test entries)."
 ],
 "C71": [
  "proved",
  "Exact reals; the table of base coordinates is the decimal table of the source, recentred and normalised as in the code."
 ],
 "C72": [
  "partial",
  "C72_scs and C72_mosek: both encodings are exact, for every problem of matching shapes, given solvers (and for MOSEK a Cholesky factorisation) meeting their contracts; Q symmetric, k without repetitions for MOSEK. Refuted part: L is documented with shape (?,n), but a non-square L is an AssertionError (C72_factor_refuted) and a square one means Q = L L^T instead of L^T L (C72_factor_order_refuted). d >= 2 with a G without rows is a ValueError on the SCS path (not covered)."
 ],
 "C73": [
  "partial",
  "Time step, constraints, momentum, stability, rigid motions and success (for factorisations that succeed on SPD matrices; elimination is a witness) proved for meshes with n <= 2 #F (otherwise the stiffness call raises, C55). Refuted: sigma_v carries a spurious factor 0.5 inside the root, so it is the von Mises stress divided by sqrt 2 (C73_von_mises_refuted, linear_elasticity.py:96). U is returned as a flat vector of length 2n rather than the documented matrix."
 ],
 "C74": [
  "proved",
  "Exact reals; NaN is modelled as an error."
 ],
 "C75": [
  "partial",
  "Proved in two dimensions. In three dimensions the code only tries mode indices below round(sqrt(num_modes//8)) and fills the remaining columns with ones: refuted for every spatial grid with 2 <= num_modes < 456 (first and last column are the same constant); what does hold there is C75_spatial_partial. The documented example unpacks two results but only vecs is returned (not expressed)."
 ],
 "C76": [
  "partial",
  "Keyframes, alignment and errors proved for all paths; the documented precedence of transformations over translations is refuted (C76_precedence_refuted). The C++ sweep and decimation are parameters."
 ],
 "C77": [
  "proved",
  "The C++ remesher is a parameter receiving the prepared arguments. Noted: on closed meshes without features the feature edges reach it unchecked; naming a vertex both by v and v-n raises ValueError."
 ],
 "C78": [
  "partial",
  "Proved: mean (2D, 3D), success, variance and subspace variance (2D), arguments, automatic grid, samples outside. Refuted: the 3D covariance drops kernel values of node pairs near faces (grid_neighbors with output_unique), fewer than eight nodes double-count kernel values, the automatic grid rejects clouds on one side of a coordinate hyperplane, the returned 3D coordinate arrays match neither reading order of the mean. Missing: the 3D variance (false near faces). An integer corner array makes += raise (not modelled)."
 ],
 "C79": [
  "partial",
  "Proved for every signed distance and first-hit oracle and every swarm run (composed with the particle_swarm model of C46): nesting of the returned copy, range and rotation, the scale search up to max(scale_tol, 3.05e-5), best-so-far, bounding box, zero result, warm starts not below the seed (exact axis-angle round trip for rotation angles 0, pi or in [1e-12, pi-1e-6], same samples). Refuted: scale_tol below 3e-5 is not reached (15 bisection steps); unknown mode strings are treated as 'rigid'; a seed with a removal direction on the wrong side is flipped and its scale can drop to 0. Missing: seeds with angles strictly between pi-1e-6 and pi."
 ],
 "C80": [
  "partial",
  "C80_partial proves, for every returned result, that the input vertices are kept, every tetrahedron after the first row is positive, inside an input tetrahedron and soundly labelled at each of its points, and that together with left-out pieces they tile the input. The tiling claim itself is false: C80_first_row_refuted (the first returned row is always (0,0,0,0) without a label), C80_volume_refuted (volume is lost on every nonempty mesh), C80_one_material_refuted (with one material the last two tetrahedra are missing), C80_uniform_refuted (a material that is largest everywhere, k>=2, at least three tetrahedra: out-of-range read), C80_single_refuted (one tetrahedron with one vertex against three: out-of-range write). C80_nonvacuous is a run that returns."
 ],
 "C81": [
  "partial",
  "the flow part holds; refuted parts: calling without U always raises, fix_boundary raises on closed surfaces and always in the plane (C81_*_refuted). The remeshing stage, the closest-point query, the linear solver, the random sampling and the degeneracy test are parameters; its 2D remeshing is C82"
 ],
 "C82": [
  "partial",
  "All parts proved (C82_split, C82_collapse, C82_collapse_terminates, C82_relaxation, C82_relax_step, C82_remesh) except the last sentence, which is refuted: closed curves without features that fit into a convex region of diameter below 0.7h collapse completely and remove_unreferenced raises ValueError on the empty edge list (C82_small_curves_refuted); C82_remesh shows this is the only way to raise."
 ],
 "C83": [
  "partial",
  "Proved in full for meshes that satisfy omesh, with tables as igl::unique_edge_map gives them (contract coherent/once); refuted parts are theorems ending in _refuted."
 ],
 "C84": [
  "proved",
  "equalize_valences.cpp over exact reals; igl::flip_edge and igl::unique_edge_map enter through contracts flip_ok and coherent/once, and a witness igl_flip is proved to meet flip_ok. Valence is the number of incident faces, so boundary vertices are driven to six as well. std::remove_if over an empty range leaves stale neighbours in the adjacency lists, which makes the non-manifold test conservative."
 ],
 "C85": [
  "partial",
  "The stage is fully characterised; the documented reprojection of curve vertices without project is refuted (C85_no_project_refuted). point_mesh_squared_distance is a contract (closest_on_mesh)."
 ],
 "C86": [
  "partial",
  "igl::decimate is a contract (run/decimated: any sequence of collapses the callback allows). Refuted parts: C86_corner_refuted (an end of a curve is lost after it has been merged into a lower numbered ordinary vertex) and C86_normal_refuted (face number 0 is not tested); these are stated with tables given only as far as the callback reads them."
 ],
 "C87": [
  "proved",
  "Over the igl_ok contracts of the libigl functions."
 ],
 "C88": [
  "partial",
  "The bisection bracket, the returned candidate and its tightness are proved for every implementation of the geometric tools; refuted: with max_iter <= 0 force_output raises UnboundLocalError, and containment is never tested (an empty candidate is returned as a cage)."
 ],
 "C89": [
  "partial",
  "All parts proved; refuted: the documented alias 'subtraction' is not in the table and fails with an unbound variable, as does every unknown operation."
 ],
 "C90": [
  "partial",
  "Vertices, quads and hexahedra proved exact for every reachable tree; refuted: H is not empty for quadtrees but one row of indices."
 ],
 "C91": [
  "proved",
  "Proved in dimension 2 and 3 for the C++ core as a state machine over arbitrary schedules (iterations of different threads touch different memory and are taken as atomic), exact reals, nanoflann's nearest point arbitrary. Distinct sample positions are assumed (coinciding ones divide by zero). C91_resolve specifies the planar collision resolution. Found by reading, outside the model: in dimension 2 the comma initialisers of sAABB.cpp:118-121 write a third coefficient behind 2-vectors, and get_k_closest_spheres_unsafe (unused) increments its index twice."
 ],
 "C92": [
  "partial",
  "Proved in dimension 2, and in dimension 3 when no point is sent to its antipode; C92_antipode_refuted: an antipodal target gives a zero rotation axis and the point leaves its sphere. The line search ignores the sphere with the number of its iteration instead of the point's own sphere (the loop variable hides it): a moved point may lie deep inside one other sphere (C92_move) until the feasibility search. If the line search fails the target itself is taken."
 ],
 "C93": [
  "proved",
  "The random draws, the outside points found by rasterization, nanoflann's nearest point, thread schedules, libigl's answers about the mesh and the surface reconstruction are parameters with contracts stated in the theorem; in space the mesh must not send a point to its antipode (C92_antipode_refuted). Found: with no point on the positive side and no negative samples P and N are None instead of empty arrays; integer U raises at U /= scale; batches are drawn with replacement."
 ],
 "C94": [
  "partial",
  "The last sentence is refuted: a short vertex row repeats its last number (C94_short_row_refuted), a fourth corner of a later face is dropped silently (C94_quad_refuted; the Python reader raises in both cases), an unreadable face number becomes -1 and a line with a tab after its letter is skipped (C94_lenient_refuted); everything else is proved. std::stod and operator<< are parameters. Found by reading, outside the model: std::stod throws std::out_of_range for subnormal numbers, which is not caught, so they cannot be read back; stream.imbue throws where the locale en_US.UTF-8 is not installed; a blank before a carriage return adds a column of NaN; a line 'v ' with one number fewer and a trailing blank gives NaN instead of the repeated number."
 ],
 "C95": [
  "partial",
  "The last claim is refuted and with it completeness: ray_triangle_intersect rejects a triangle when (v1-v0).(d x (v2-v0)) is below 1e-6 in absolute value, so short directions and small triangles are missed (C95_short_direction_refuted: the same ray, with a direction shorter than 1e-6, misses the unit triangle it goes through). C95_first_hit_partial is the full claim with these triangles left out; C95_miss and C95_tree_independent are complete for rays that meet no such triangle. Also proved: an empty mesh is an AssertionError, fewer directions than origins an IndexError. The Embree path is not modelled."
 ],
 "C96": [
  "partial",
  "The last sentence is refuted: a binary file without faces is reported as empty (C96_empty_refuted; the ASCII file reads), and an ASCII file with nan or inf at a corner cannot be read (C96_nonfinite_refuted); lines of more than 257 bytes make reading fail (C96_long_line). Everything else is proved. operator<< and operator>> on floats and the conversions between float and double are parameters. Found: the reader appends an uninitialised byte to the last line (:178-186, stream.get at the end of the file), a last line of exactly 257 bytes is dropped, the wrapper reports a wrong facet count and an unexpected keyword as 'Unknown error', ASCII files keep the stream's default precision of six digits although the arrays are doubles."
 ],
 "C97": [
  "partial",
  "Proved: C97_read (any format, element and property order, extra properties and elements, for x y z / nx ny nz / colours declared in this order with the types the wrapper handles, triangles with four-byte indices and lists of fewer than 256 entries, and no element-property pair that runs together to a requested name), the round trip of V, F, N in binary (C97_roundtrip_binary, C97_roundtrip_partial) and text files (C97_roundtrip_text, operator<< and operator>> are parameters with the contract text_io). Refuted: colours never survive a round trip unless all but the first red are zero (C97_colors_refuted): write_ply registers a uint4 matrix as UINT8, so entry i of the flattened matrix becomes the red of row i; test_write_mesh compares with np.isclose(...).all without calling it. Coordinates declared as y x z come back in file order (C97_property_order_refuted); truncated files are read without an error into uninitialised memory (C97_truncated_refuted); double normals next to float coordinates are dropped (C97_normals_refuted, tinyply_wrappers.cpp:200 tests the vertices' type); a file without vertices follows a null pointer (C97_no_vertices_refuted); a quadrilateral is reported as unexpected EOF (C97_quad_refuted). Missing: files with coordinates of other types, face indices of one or two bytes."
 ],
 "C98": [
  "partial",
  "Proved for all functions f, gf (any derivative, also a wrong one), all starts in [0,1] for which the loop's first test holds (0..1 against 1e7) and all stores: C98_value, C98_descends, C98_kept, C98_covered, C98_reuse, C98_again, C98_stays, C98_first_try, C98_history (every one for all histories through the arbitrary store; C98_stays and C98_first_try: the nine tries at 1/50, 1/100, ... against the derivative, the first that gains enough is taken). C98_reuse_refuted: with stored intervals the answer need not be as good as the start: every time in an interval gets the stored result of an earlier path, even if the distance is smaller at the start itself. Not claimed: that the result is a local minimum (the search stops after 100 evaluations or when nine halvings fail). Model: rationals instead of doubles; assert() compiled out (the assertion in line 60 can fail in a debug build when 100 evaluations are reached); the distance and its derivative are parameters."
 ],
 "C99": [
  "partial",
  "Proved: C99_position (the same function as catmull_rom_spline of C50), C99_keyframes, C99_velocity (for all 0 < t < 1), C99_matrices, C99_rotation_velocity (the four matrices of partial derivatives along any differentiable quaternion path), C99_matrix_derivative. C99_velocity_refuted: between keyframes of different scale the code's VRt is not the derivative of Rt (line 162 multiplies the already scaled Rt with the derivative of the scale): from I to 2I at the middle the entry (0,0) has derivative 1, the code says 3/2; C99_matrix_derivative gives the exact error for all inputs and shows that VRt is right if the two scales agree. Parameters: the quaternion path of each segment and its derivative (Eigen's Quaternion(R), slerp, and logq), with the contract that it joins the rotations of the keyframes (not needed for the translation). Negative scales and shears do not meet the contract. Exact reals."
 ],
 "C100": [
  "partial",
  "Proved: C100_mesh, C100_raises, C100_depth, C100_translation, C100_boundary, for every solver. C100_boundary_refuted: any other name of the boundary condition, also DIRICHLET, silently means Neumann. The Poisson solver (PoissonRecon) is a parameter without a contract: nothing is claimed about the surface it finds. Not modelled: threads, verbose, conversion to float64; exact reals."
 ],
 "C101": [
  "partial",
  "Proved: C101_run_cubes, C101_skipped, C101_value_answered, C101_value_least, C101_monotone for every sequence of queue entries with arbitrary answers of the scalar function; C101_voxels, C101_cubes, C101_vertices, C101_glued, C101_appends, C101_order for the grid alone, for every sequence of entries that are not skipped. Not modelled: times and intervals (they decide what is asked), which neighbors are queued and with which times, termination of the loop, hence that the grid meets the whole surface; marching cubes on the grid (libigl). Values are rationals, exact as the code only compares the answers; nan and infinities are not modelled."
 ]
}