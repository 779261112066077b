{"id": "C01", "title": "Half-edges and half-faces are the oriented facets opposite each corner", "statement": "For a triangle list F, halfedges(F)[f,i] is the directed edge opposite corner i of face f, traversed in the face's own orientation, so the three half-edges of a face form its closed boundary cycle. For a tet list T, halffaces(T)[t,i] is the triangle opposite corner i, and the four half-faces of a tet form a closed, consistently oriented surface (every directed edge used exactly once, and exactly as often as its reverse).", "quantifier": "every list of triangles / tetrahedra over arbitrary integer indices", "why_tests_cant": "the index pattern must be right for every element list; a wrong permutation only shows up as a flipped sign downstream", "anchors": ["src/gpytoolbox/halfedges.py:halfedges", "src/gpytoolbox/halffaces.py:halffaces"]}
{"id": "C02", "title": "edges() lists every undirected mesh edge exactly once, boundary first", "statement": "edges(F) returns a list E in which every unordered vertex pair that is a side of some face appears exactly once (in one orientation), and nothing else appears; with return_boundary_indices, the returned indices select exactly those rows of E whose unordered pair is a side of exactly one half-edge.", "quantifier": "every non-empty triangle list, including non-manifold, inconsistently oriented and degenerate ones", "why_tests_cant": "sizes and edge multiplicities are unbounded; tests use a handful of meshes", "anchors": ["src/gpytoolbox/edges.py:edges"]}
{"id": "C03", "title": "interior / non-manifold indices returned by edges() and faces() select interior / non-manifold rows", "statement": "The optional return values interior_indices and nonmanifold_indices of edges(F) (and faces(T)) are documented as indices into the returned E (F); E[interior_indices] should be exactly the edges with more than one incident half-edge and E[nonmanifold_indices] exactly those with more than two.", "quantifier": "every non-empty triangle (tet) list", "why_tests_cant": "only meshes that mix boundary and interior edges expose an index into the wrong (pre-permutation) array", "anchors": ["src/gpytoolbox/edges.py:edges", "src/gpytoolbox/faces.py:faces"]}
{"id": "C04", "title": "faces() lists every triangle of a tet mesh exactly once, boundary first", "statement": "faces(T) returns every unordered vertex triple that is a facet of some tet exactly once, and nothing else; the boundary indices select exactly the triples that are a facet of exactly one half-face.", "quantifier": "every non-empty tetrahedron list", "why_tests_cant": "same as C02, one dimension up", "anchors": ["src/gpytoolbox/faces.py:faces", "src/gpytoolbox/halffaces.py:halffaces"]}
{"id": "C05", "title": "boundary_edges / boundary_faces / boundary_vertices", "statement": "boundary_edges(F) are exactly the sides with one incident half-edge, each in the orientation of its half-edge; boundary_faces(T) likewise; boundary_vertices(F) is the strictly increasing list of exactly those vertices that are an endpoint of some boundary edge. A closed mesh gives empty outputs.", "quantifier": "every non-empty element list", "why_tests_cant": "set-level completeness over unbounded inputs", "anchors": ["src/gpytoolbox/boundary_edges.py", "src/gpytoolbox/boundary_faces.py", "src/gpytoolbox/boundary_vertices.py"]}
{"id": "C06", "title": "non_manifold_edges returns exactly the over-used edges", "statement": "non_manifold_edges(F) returns the sorted list without repetition of exactly those unordered pairs (written min,max) which occur as a side of more than two half-edges.", "quantifier": "every non-empty triangle list", "why_tests_cant": "completeness for all multiplicities", "anchors": ["src/gpytoolbox/non_manifold_edges.py"]}
{"id": "C07", "title": "array_correspondence is exact lookup", "statement": "f = array_correspondence(A,B) has one entry per row of A; f[i] = -1 iff row A[i] does not occur in B; otherwise B[f[i]] = A[i] and f[i] is a valid index (the first such). The axis/flag variants agree with this on rows.", "quantifier": "all arrays of rows, with duplicates on either side", "why_tests_cant": "correctness depends on the stable-sort / unique interplay for arbitrary duplicates", "anchors": ["src/gpytoolbox/array_correspondence.py"]}
{"id": "C08", "title": "halfedge_edge_map: he_to_E and E_to_he are mutually inverse", "statement": "For a consistently oriented manifold triangle list: every half-edge h has E[he_to_E[h]] equal to h or its reverse; E_to_he[e,0] is a half-edge equal to E[e], E_to_he[e,1] is the oppositely oriented half-edge, or -1 exactly on boundary edges, and E_to_he[he_to_E[h]] contains h. With assume_manifold=False, E_to_he[e] is exactly the set of half-edges on edge e.", "quantifier": "every oriented edge-manifold triangle list (and, for the non-manifold mode, every triangle list)", "why_tests_cant": "inverse maps must agree for every mesh; index arithmetic k%m, k//m fails only for particular positions", "anchors": ["src/gpytoolbox/halfedge_edge_map.py"]}
{"id": "C09", "title": "triangle_triangle_adjacency is a symmetric gluing", "statement": "For a consistently oriented manifold triangle list: if TT[f,i]=g>=0 and TTi[f,i]=j then half-edge j of g is the reverse of half-edge i of f, and TT[g,j]=f, TTi[g,j]=i; TT[f,i]=-1 iff TTi[f,i]=-1 iff the edge is a boundary edge.", "quantifier": "every oriented edge-manifold triangle list", "why_tests_cant": "involution over all faces and sides", "anchors": ["src/gpytoolbox/triangle_triangle_adjacency.py"]}
{"id": "C10", "title": "connected_components labels faces and vertices consistently", "statement": "Two vertices get the same component id iff they are linked by a path of mesh edges; a face's id is that of all its corners; adjacency_matrix is symmetric and non-zero exactly on mesh edges; an empty mesh gives empty outputs.", "quantifier": "every simplex list and vertex count", "why_tests_cant": "reachability is a global property", "anchors": ["src/gpytoolbox/connected_components.py", "src/gpytoolbox/adjacency_matrix.py"]}
{"id": "C11", "title": "Discrete exterior derivative squares to zero", "statement": "dec_d1(F) * dec_d0(F) = 0: for every vertex function, the discrete curl of the discrete gradient vanishes on every face; rows of d0 sum to zero.", "quantifier": "every consistently oriented manifold triangle list and every vertex function", "why_tests_cant": "an identity over all meshes", "anchors": ["src/gpytoolbox/dec_d0.py", "src/gpytoolbox/dec_d1.py", "src/gpytoolbox/halfedge_edge_map.py"]}
{"id": "C12", "title": "Hodge stars and their claimed inverses", "statement": "dec_h0inv, dec_h1inv, dec_h2inv are the inverses of dec_h0, dec_h1, dec_h2 whenever the diagonal entries are non-zero.", "quantifier": "every mesh with non-degenerate entries", "why_tests_cant": "a sum of reciprocals equals the reciprocal of a sum only in degenerate cases (single incident face)", "anchors": ["src/gpytoolbox/dec_h0.py", "src/gpytoolbox/dec_h0_intrinsic.py", "src/gpytoolbox/dec_h1.py", "src/gpytoolbox/dec_h1_intrinsic.py", "src/gpytoolbox/dec_h2.py", "src/gpytoolbox/dec_h2_intrinsic.py", "src/gpytoolbox/dec_h0inv.py", "src/gpytoolbox/dec_h1inv.py", "src/gpytoolbox/dec_h2inv.py", "src/gpytoolbox/dec_h0inv_intrinsic.py", "src/gpytoolbox/dec_h1inv_intrinsic.py", "src/gpytoolbox/dec_h2inv_intrinsic.py"]}
{"id": "C13", "title": "remove_unreferenced keeps the geometry and drops exactly the unused vertices", "statement": "For (U,G,I,J)=remove_unreferenced(V,F): every corner keeps its position (U[G[f,i]] = V[F[f,i]]), every row of U is referenced by G, J is increasing and V[J]=U, I[J]=arange, I[v]=-1 iff v is unreferenced; entries -1 of F stay -1. The function should accept an empty F, as the code's dedicated branch intends.", "quantifier": "every vertex list and every face list with indices in range (or -1)", "why_tests_cant": "relabelling correctness for all index patterns", "anchors": ["src/gpytoolbox/remove_unreferenced.py"]}
{"id": "C14", "title": "remove_duplicate_vertices merges exactly the duplicates", "statement": "With eps=0: SV has pairwise distinct rows, SV=V[SVI], V=SV[SVJ], faces keep their corner positions. With eps>0: two rows are merged iff they round to the same lattice cell, merged rows differ by at most eps per coordinate; (tolerance claim) any two rows closer than eps are merged.", "quantifier": "every vertex list and face list, every eps>=0", "why_tests_cant": "rounding-cell boundaries are measure-zero and not hit by tests", "anchors": ["src/gpytoolbox/remove_duplicate_vertices.py"]}
{"id": "C15", "title": "boundary_loops traces every boundary edge exactly once", "statement": "If every boundary vertex has exactly one outgoing and one incoming boundary edge, boundary_loops(F) succeeds, every consecutive (cyclic) pair of vertices in a loop is a boundary edge with the mesh's orientation, every boundary edge occurs exactly once over all loops and each boundary vertex is in exactly one loop. Whenever the function returns at all, consecutive pairs are boundary edges and lengths add up to the number of boundary edges.", "quantifier": "every triangle list / any number of boundary components", "why_tests_cant": "loop invariants over an unbounded number and length of loops, and termination", "anchors": ["src/gpytoolbox/boundary_loops.py"]}
{"id": "C16", "title": "Polyline index generators", "statement": "edge_indices(n,closed) yields exactly the edges (i,i+1), plus (n-1,0) when closed; regular_circle_polyline(n) yields n distinct points on the unit circle joined in a closed simple cycle.", "quantifier": "every n", "why_tests_cant": "off-by-one at the closing edge; coincident endpoints", "anchors": ["src/gpytoolbox/edge_indices.py", "src/gpytoolbox/regular_circle_polyline.py"]}
{"id": "C17", "title": "upsample subdivision preserves the surface", "statement": "subdivide(V,F,method='upsample') puts the old vertices first unchanged, adds one vertex per undirected edge at its midpoint, replaces every face by four faces with the same orientation whose vertex positions are corners/mid-points of the old face (so areas quarter and total area is unchanged), multiplies the number of faces by 4^iters, shares mid-points between neighbouring faces (no cracks), and returned S satisfies Vu=S V with rows that sum to one. Polylines likewise.", "quantifier": "every triangle list / polyline and number of iterations", "why_tests_cant": "cracks occur only for particular sharing patterns; induction over iterations", "anchors": ["src/gpytoolbox/subdivide.py:_upsample_polyline", "src/gpytoolbox/subdivide.py:_upsample_triangle_mesh"]}
{"id": "C18", "title": "Loop subdivision is an affine combination", "statement": "For method='loop', each row of the subdivision matrix S sums to one (constants and affine maps are reproduced) and has non-negative weights; boundary vertices depend on boundary neighbours only.", "quantifier": "every oriented manifold triangle mesh with interior vertices of valence at least 3", "why_tests_cant": "weights depend on unbounded valence", "anchors": ["src/gpytoolbox/subdivide.py:_loop_triangle_mesh"]}
{"id": "C19", "title": "regular_square_mesh tiles the square", "statement": "regular_square_mesh(nx,ny) has nx*ny vertices and 2(nx-1)(ny-1) valid faces, all positively oriented with equal area summing to 4, consistently oriented and edge-manifold: no directed edge is used twice.", "quantifier": "all nx, ny >= 2", "why_tests_cant": "index arithmetic over all sizes", "anchors": ["src/gpytoolbox/regular_square_mesh.py"]}
{"id": "C20", "title": "Parametric surfaces (torus, cylinder, cone) have the advertised topology", "statement": "torus(nR,nr) is closed: every directed edge is used by exactly one face and so is its reverse; cylinder and cone are consistently oriented edge-manifold with the boundary being the end circles only; all indices valid.", "quantifier": "all sizes >= 3", "why_tests_cant": "wrap-around index arithmetic over all sizes", "anchors": ["src/gpytoolbox/torus.py", "src/gpytoolbox/cylinder.py", "src/gpytoolbox/cone.py"]}
{"id": "C21", "title": "regular_cube_mesh decomposes every grid cube", "statement": "For every supported type, all tet indices are in range, tets are positively oriented (volume()), the volumes add up to the cube volume, and neighbouring cubes are conforming (shared quads carry the same diagonal).", "quantifier": "all nx,ny,nz >= 2 and the mesh types", "why_tests_cant": "conformity depends on parity and mesh size", "anchors": ["src/gpytoolbox/regular_cube_mesh.py"]}
{"id": "C22", "title": "grid_neighbors returns the true grid neighbours", "statement": "grid_neighbors(gs,order=1) gives in column j the linear indices of the grid neighbours of cell j, -1 where the neighbour is outside the grid (wrapped indices with periodic option); with order=k the neighbours reachable in at most k steps.", "quantifier": "all grid sizes in 2D/3D and orders", "why_tests_cant": "wrap at small sizes and composition of orders", "anchors": ["src/gpytoolbox/grid_neighbors.py"]}
{"id": "C23", "title": "fd_interpolate reproduces affine functions; finite differences are exact on them", "statement": "For every point in the grid box, the row of fd_interpolate has non-negative weights summing to one, supported on the corners of the containing cell, and applying it to grid coordinates returns the point; fd_partial_derivative / fd_grad of an affine grid function equals its slope at every staggered node.", "quantifier": "all grid sizes, spacings, corners and points in the box", "why_tests_cant": "boundary cells and index linearisation", "anchors": ["src/gpytoolbox/fd_interpolate.py", "src/gpytoolbox/fd_partial_derivative.py", "src/gpytoolbox/fd_grad.py"]}
{"id": "C24", "title": "matrix_from_function", "statement": "matrix_from_function(fun,X1,X2)[i,j] = fun(X1[i],X2[j]) for all i,j, for the full and for the sparse variant with a neighbour pattern (zero outside the pattern).", "quantifier": "all inputs and functions", "why_tests_cant": "reshape/tile order over all sizes", "anchors": ["src/gpytoolbox/matrix_from_function.py"]}
{"id": "C25", "title": "Quadtree cells tile their parents", "statement": "After any sequence of subdivisions, child/parent arrays are mutually inverse, depth increases by one, widths halve, the children of every internal cell cover it exactly with disjoint interiors, and hence the leaves cover the root box.", "quantifier": "every starting box, every subdivision sequence, 2D and 3D", "why_tests_cant": "invariant over unbounded histories", "anchors": ["src/gpytoolbox/subdivide_quad.py", "src/gpytoolbox/initialize_quadtree.py"]}
{"id": "C26", "title": "Quadtree adjacency is geometric adjacency", "statement": "After any sequence of graded-or-not subdivisions (2D and 3D), for any two cells i,j the entry A[i,j] is the code a (1 left, 2 right, 3 bottom, 4 top, 5 back, 6 front) iff cell j lies on the a-th side of cell i, sharing a piece of face of positive measure, and 0 iff they share none; hence quadtree_boundary returns exactly the cells (leaves) of a quadtree that touch the boundary of the root box.", "quantifier": "every subdivision history from the root", "why_tests_cant": "the lookup tables must be right for all histories", "anchors": ["src/gpytoolbox/subdivide_quad.py:subdivide_quad", "src/gpytoolbox/quadtree_boundary.py", "src/gpytoolbox/quadtree_laplacian.py"]}
{"id": "C27", "title": "in_quadtree finds the leaf containing the point", "statement": "For every point of the closed root box, in_quadtree terminates and returns the index of a leaf whose closed cell contains it; for a point outside, -1 and no other cell; `others` lists the visited containing cells, closed under taking parents; if only one leaf contains the point, `others` is all the cells containing it. (Documented besides: the answer is the smallest cell containing the point, and `others` are all the other, non-leaf, cells containing it.)", "quantifier": "every tree built by subdivision, every point", "why_tests_cant": "ties on cell boundaries; unbounded trees; termination", "anchors": ["src/gpytoolbox/in_quadtree.py"]}
{"id": "C28", "title": "Quadtree construction respects depth bounds and grading", "statement": "initialize_quadtree(P,max_depth,min_depth,graded) terminates without error on every non-empty point cloud; every cell has depth <= max_depth (unless it is the root), every leaf has depth >= min(min_depth,max_depth), a leaf of depth < max_depth contains no point, the default box contains all the points, and with graded=True adjacent leaves differ by at most one level.", "quantifier": "every point cloud and depth bounds", "why_tests_cant": "recursive grading over arbitrary histories", "anchors": ["src/gpytoolbox/initialize_quadtree.py", "src/gpytoolbox/subdivide_quad.py"]}
{"id": "C29", "title": "Quadtree differential operators annihilate constants", "statement": "Rows of quadtree_laplacian and quadtree_gradient sum to zero on every leaf; quadtree_gradient is exact for linear functions; both accept every valid quadtree including a single cell.", "quantifier": "every quadtree", "why_tests_cant": "depends on neighbour configurations", "anchors": ["src/gpytoolbox/quadtree_laplacian.py", "src/gpytoolbox/quadtree_gradient.py"]}
{"id": "C30", "title": "initialize_aabbtree builds a sound bounding volume hierarchy", "statement": "Every element is in exactly one leaf, every box contains the boxes of its children and the element of its leaves, parent/child arrays are inverse, internal nodes have two children with disjoint element sets whose union is the parent's.", "quantifier": "every non-empty element list in any dimension", "why_tests_cant": "median splits with ties, queue order, unbounded sizes", "anchors": ["src/gpytoolbox/initialize_aabbtree.py"]}
{"id": "C31", "title": "squared_distance with AABB equals brute force", "statement": "For every query, the distance returned using the tree equals the minimum over all elements of the point-element squared distance, and the returned index attains it (also for points, segments and triangles, and for approximate_hausdorff/unsigned_distance built on top).", "quantifier": "every element set and query point", "why_tests_cant": "pruning errors only show for adversarial configurations", "anchors": ["src/gpytoolbox/squared_distance.py", "src/gpytoolbox/traverse_aabbtree.py", "src/gpytoolbox/unsigned_distance.py", "src/gpytoolbox/approximate_hausdorff_distance.py:approximate_hausdorff_distance"]}
{"id": "C32", "title": "squared_distance_to_element returns the closest point", "statement": "For a point, a segment (a single point, or at least as long as the documented 1e-10 threshold) and a non-degenerate triangle in any position, the returned squared distance is attained by a point of the element (given by the returned barycentric coordinates, which are non-negative and sum to one) and is <= the squared distance to every point of the element.", "quantifier": "every query point and element", "why_tests_cant": "seven Voronoi regions with edge cases on their boundaries", "anchors": ["src/gpytoolbox/squared_distance_to_element.py"]}
{"id": "C33", "title": "minimum_distance prunes soundly", "statement": "minimum_distance(V1,F1,V2,F2) equals the minimum over all pairs of elements of the element-element distance; the max-norm box gap used for pruning never exceeds the Euclidean distance of contained elements.", "quantifier": "every two element sets", "why_tests_cant": "pruning soundness over unbounded inputs", "anchors": ["src/gpytoolbox/minimum_distance.py"]}
{"id": "C34", "title": "traverse_aabbtree is callable with its documented defaults", "statement": "traverse_aabbtree with the default add_to_queue function visits every node accepted by the traversal function in breadth-first order without error.", "quantifier": "every tree and traversal function", "why_tests_cant": "default branch not covered", "anchors": ["src/gpytoolbox/traverse_aabbtree.py"]}
{"id": "C35", "title": "ray_box_intersect is sound and complete", "statement": "ray_box_intersect reports a hit iff some point origin + t*dir with t >= 0 lies in the closed box, and the returned point is in the box and on the ray.", "quantifier": "every dimension, box, origin and direction, incl. zero direction components and origins inside", "why_tests_cant": "degenerate directions / boundaries", "anchors": ["src/gpytoolbox/ray_box_intersect.py"]}
{"id": "C36", "title": "ray_triangle_intersect is sound and complete", "statement": "A reported hit lies on the ray (t>0 direction as returned) and in the triangle; a ray that properly crosses the triangle's interior is reported.", "quantifier": "every ray and non-degenerate triangle", "why_tests_cant": "absolute determinant threshold makes small triangles invisible", "anchors": ["src/gpytoolbox/ray_triangle_intersect.py"]}
{"id": "C37", "title": "ray_polyline_intersect returns the first hit", "statement": "ray_polyline_intersect returns the first point along the ray, within max_distance, where it meets the polyline, with the element index; no hit when there is none.", "quantifier": "every ray and 2D polyline", "why_tests_cant": "collinear case bug", "anchors": ["src/gpytoolbox/ray_polyline_intersect.py"]}
{"id": "C38", "title": "barycentric_coordinates", "statement": "For a non-degenerate triangle in 2D or 3D, barycentric_coordinates(p,v1,v2,v3) sum to one and reproduce p (its projection on the triangle's plane in 3D); corners get unit coordinates.", "quantifier": "all points and non-degenerate triangles", "why_tests_cant": "real-valued identity", "anchors": ["src/gpytoolbox/barycentric_coordinates.py"]}
{"id": "C39", "title": "volume and doublearea", "statement": "doublearea(V,F) is twice the Euclidean area (2D absolute value / 3D cross-product norm), invariant under corner permutation; doublearea_intrinsic from edge lengths agrees (Heron); volume is the signed volume: flips sign with orientation, translation invariant.", "quantifier": "all vertex positions", "why_tests_cant": "real-valued identities", "anchors": ["src/gpytoolbox/doublearea.py", "src/gpytoolbox/doublearea_intrinsic.py", "src/gpytoolbox/volume.py"]}
{"id": "C40", "title": "cotangent_laplacian is symmetric, annihilates constants and is positive semi-definite", "statement": "L = cotangent_laplacian(V,F): L symmetric, L*1=0 and x'Lx >= 0 for all x.", "quantifier": "every non-degenerate triangle mesh and every x", "why_tests_cant": "global quadratic form", "anchors": ["src/gpytoolbox/cotangent_laplacian.py", "src/gpytoolbox/cotangent_laplacian_intrinsic.py", "src/gpytoolbox/cotangent_weights.py", "src/gpytoolbox/cotangent_weights_intrinsic.py", "src/gpytoolbox/halfedge_lengths.py", "src/gpytoolbox/halfedge_lengths_squared.py"]}
{"id": "C41", "title": "massmatrix conserves area", "statement": "massmatrix of each type (barycentric, voronoi, full) has total sum equal to the total area (length for polylines) and, for the lumped types, is diagonal with non-negative entries.", "quantifier": "every non-degenerate mesh", "why_tests_cant": "sum over unbounded meshes; obtuse-angle cases of voronoi", "anchors": ["src/gpytoolbox/massmatrix.py", "src/gpytoolbox/massmatrix_intrinsic.py"]}
{"id": "C42", "title": "grad is exact on linear functions", "statement": "grad(V,F) applied to the restriction of an affine function to the vertices returns, on every face, its gradient (2D) / its tangential projection (3D); constants map to zero.", "quantifier": "every non-degenerate mesh and affine function", "why_tests_cant": "real-valued identity for every mesh", "anchors": ["src/gpytoolbox/grad.py"]}
{"id": "C43", "title": "min_quad_with_fixed and fixed_dof_solve honour the constraints", "statement": "u = min_quad_with_fixed(Q,c,A,b,k,y) satisfies u[k]=y exactly, A u = b, and is a minimiser of 1/2 u'Qu+c'u among feasible vectors, for symmetric Q positive semi-definite, whenever the inner linear solve is correct; fixed_dof_solve returns u with u[k]=y and the free rows of A u=b satisfied; precomputed objects can be reused for different right-hand sides.", "quantifier": "all sizes, all symmetric PSD Q, all constraint sets", "why_tests_cant": "linear algebra over all sizes", "anchors": ["src/gpytoolbox/min_quad_with_fixed.py", "src/gpytoolbox/fixed_dof_solve.py"]}
{"id": "C44", "title": "OBJ write/read round-trip", "statement": "read_mesh(write_mesh(V,F,UV,Ft,N,Fn)) with the python engine returns the same vertex, texture and normal rows and the same index lists, for all optional combinations that the writer accepts; index lists that were not given come back as the face list when the counts agree and as -1 otherwise, and empty arrays come back as None. Index lists of the wrong length are rejected.", "quantifier": "every mesh, every combination of texture/normal data", "why_tests_cant": "string codec over unbounded inputs", "anchors": ["src/gpytoolbox/write_mesh.py:_write_obj_python", "src/gpytoolbox/read_mesh.py:_read_obj_python"]}
{"id": "C45", "title": "marching_squares produces closed, consistently oriented contours on the zero level", "statement": "Every output vertex lies on a grid edge whose end values have opposite sign classes, at the linear zero; every output vertex off the grid border has as many incoming as outgoing contour edges (exactly one each where the crossings are distinct points), so the contours are closed up to the grid border; the positive side is always on the right of every directed edge.", "quantifier": "every grid size and every scalar field", "why_tests_cant": "16 cell configurations times neighbours", "anchors": ["src/gpytoolbox/marching_squares.py"]}
{"id": "C46", "title": "particle_swarm stays in the box and returns the best evaluated point", "statement": "The returned x is within [lb,ub], f=fun(x), and f is <= every objective value evaluated during the run (monotone), for every sequence of random draws.", "quantifier": "all objectives, bounds lb<=ub, random sequences, iterations, topologies", "why_tests_cant": "random schedules are unbounded", "anchors": ["src/gpytoolbox/particle_swarm.py", "src/cpp/particle_swarm.cpp"]}
{"id": "C47", "title": "metropolis_hastings output is consistent", "statement": "S[0]=x0; F[i]=unnorm_distr(S[i]) for all i; each sample is a proposal accepted from the previous sample.", "quantifier": "all distributions, proposal functions and random sequences", "why_tests_cant": "random schedules; first entry never compared in tests", "anchors": ["src/gpytoolbox/metropolis_hastings.py"]}
{"id": "C48", "title": "rotation_matrix_from_vectors returns a rotation aligning the vectors", "statement": "The result R is orthogonal with determinant +1 and maps vec1/|vec1| to vec2/|vec2|.", "quantifier": "all pairs of non-zero 2D/3D vectors, incl. parallel and antiparallel", "why_tests_cant": "antiparallel special case", "anchors": ["src/gpytoolbox/rotation_matrix_from_vectors.py"]}
{"id": "C49", "title": "normalize_points fits the unit box", "statement": "normalize_points(v,center) returns points inside the unit-size axis-aligned box centred at `center`, by a uniform scale and translation, with the largest side equal to 1; the caller's array is not modified.", "quantifier": "all point clouds with non-zero extent", "why_tests_cant": "aliasing plus global extrema", "anchors": ["src/gpytoolbox/normalize_points.py"]}
{"id": "C50", "title": "catmull_rom_spline interpolates its keyframes", "statement": "With n >= 2 keyframes at the uniform times i/(n-1), the spline passes through P[i] at time i/(n-1) for every i, is a cubic polynomial on every interval, is continuously differentiable across keyframes with the Catmull-Rom tangent, and every query time above 1 (or fewer than two keyframes) is rejected with IndexError.", "quantifier": "all keyframes with increasing times", "why_tests_cant": "end-point special cases", "anchors": ["src/gpytoolbox/catmull_rom_spline.py"]}
{"id": "C51", "title": "linear_blend_skinning", "statement": "If weights of a vertex sum to one, identical rigid transforms move every vertex by that transform; identity handles leave the shape unchanged; the result is linear in the weights.", "quantifier": "all meshes, weights and handle transforms", "why_tests_cant": "identity over all sizes", "anchors": ["src/gpytoolbox/linear_blend_skinning.py"]}
{"id": "C52", "title": "Sign of a point with respect to a polygon", "statement": "signed_distance_polygon gives negative sign exactly to interior points of a simple polygon; squared distance is the true distance to the boundary.", "quantifier": "all polygons and query points", "why_tests_cant": "vertices aligned with the query ray", "anchors": ["src/gpytoolbox/signed_distance_polygon.py", "src/gpytoolbox/winding_number.py"]}
{"id": "C53", "title": "Compactly supported kernels", "statement": "compactly_supported_normal_kernel / compactly_supported_normal are non-negative, vanish outside their documented support, are symmetric in their arguments and are continuous piecewise polynomials.", "quantifier": "all arguments", "why_tests_cant": "values exactly at breakpoints", "anchors": ["src/gpytoolbox/compactly_supported_normal.py", "src/gpytoolbox/compactly_supported_normal_kernel.py"]}
{"id": "C54", "title": "random_points_on_mesh samples points of the mesh", "statement": "Every returned point is a convex combination of the corners of the returned element (indices valid), with the returned barycentric coordinates non-negative and summing to one, for every sequence of uniform draws.", "quantifier": "all meshes and random sequences", "why_tests_cant": "random schedules; reflection step of the square-to-triangle map", "anchors": ["src/gpytoolbox/random_points_on_mesh.py"]}
{"id": "C55", "title": "linear_elasticity_stiffness accepts every mesh", "statement": "linear_elasticity_stiffness returns an operator on all 2n vertex degrees of freedom for every valid mesh, symmetric and annihilating translations.", "quantifier": "all meshes, any ratio of faces to vertices", "why_tests_cant": "slicing with the wrong count only fails when 2m < n", "anchors": ["src/gpytoolbox/linear_elasticity_stiffness.py"]}
{"id": "C56", "title": "edge_edge_distance returns the true segment-segment distance", "statement": "edge_edge_distance(P1,Q1,P2,Q2) is attained by points on the two segments and is minimal over all pairs.", "quantifier": "all pairs of segments incl. parallel and degenerate", "why_tests_cant": "clamping regions", "anchors": ["src/gpytoolbox/edge_edge_distance.py"]}
{"id": "C57", "title": "apply_colormap clamps and interpolates", "statement": "apply_colormap clamps every value to the range, locates it on the (linear or logarithmic) axis from first to last colour and returns the rounding to integers of the linear interpolation of the two neighbouring table colours (or of the nearest table colour): the minimum and below get the first colour, the maximum and above the last; without explicit bounds the range is that of the data.", "quantifier": "all colour tables and values", "why_tests_cant": "boundary handling", "anchors": ["src/gpytoolbox/apply_colormap.py", "src/gpytoolbox/colormap.py"]}
{"id": "C58", "title": "dmat reading is column-major", "statement": "read_dmat returns the matrix whose entry (i,j) is the (j*rows+i)-th value in the file for every well-formed dmat text.", "quantifier": "all matrix sizes and contents", "why_tests_cant": "ordering over all sizes", "anchors": ["src/gpytoolbox/read_dmat.py"]}
{"id": "C59", "title": "Tip angles satisfy the cosine rule and sum to pi", "statement": "tip_angles_intrinsic(l_sq,F) returns, for every non-degenerate triangle, three angles in (0,pi) obeying the cosine rule, summing to pi, whatever the scale of the triangle and whichever value of use_small_angle_approx.", "quantifier": "all non-degenerate triangles of any size", "why_tests_cant": "the small-angle branch is chosen by absolute length, so tests at unit scale never reach it", "anchors": ["src/gpytoolbox/tip_angles_intrinsic.py", "src/gpytoolbox/tip_angles.py"]}
{"id": "C60", "title": "Empty meshes are handled", "statement": "Connectivity functions given a face array with zero rows return the empty result instead of failing.", "quantifier": "all functions accepting (0,3) face arrays", "why_tests_cant": "each function treats the empty array by a different code path", "anchors": ["src/gpytoolbox/adjacency_matrix.py", "src/gpytoolbox/connected_components.py"]}
{"id": "C61", "title": "cut_edges separates exactly along the listed edges", "statement": "cut_edges(F,E) returns G,I with I[G]=F entrywise, and two corners receive the same new vertex iff they were the same vertex and are linked through faces sharing edges at that vertex that are not in E.", "quantifier": "all triangle meshes and edge lists, including the empty list", "why_tests_cant": "connectivity around vertices is unbounded", "anchors": ["src/gpytoolbox/cut_edges.py"]}
{"id": "C62", "title": "triangle_triangle_distance returns the true distance of two triangles", "statement": "triangle_triangle_distance returns the minimum distance between the two closed triangles, for all non-degenerate triangles of any size.", "quantifier": "every pair of triangles in 3D", "why_tests_cant": "continuum of configurations: vertex-face, edge-edge, intersecting", "anchors": ["src/gpytoolbox/triangle_triangle_distance.py"]}
{"id": "C63", "title": "The fmt argument of read_mesh/write_mesh accepts the documented format names", "statement": "read_mesh(file,fmt=x) and write_mesh(file,...,fmt=x) accept the documented names obj, stl (and ply) whatever the file extension; without fmt the extension decides, ignoring case.", "quantifier": "every file name", "why_tests_cant": "ranges over all file names", "anchors": ["src/gpytoolbox/read_mesh.py:read_mesh", "src/gpytoolbox/write_mesh.py:write_mesh"]}
{"id": "C64", "title": "winding_number counts how often a closed curve goes around a point", "statement": "For a closed 2D curve and query points off it, winding_number returns an integer: the number of signed crossings of the curve with a ray from the point. Reversing the curve changes the sign; points separated from the curve by a line get 0; points that see every edge counterclockwise get at least 1 (exactly 1 for a triangle).", "quantifier": "every closed oriented edge list and every query point off it", "why_tests_cant": "a sum of arctangents that must be an exact integer for a continuum of curves and points", "anchors": ["src/gpytoolbox/winding_number.py:winding_number"]}
{"id": "C65", "title": "signed_distance is the distance to the curve, negative inside", "statement": "In 2D signed_distance returns the distance to the closed polyline in absolute value, negative for points inside and positive for points outside, whatever the orientation of the polyline.", "quantifier": "every polygon, every query point", "why_tests_cant": "continuum of polygons and points; combines a tree search with an angle sum", "anchors": ["src/gpytoolbox/signed_distance.py:signed_distance", "src/gpytoolbox/winding_number.py:winding_number", "src/gpytoolbox/squared_distance.py:squared_distance"]}
{"id": "C66", "title": "angle_defect is the discrete Gaussian curvature", "statement": "angle_defect returns 2 pi minus the sum of the tip angles at every vertex not on a boundary edge and 0 on boundary vertices; on a closed mesh the values add up to 2 pi (V - E + F) (Gauss-Bonnet), and interior vertices of a flat mesh whose ring winds once get 0 - at every mesh scale.", "quantifier": "every triangle mesh, every set of edge lengths satisfying the triangle inequality", "why_tests_cant": "an exact topological identity over all meshes and all real edge lengths", "anchors": ["src/gpytoolbox/angle_defect.py:angle_defect", "src/gpytoolbox/angle_defect_intrinsic.py:angle_defect_intrinsic"]}
{"id": "C67", "title": "Face normals, vertex normals and dihedral angles are the geometric ones", "statement": "per_face_normals returns unit vectors perpendicular to each face, right-handed; weighted by area they add up to zero on a closed surface. per_vertex_normals returns the unit vector along the area-weighted sum of the incident face normals whenever that sum is not zero. dihedral_angles(V,F)[f,i] is the angle in [0,pi] between the normals on the two sides of that half-edge, the same seen from both faces, NaN exactly on boundary half-edges.", "quantifier": "every triangle mesh (polyline for vertex normals in 2D), every vertex, every half-edge", "why_tests_cant": "ranges over all meshes and all real positions; couples a sparse accumulation, the adjacency and trigonometry", "anchors": ["src/gpytoolbox/per_face_normals.py:per_face_normals", "src/gpytoolbox/per_vertex_normals.py:per_vertex_normals", "src/gpytoolbox/dihedral_angles.py:dihedral_angles"]}
{"id": "C68", "title": "biharmonic_energy is a positive semidefinite smoothness energy with the right kernel", "statement": "biharmonic_energy(V,F) returns the symmetric matrix of x -> sum over vertices of (Laplacian x)^2 / mass; it is never negative and zero exactly for functions constant on each connected piece. With bc='hessian' it is the symmetric matrix of the sum over non-boundary vertices of the squared weak second derivatives divided by the vertex mass, never negative, zero on constants, and zero on all affine functions for a planar mesh.", "quantifier": "every mesh of nondegenerate triangles in 2D or 3D, every vertex function", "why_tests_cant": "a quadratic-form identity and a kernel over all meshes and all real functions", "anchors": ["src/gpytoolbox/biharmonic_energy.py:biharmonic_energy", "src/gpytoolbox/biharmonic_energy_intrinsic.py:biharmonic_energy_intrinsic"]}
{"id": "C69", "title": "squared_exponential_kernel is the Gaussian kernel and its derivatives", "statement": "squared_exponential_kernel(X1,X2,length,scale) returns row by row scale*exp(-|x-y|^2/(2 length^2)): symmetric, positive, at most scale, equal to scale exactly when the points agree. With derivatives=(i,-1), (-1,j) and (i,j) it returns the exact partial derivatives in the i-th coordinate of the first point and the j-th of the second. The kernel matrix of any points is positive semidefinite, definite when the points are distinct.", "quantifier": "all points in every dimension, all nonzero lengths, all positive scales, all derivative indices", "why_tests_cant": "analytic derivatives and positive definiteness over a continuum of points and unboundedly many of them", "anchors": ["src/gpytoolbox/squared_exponential_kernel.py:squared_exponential_kernel"]}
{"id": "C70", "title": "gaussian_process returns the Gaussian posterior", "statement": "gaussian_process(X,y,T) returns for every test point the conditional mean and covariance of a zero-mean Gaussian process with the given kernel (default squared exponential, length 0.2) given noisy observations: mean = K2^T (K + sigma^2 I)^-1 y, cov = K1 - K2^T (K + sigma^2 I)^-1 K2, with gradient observations handled as further observables. The covariance is symmetric positive semidefinite with diagonal at most the prior variance, noise-free data are interpolated with zero variance, gradient outputs are the derivatives of the mean, inducing points equal to the training points change nothing, and neither does compact_kernel for a compactly supported kernel. Outputs have one entry per test point.", "quantifier": "every kernel with nonnegative quadratic forms, all training data, test points, dimensions and noise levels", "why_tests_cant": "a linear-algebra identity and a semidefiniteness claim over all data sizes and real points; the solver is abstracted by its contract", "anchors": ["src/gpytoolbox/gaussian_process.py:gaussian_process", "src/gpytoolbox/gaussian_process.py:gaussian_process_precompute", "src/gpytoolbox/squared_exponential_kernel.py:squared_exponential_kernel"]}
{"id": "C71", "title": "Icospheres are closed outward-oriented star-shaped triangulations of the sphere for every subdivision level", "statement": "icosphere(n) for n >= 0 succeeds and returns 10*4^n+2 vertices and 20*4^n faces forming a closed, consistently oriented manifold with no unused vertices; all vertices lie on the unit sphere; every face is oriented outward; every ray from the origin meets the surface and crosses the interior of at most one face (no folds or self-intersections). Negative n is an AssertionError.", "quantifier": "every integer n (no bound on the number of subdivision rounds) and every ray direction", "why_tests_cant": "Tests look at a few levels and at Euler characteristics; that no level folds over or flips a face is a statement over all n and all directions.", "anchors": ["src/gpytoolbox/icosphere.py:icosphere", "src/gpytoolbox/subdivide.py:subdivide"]}
{"id": "C72", "title": "min_l1_with_fixed returns a minimiser of the constrained mixed-norm problem through either solver", "statement": "min_l1_with_fixed(G,d,Q or L,c,k,y,A,b) returns u with u[k]=y and A u=b such that |Gu|_{d,1} + 1/2 u^T Q u + c^T u is smallest among all u meeting the constraints; it succeeds whenever a minimiser exists and raises a ValueError otherwise, whichever of the two conic solvers is used. Missing arguments default to G = identity, c = 0 and no constraint. A factor L may be given instead of Q.", "quantifier": "all matrices, vectors and constraint sets of matching shapes, all group sizes d >= 1, every behaviour of the conic solvers that meets their contract", "why_tests_cant": "Optimality is a comparison with every other feasible vector; the code's conic reformulation (epigraph variables, cone ordering, sign conventions) has to be exact for all sizes", "anchors": ["src/gpytoolbox/min_l1_with_fixed.py:min_l1_with_fixed"]}
{"id": "C73", "title": "linear_elasticity performs one implicit Euler step of planar linear elasticity and reports von Mises stresses", "statement": "linear_elasticity(V,F,U0,dt,bb,bc,Ud0,fext,K,mu) succeeds on non-degenerate planar meshes and returns displacements U with U[bb]=bc satisfying M(U-U0-dt*Ud0-dt^2*fext)+dt^2*K*U=0 on the remaining degrees of freedom, K being the Hookean stiffness and M the mass matrix; a free body conserves linear and angular momentum, does not gain mass-norm, and a rigidly moving body stays rigid and stress-free; sigma_v is the von Mises stress of each triangle.", "quantifier": "all planar triangle meshes, time steps, moduli, masses, initial states, forces and constraint sets", "why_tests_cant": "An equation tested against every virtual displacement, and conservation laws over all meshes and states", "anchors": ["src/gpytoolbox/linear_elasticity.py:linear_elasticity", "src/gpytoolbox/linear_elasticity_stiffness.py:linear_elasticity_stiffness", "src/gpytoolbox/min_quad_with_fixed.py:min_quad_with_fixed"]}
{"id": "C74", "title": "grad_intrinsic computes the gradient in each triangle's own plane", "statement": "grad_intrinsic(l_sq,F,n), given the squared halfedge lengths of triangles (strict triangle inequalities) and faces with indices below n, succeeds for any number of faces, manifold or not, and returns a (2m,n) matrix; for every function on the vertices, entries f and m+f of the product are the gradient of the linear interpolant over face f in coordinates where the edge from corner 1 to corner 2 is the first axis and the second axis is that edge turned counter-clockwise. For lengths measured on a mesh in space they are the components of grad(V,F)'s gradient along that edge and along normal x edge, so lengths agree and the area-weighted sum of squares is the quadratic form of the cotangent Laplacian. n defaults to the largest index plus one. Mismatched or negative lengths are refused by an assertion, indices outside 0..n-1 by a ValueError; lengths violating a triangle inequality silently give NaN.", "quantifier": "all face lists, all triangle lengths, all n and all vertex functions; all embeddings in space with faces of positive area", "why_tests_cant": "the identity must hold for every triangle shape and every function, and the claim relates two independently computed operators", "anchors": ["src/gpytoolbox/grad_intrinsic.py:grad_intrinsic", "src/gpytoolbox/grad.py:grad", "src/gpytoolbox/halfedge_lengths_squared.py:halfedge_lengths_squared"]}
{"id": "C75", "title": "grid_laplacian_eigenfunctions returns the lowest Neumann modes of the grid", "statement": "grid_laplacian_eigenfunctions(num_modes,gs,l) returns a (num_grid_points,num_modes) array whose columns are num_modes distinct product-of-cosine modes sampled at the grid points, listed in order of their eigenvalue, such that none of the infinitely many other modes has a smaller eigenvalue; each is an eigenfunction of the Laplacian with zero normal derivative on the boundary of the box, and an eigenvector of the grid's second differences with mirrored boundary.", "quantifier": "all grid sizes and side lengths, all num_modes, every tie-breaking of argsort", "why_tests_cant": "Minimality ranges over the infinitely many modes and the eigenfunction property over a continuum of points; ties and sizes are unbounded", "anchors": ["src/gpytoolbox/grid_laplacian_eigenfunctions.py:grid_laplacian_eigenfunctions"]}
{"id": "C76", "title": "swept_volume turns keyframes to face along the path and passes them on as similarity transforms", "statement": "swept_volume with translations hands the sweep one 4x4 block per keyframe, block k mapping p to s_k R_k p + t_k with the given rotation and scale (identity and 1 by default). With align_rotations_with_velocity and no rotations, every R_k is a rotation taking the x axis to the normalized difference of the neighbouring keyframes (up to a 1e-8 tolerance per keyframe when directions are nearly parallel) and consecutive frames differ by the twist-free rotation about the common perpendicular. Transformations are stacked unchanged and, as documented, supersede all other inputs. num_faces decimates the result; missing or too short inputs raise.", "quantifier": "all keyframe lists of any length, all rotations and scales, including parallel and opposite consecutive directions", "why_tests_cant": "Path lengths and directions are unbounded, and alignment is an inductive property along the path whose degenerate (antiparallel) cases have measure zero", "anchors": ["src/gpytoolbox/swept_volume.py:swept_volume"]}
{"id": "C77", "title": "remesh_botsch hands the remesher the same mesh with the frozen vertices first", "statement": "For an edge-manifold mesh with valid indices, remesh_botsch passes on the input mesh renumbered by a permutation: first the feature vertices in the order given, then the boundary vertices that are not features in increasing order, each once, then all others in their old order; the faces and feature edges name the same points as before and the frozen vertices are numbered 0..k-1. Without detection the feature edges are the user's; with it, on oriented meshes of non-degenerate faces, they are each exactly once the user's edges and the edges whose two faces meet at more than the threshold angle. The default edge length is the mean over all face sides. Meshes with an edge in three faces and features that are no vertices raise.", "quantifier": "all meshes, feature sets (with repetitions, negative indices, boundary vertices), feature edges and thresholds", "why_tests_cant": "Ranges over all meshes and all feature lists, including interaction of repetitions with the boundary; tests fix a few meshes", "anchors": ["src/gpytoolbox/remesh_botsch.py:remesh_botsch", "src/gpytoolbox/dihedral_angles.py:dihedral_angles", "src/gpytoolbox/boundary_vertices.py:boundary_vertices", "src/gpytoolbox/non_manifold_edges.py:non_manifold_edges"]}
{"id": "C78", "title": "stochastic_poisson_surface_reconstruction solves the posterior Poisson problem on the grid", "statement": "With at least eight nodes per axis and every sample half a step inside the lower faces and not beyond the last nodes, the call succeeds in two and three dimensions whenever the iterative solver converges (an AssertionError otherwise); the returned mean has one value per node, first axis fastest, averages to zero over the samples, and up to that constant and the solver's residual solves the screened Poisson equation whose divergence data are the Gaussian-process posterior mean of the normals at the edge midpoints (cubic B-spline kernel of 1.5 times the smallest spacing, noise = sampling density + sigma_n^2, optional prior). The variance has minimum exactly sigma_n^2+1e-6 and differs from the posterior variance of the Poisson solution (or of its projection on the lowest modes) by one constant. Missing grid spacing or corner are both derived from 1.5 times the cloud's bounding box; mismatched arguments raise, samples outside the grid raise ValueError.", "quantifier": "all point clouds and normals, all grids of at least eight nodes per axis, all priors, all noise levels, every behaviour of the solvers that meets their contracts; test functions on all nodes", "why_tests_cant": "An equation tested against every grid function for every cloud, grid size and solver behaviour; failures hide at faces and small sizes", "anchors": ["src/gpytoolbox/stochastic_poisson_surface_reconstruction.py:stochastic_poisson_surface_reconstruction", "src/gpytoolbox/grid_neighbors.py:grid_neighbors", "src/gpytoolbox/fd_interpolate.py:fd_interpolate", "src/gpytoolbox/fd_grad.py:fd_grad", "src/gpytoolbox/matrix_from_function.py:matrix_from_function"]}
{"id": "C79", "title": "matryoshka returns a copy that really nests and the best one it has seen", "statement": "matryoshka returns either scale 0 or a scale s between 1/1000 and 1 together with a rotation, centre, unit cut normal and unit removal directions on their own sides such that every vertex and sample b of the inner mesh, placed at c+s*R*(b-B_center), is inside the outer mesh and at least 1e-6 from its surface, and sliding it against a+ never meets the outer surface more than 1e-6 above the cut plane nor against a- more than 1e-6 below. scale_only keeps the given configuration and finds the largest nesting scale within scale_tol; the optimising modes always return a result at least as large as that of every configuration they start from, with c in the bounding box; a scale-0 result means none of these nests. With warm_start the result is at least the seed's scale. Unknown modes are rejected.", "quantifier": "all outer shapes described by their signed distance and first ray hits, all inner meshes and samples, all fixed values, every run of the particle swarm, every warm start", "why_tests_cant": "Quantifies over all shapes, over a continuum of sliding distances and scales, and over every random run of the optimiser", "anchors": ["src/gpytoolbox/matryoshka.py:matryoshka", "src/gpytoolbox/particle_swarm.py:particle_swarm", "src/gpytoolbox/signed_distance.py:signed_distance", "src/gpytoolbox/ray_mesh_intersect.py:ray_mesh_intersect"]}
{"id": "C80", "title": "The upper envelope of labelled tetrahedra is a subdivision of the mesh into single-material tetrahedra", "statement": "For every tetrahedral mesh with positively oriented tetrahedra and every number of materials, if upper_envelope returns (U, G, L): the vertices U start with the given ones; every returned tetrahedron is positively oriented, lies in an input tetrahedron and carries exactly one label, and at every point of it the linearly interpolated value of its material is the largest up to 1e-5; and the returned tetrahedra tile the input (same total volume, every input point covered).", "quantifier": "all vertex arrays, tetrahedron lists and label arrays with any number of materials", "why_tests_cant": "the claim quantifies over all meshes and label fields and over every point of every returned tetrahedron; the number of splitting passes and pieces is unbounded, and the defects depend on array counters that only particular sizes expose", "anchors": ["src/gpytoolbox/upper_envelope.py:upper_envelope", "src/cpp/upper_envelope.cpp:upper_envelope", "src/cpp/upper_envelope.cpp:propogate_split_func", "src/cpp/upper_envelope.cpp:carve_out_material"]}
{"id": "C81", "title": "reach_for_the_spheres: every implicit step reduces the misfit, the flow terminates and only returns meshes it has checked", "statement": "One step of the flow (with or without fix_boundary) keeps the number of vertices and never increases the total squared distance between the contact points of the samples and their targets; with positive masses it decreases strictly unless the mesh does not move, and it does not move only at a stationary point. The target of a sample lies on the line through the sample and its contact point, at distance at most |S| (exactly |S| when the mesh is at least tol/2 away and the side is decided), towards the mesh if the mesh's side agrees with the sign of S and away from it otherwise. fix_boundary keeps every boundary vertex where it is. The loop ends after at most max(1,max_iter) iterations; max_iter<=0 and a mesh that already touches all spheres from the right side are returned unchanged; h stays in [min_h,h0]; the line search stays in [min_t,max_t] and satisfies the Armijo condition unless min_t is binding; at most `resample` resamplings happen and with resample=0 the samples returned are the ones given; the returned mesh is the input, or passed the degeneracy test, or is what the remesher made of such a mesh.", "quantifier": "all meshes, samples, distances, options, closest-point answers, remesher behaviours and iteration counts; exact real arithmetic, exact linear solver", "why_tests_cant": "the flow depends on continuous data, on options and on hundreds of iterations; tests run a few shapes to convergence", "anchors": ["src/gpytoolbox/reach_for_the_spheres.py:reach_for_the_spheres", "src/gpytoolbox/reach_for_the_spheres.py:reach_for_the_spheres_iteration"]}
{"id": "C82", "title": "reach_for_the_spheres in the plane: the curve remesher keeps curves curves, keeps features and ends, and stays on the curve", "statement": "In two dimensions, remeshing a union of open and closed curves: splitting halves exactly the edges longer than 1.4h without changing the polyline as a set of points or its length; collapsing always stops, leaves no edge shorter than 0.7h except between two features, and never leaves a convex region containing the curve; relaxation moves a vertex only tangentially, onto the perpendicular of the middle of its neighbours, and then back onto the reference polyline. The result is a union of curves again (closed if the input is), every feature and every end of an open curve is kept where it is, and with project=True every vertex lies on the original polyline; i=0 returns the mesh unchanged. No mesh makes it raise.", "quantifier": "all plane polylines in which every vertex has at most one incoming and one outgoing edge, all feature sets, target lengths h, numbers of rounds, argsort orders and closest-point answers; exact real arithmetic", "why_tests_cant": "which edges are collapsed depends on lengths after earlier collapses; tests see only whole flows on a few shapes", "anchors": ["src/gpytoolbox/reach_for_the_spheres.py:_remesh_line", "src/gpytoolbox/reach_for_the_spheres.py:_split_line", "src/gpytoolbox/reach_for_the_spheres.py:_collapse_line", "src/gpytoolbox/reach_for_the_spheres.py:_relaxation_line", "src/gpytoolbox/reach_for_the_spheres.py:_line_bdry"]}
{"id": "C83", "title": "remesh_botsch's splitting stage halves exactly the long edges and keeps the surface", "statement": "One pass of the splitting stage of remesh_botsch splits exactly the interior edges that are longer than the mean of the high targets at their two ends and that are feature edges or touch no feature vertex; each is replaced by two halves meeting at its exact midpoint, whose targets are the means of the ends' targets. Old vertices never move, no other edge between old vertices appears or disappears, the result is again an oriented edge-manifold that covers the same set of points with the same area, the Euler characteristic is kept, the incrementally updated edge tables are those of the new mesh, and the table of feature edges again consists of edges of the mesh and describes the same polyline. Refuted parts: the pass is not repeated, so edges more than twice too long stay too long; a feature edge listed twice leaves a row that is no edge; two faces on the same three vertices give a non-manifold result; on meshes with boundary memory behind one-element vectors is rewritten.", "quantifier": "every oriented edge-manifold mesh (any size, with or without boundary), every table of targets, every feature vertex list and feature edge table", "why_tests_cant": "the incremental index arithmetic on face, edge and half-edge tables must be right for every mesh and every subset and order of split edges; tests see a handful of meshes and only final edge-length statistics", "anchors": ["src/cpp/remesher/split_edges.cpp:split_edges", "src/cpp/remesher/split_edges_until_bound.cpp:split_edges_until_bound", "src/gpytoolbox/remesh_botsch.py:remesh_botsch"]}
{"id": "C84", "title": "Edge flipping in remesh_botsch only improves valences and respects features", "statement": "The valence-equalising stage of remesh_botsch replaces the two faces at an interior edge by the two faces at the other diagonal only; it does so only when none of the four corners is a feature vertex, the edge is not a feature edge, the new diagonal is not yet an edge, both new faces have positive area and normals within sixty degrees of both old normals, and the sum over all vertices of |number of incident faces - 6| drops. The result is again an oriented edge-manifold with the same vertices, number of faces and boundary; whenever an admissible flip exists at the start, the sum does drop; with all vertices features nothing changes.", "quantifier": "all oriented edge-manifold triangle meshes, vertex positions, feature vertex and feature edge lists and all implementations of igl::flip_edge that meet its contract", "why_tests_cant": "the order of flips and the incrementally maintained valences and adjacency lists must stay coherent for every mesh and every sequence of flips; tests see only a few meshes", "anchors": ["src/cpp/remesher/equalize_valences.cpp:equalize_valences", "src/gpytoolbox/remesh_botsch.py:remesh_botsch"]}
{"id": "C85", "title": "The smoothing stage of remesh_botsch leaves features in place and puts everything else on the reference surface", "statement": "The tangential relaxation stage never moves feature vertices and ends or junctions of feature curves; a vertex inside a feature curve goes to the midpoint of its two neighbours on the curve and, with project, from there to the nearest point of the original feature polyline; every other vertex moves within its tangent plane towards the average of its neighbours and from there to the nearest point of the reference surface (the input mesh with project, the current mesh without). Refuted: without project, vertices of feature curves are not reprojected onto the original polyline as documented.", "quantifier": "all meshes, feature lists, feature edge tables and both settings of project; every implementation of the closest-point query that meets its contract", "why_tests_cant": "which of the vertex classes a vertex falls into and where it lands depends on arbitrary combinations of mesh, features and positions", "anchors": ["src/cpp/remesher/tangential_relaxation.cpp:tangential_relaxation", "src/gpytoolbox/remesh_botsch.py:remesh_botsch"]}
{"id": "C86", "title": "Edge collapses in remesh_botsch respect features", "statement": "The collapsing stage never collapses an edge with a feature vertex; two vertices on feature curves are merged only along a feature edge and never two ends or junctions; the collapsed edge is at most as long as the mean lower bound of its ends and no resulting edge exceeds the upper bound. Feature vertices survive unmoved, surviving ends or junctions of curves stay in place, other surviving curve vertices sit where a curve vertex was. Feature vertices, feature edges and length bounds are renumbered following the merges, without degenerate or duplicate feature edges. Refuted: an end of a feature curve merged into a lower numbered ordinary vertex can be moved off later; faces may be flipped because the orientation test skips faces number 0 and |N|-1.", "quantifier": "every sequence of collapses igl::decimate can perform with the callback the code installs, on all meshes, feature lists and bounds", "why_tests_cant": "the claim concerns every order and number of collapses and the union-find bookkeeping across them", "anchors": ["src/cpp/remesher/collapse_edges.cpp:collapse_edges", "src/gpytoolbox/remesh_botsch.py:remesh_botsch"]}
{"id": "C87", "title": "remesh_botsch as a whole terminates with an oriented manifold that keeps its feature vertices", "statement": "For every oriented edge-manifold mesh, every number of iterations and every target length the remeshing loop terminates, the result is again an oriented edge-manifold, the feature vertices are the first vertices of the result, in the same order and unmoved, and with project every vertex that is not a feature or an end or junction of a feature curve lies on an original feature curve or on the input surface. With zero iterations the input is returned. When all vertices are features and no feature edges are given the call changes nothing, as its warning says; when a feature edge that is too long is given it is split in spite of the warning.", "quantifier": "all oriented edge-manifold meshes, target lengths, iteration counts, feature lists and feature edges, and all implementations of the libigl functions used that meet their contracts", "why_tests_cant": "the invariants must survive any number of iterations of four mutually dependent stages", "anchors": ["src/cpp/remesher/remesh_botsch.cpp:remesh_botsch", "src/gpytoolbox/remesh_botsch.py:remesh_botsch"]}
{"id": "C88", "title": "lazy_cage returns the tightest intersection-free offset its bisection can find", "statement": "For every surface with non-degenerate bounding box whose largest side is 2w, lazy_cage brackets the offset distance between lo and hi with hi - lo = w / 2^max_iter, lo being 0 or an offset whose decimated, self-unioned offset surface still intersects the input; if some tested offset was free, the returned cage is the candidate of hi and does not intersect the input, otherwise None (or, with force_output, the last tried candidate) is returned. If freeness is monotone in the offset, the cage is within w / 2^max_iter of the tightest free one. With max_iter <= 0 force_output fails instead of returning a cage, and containment, promised by the documentation, is never tested: a candidate that vanished in decimation is returned as a cage.", "quantifier": "all input meshes, grid sizes, iteration counts, face counts, and all implementations of offsetting, decimation, union and intersection tests", "why_tests_cant": "the bracket invariant must hold for every number of iterations and every answer pattern of the intersection test; tests try one shape", "anchors": ["src/gpytoolbox/copyleft/lazy_cage.py:lazy_cage"]}
{"id": "C89", "title": "Thin mesh wrappers pass on what they document: booleans, intersection tests, decimation targets, barycenters", "statement": "mesh_boolean maps 'union', 'intersection', 'difference' and 'minus' to the operation of that name and every other string (including the documented alias 'subtraction') to an error; do_meshes_intersect answers True exactly when there is an intersecting pair, and then returns it; decimate targets num_faces if given, otherwise the largest whole number of faces within face_ratio, between 0 and the face count, and rejects unknown methods; barycenters returns for each element, whatever its positive number of corners, the unique point from which the differences to the corners cancel.", "quantifier": "all meshes, all operation and method strings, all ratios, all element lists", "why_tests_cant": "quantifies over all strings, all real ratios (rounding) and all element sizes", "anchors": ["src/gpytoolbox/copyleft/mesh_boolean.py:mesh_boolean", "src/gpytoolbox/copyleft/do_meshes_intersect.py:do_meshes_intersect", "src/gpytoolbox/decimate.py:decimate", "src/gpytoolbox/barycenters.py:barycenters"]}
{"id": "C90", "title": "bad_quad_mesh_from_quadtree turns the leaves of a tree into quads and hexahedra exactly", "statement": "For every quadtree or octree obtained from a root by any sequence of subdivisions, bad_quad_mesh_from_quadtree returns vertices without duplicates that are exactly the corners of leaf cells, and one quad per leaf (2D: in order around the cell) respectively one hexahedron and six quads per leaf (3D: each quad going around one side), in the order of quadtree_children, each index pointing to the right corner of the right leaf. In 2D the documented empty H is instead one non-empty row.", "quantifier": "all trees reachable by any subdivision history, root centre and width", "why_tests_cant": "duplicate merging compares coordinates up to a tolerance derived from the smallest cell; that it merges exactly the equal corners needs an argument about dyadic positions for trees of any depth", "anchors": ["src/gpytoolbox/bad_quad_mesh_from_quadtree.py:bad_quad_mesh_from_quadtree", "src/gpytoolbox/quadtree_children.py:quadtree_children"]}
{"id": "C91", "title": "The first point cloud of reach_for_the_arcs is tangent to the distance samples, for every thread schedule", "statement": "For distinct sample positions and any order and thread assignment of the parallel loop, the local feasibility step of reach_for_the_arcs always returns the same cloud: at most one point per sample, in the order of the samples, each lying on the sphere of its sample (radius |S_i|), outside the spheres of all other samples of the batch up to tol, with a unit normal n such that p + S_i n is the sample position; samples with |S_i| at or above clamp_value give no point, and a sample whose first candidate is free keeps it. The sphere tree can always be built and a query for spheres containing a point returns only and, up to its limit k, all of them.", "quantifier": "all numbers of samples in dimension 2 and 3, all batches, tolerances, iteration counts, shufflings, thread schedules and nearest outside points", "why_tests_cant": "the loop runs in parallel over shuffled indices with per-thread buffers that are reused between samples; the tree search prunes by boxes and stops early", "anchors": ["src/cpp/reach_for_the_arcs/locally_make_feasible.cpp:locally_make_feasible", "src/cpp/reach_for_the_arcs/sAABB.cpp:get_spheres_containing", "src/cpp/reach_for_the_arcs/resolve_collisions_on_sphere.cpp:resolve_collisions_on_sphere", "src/gpytoolbox/reach_for_the_arcs.py:_locally_make_feasible"]}
{"id": "C92", "title": "Fine tuning the point cloud of reach_for_the_arcs keeps it tangent, for every thread schedule", "statement": "For every cloud of points on their spheres, every mesh and every thread schedule, one fine-tuning iteration returns, up to the order of the points, the same cloud; every returned point lies on the sphere of its sample, outside the other spheres of the batch up to tol, with the right normal, and below the clamp; no sample gets more points than it had or than max_points_per_sphere allows; a sample without points gets the point of its sphere that agrees best with the mesh if that is free; a sample whose distance to the mesh is right keeps its free points; a moved point is its target or no further from it than before and within local_search_t of where it was.", "quantifier": "all clouds, meshes, sample data, parameters, shufflings, numbers of threads and schedules, in dimension 2 and 3", "why_tests_cant": "points are collected per thread and moved with a line search over great arcs whose rotation axis degenerates; the result must not depend on the schedule", "anchors": ["src/cpp/reach_for_the_arcs/fine_tune_point_cloud_iter.cpp:fine_tune_point_cloud_iter", "src/gpytoolbox/reach_for_the_arcs.py:_fine_tune_point_cloud_iteration"]}
{"id": "C93", "title": "reach_for_the_arcs returns points of the sample spheres, and the mesh belongs to them", "statement": "For distinct samples, a positive tol and a search and reconstruction that keep their contracts, reach_for_the_arcs returns; every returned point lies on the sphere of some sample whose distance is below clamp_value, with a unit normal along which the sample is at its signed distance; if all samples fit in one batch it is outside the spheres of all other samples of the same sign up to tol times the size of the data, and outside all other spheres if the cloud was fine-tuned and a mesh came out; without fine tuning a sample of either sign whose first candidate is free gives that candidate; the mesh is the reconstruction of exactly these oriented points in the unit box, moved back, with unchanged faces; scaling and moving the samples with the distances and clamp_value scales and moves the result; samples all in one place make it fail.", "quantifier": "all sample positions and distances, parameters, random draws, thread schedules and surface reconstructions, in dimension 2 and 3", "why_tests_cant": "the driver normalises the data, splits it by sign, maps indices back and undoes the normalisation after a random, parallel search; tests look at single data sets", "anchors": ["src/gpytoolbox/reach_for_the_arcs.py:reach_for_the_arcs", "src/gpytoolbox/reach_for_the_arcs.py:_sdf_to_point_cloud", "src/gpytoolbox/reach_for_the_arcs.py:_locally_make_feasible", "src/gpytoolbox/reach_for_the_arcs.py:_fine_tune_point_cloud"]}
{"id": "C94", "title": "The C++ OBJ engine reads every well-formed file completely and reads back what either engine writes", "statement": "With the default (C++) engine, reading a text whose vertex, texture and normal lines each have one positive number of columns and whose faces have three corners returns every row and every face in file order with 0-based numbers (-1 where a corner gives none), whatever the order of the lines, the blanks between the words and the other lines; for any text that is read without error there is one face per 'f ' line, texture and normal numbers have the shape of the faces, and rows have equal length; writing raises exactly if Ft or Fn is given with a shape other than that of F; reading what was written gives back V, F, UV, N and the numbers Ft, Fn (by default those of F); the Python writer writes the same file. Malformed rows raise an exception.", "quantifier": "all texts, all matrices with indices in the int range, both flags, all number formats whose output is read back", "why_tests_cant": "the arrays grow by doubling and are cut at the end, words are found by hand-written scanning, and -1 must survive in unused rows; tests read a few fixed files", "anchors": ["src/cpp/read_obj.cpp:read_obj", "src/cpp/read_obj.cpp:non_space", "src/cpp/read_obj.cpp:it_to_int", "src/cpp/write_obj.cpp:write_obj", "src/gpytoolbox/read_mesh.py:_read_obj", "src/gpytoolbox/write_mesh.py:_write_obj"]}
{"id": "C95", "title": "ray_mesh_intersect returns the first triangle along every ray", "statement": "With use_embree=False, every ray cam_pos[i] + t cam_dir[i], t >= 0, gets the least t at which it meets the mesh, the number of a triangle that it meets there and the barycentric coordinates (not negative, sum one) of the point it meets; if it meets none, t is infinite, the number is -1 and the coordinates are zero; t does not depend on the acceleration tree that is given or built; t scales with the inverse of the length of the direction.", "quantifier": "every mesh, every list of rays and every valid tree over the triangles, exact reals", "why_tests_cant": "a traversal that prunes boxes by their entry distance must never discard the nearest triangle, for all trees and rays", "anchors": ["src/gpytoolbox/ray_mesh_intersect.py", "src/gpytoolbox/traverse_aabbtree.py", "src/gpytoolbox/ray_triangle_intersect.py", "src/gpytoolbox/ray_box_intersect.py", "src/gpytoolbox/initialize_aabbtree.py"]}
{"id": "C96", "title": "STL files: every well-formed file is read completely and what is written reads back", "statement": "A binary STL file is read iff it states 1 to 5e8 facets and has room for them, and the result is the corners at the offsets of the format; an ASCII file with lines of at most 256 bytes is read iff its keyword lines are solid, then facet normal, outer loop, three vertices, endloop, endfacet for every facet, then endsolid, other lines ignored, and the result is the vertices in this order; write_mesh and read_mesh(merge_stl=False) give three new rows per face with the coordinates of its corners in single precision (binary) or as printed and read (ASCII); merging then identifies exactly the equal rows and keeps every corner's position. Every mesh that is written can be read back.", "quantifier": "all byte strings, all meshes, both formats, all number formats whose output is read back, every value of the uninitialised byte at the end of the file", "why_tests_cant": "the ASCII/binary detection, the state machine of the reader and the byte offsets have to fit for all files; tests read a few fixed files", "anchors": ["src/cpp/microstl/microstl.h", "src/cpp/microstl/microstl_wrappers.cpp", "src/cpp/binding_read_stl.cpp", "src/cpp/binding_write_stl.cpp", "src/gpytoolbox/read_mesh.py:_read_stl", "src/gpytoolbox/write_mesh.py:_write_stl", "src/gpytoolbox/remove_duplicate_vertices.py"]}
{"id": "C97", "title": "PLY files: every well-formed file is read as its header says, and what is written reads back", "statement": "For every PLY file (ascii, little or big endian) whose header declares elements and properties in any order, with comments, other elements and other properties, the coordinates, normals, triangles and colours that are returned are the values of the properties with these names, row by row; reading does not depend on uninitialised memory; a mesh written and read again has the same V, F, N and C: exactly in a binary file, up to the printing of doubles in a text file. Malformed or truncated files are refused.", "quantifier": "all headers and bodies, all meshes with or without normals, vertex or face colours, both formats, all number formats whose output is read back", "why_tests_cant": "the reader makes two passes over the body with byte cursors and type dependent strides; every combination of header, format and optional column has to keep them aligned; tests read a few files that the library wrote, and never evaluate the comparison of the colours", "anchors": ["src/cpp/tinyply/tinyply.h", "src/cpp/tinyply/tinyply_wrappers.cpp", "src/cpp/binding_read_ply.cpp", "src/cpp/binding_write_ply.cpp", "src/gpytoolbox/read_mesh.py:_read_ply", "src/gpytoolbox/write_mesh.py:_write_ply"]}
{"id": "C98", "title": "swept_volume's search for the closest time is consistent with what it stores", "statement": "For the distance of a point to the moving shape as a function of time, the search called by swept_volume returns a time between 0 and 1 and exactly the distance at this time, in every run of searches for that point, whatever the uninitialised memory was; if no stored interval is met the distance is at most that at the start and at the first of the tried times 1/50, 1/100, ... against the derivative that gains enough, and the path with its result is stored as a new interval that contains the start; stored results never change, stored intervals only grow; a start in a stored interval gets the result of the first such interval without evaluating the distance; asking again from the same start gives the same answer and changes nothing.", "quantifier": "all functions and derivatives (also wrong ones), all starts in [0,1], all contents of the store and all histories of calls, rationals", "why_tests_cant": "the loop mixes descent, line search, early exits and a growing store; consistency has to hold for all histories of queries", "anchors": ["src/cpp/swept_volume/gradient_descent_test.cpp", "src/cpp/swept_volume/swept_volume.cpp"]}
{"id": "C99", "title": "swept_volume moves the shape smoothly through its keyframes", "statement": "The translation at time t in [0,1] is that of catmull_rom_spline through the translations of the given matrices: keyframe k is met exactly at time k/(n-1), and the velocity that is handed to the search is the derivative of the translation at every time strictly between 0 and 1, also at keyframes. The matrices meet the keyframes (rotation and scale) at these times, and the matrix velocity is the derivative of the matrix inside every segment.", "quantifier": "all numbers of keyframes from two on, all keyframe matrices without a zero column, all times, all quaternion paths that join the rotations; exact reals", "why_tests_cant": "piecewise formulas with special cases at both ends and at time 1; their derivatives are written out by hand and never compared with the positions", "anchors": ["src/cpp/swept_volume/swept_volume.cpp", "src/gpytoolbox/swept_volume.py:swept_volume", "src/gpytoolbox/catmull_rom_spline.py"]}
{"id": "C100", "title": "point_cloud_to_mesh hands the normalised points to the solver and moves its mesh back", "statement": "point_cloud_to_mesh raises exactly if the shapes of P and N differ, there are fewer than two points, the dimension is not 2 or 3, the method is not PSR, the depth is not positive or the screening weight is negative; otherwise the Poisson solver gets every point with its normal, in order, moved into the open unit cube by one translation and one positive scale (also if all points coincide), with a depth of at most 12, and the mesh is what it returns, moved back by the inverse map, with unchanged faces; translating the points translates the mesh.", "quantifier": "all point clouds and normals, all parameters, all Poisson solvers; exact reals", "why_tests_cant": "the normalisation must fit the box for every cloud, and must be undone exactly; tests look at single clouds", "anchors": ["src/gpytoolbox/point_cloud_to_mesh.py:point_cloud_to_mesh", "src/cpp/point_cloud_to_mesh.cpp:point_cloud_to_mesh", "src/cpp/binding_point_cloud_to_mesh.cpp"]}
{"id": "C101", "title": "The voxel grid that swept_volume contours has no cracks", "statement": "In the sparse grid that swept_volume builds, every voxel has one cube, with eight numbers that are exactly those of the vertices at its corners; no point is stored twice, so that two cubes use the same number exactly where their corners are the same point; vertices keep their numbers and their values never grow. The value of a vertex is one of the answers of the scalar function there, and no larger than any answer that was computed there for a new voxel or a correction, unless it is not positive. A queued voxel without a cube lies inside: all its corners are vertices, none with a positive value in the end.", "quantifier": "all sequences of queue entries (new voxels, corrections, repetitions) and all answers of the scalar function, in particular all orders in which the queue is worked off", "why_tests_cant": "the gluing relies on hand-written tables for 30 neighbors, masks and corner numbers; a wrong number shows only where voxels are visited in a certain order", "anchors": ["src/cpp/swept_volume/sparse_continuation.cpp:sparse_continuation", "src/cpp/swept_volume/swept_volume.cpp"]}
