#!/usr/bin/env python3
"""Generates /verif/properties.jsonl from the table below (kept readable here)."""
import json
P=[]
def p(id,title,statement,quantifier,why,anchors):
    P.append(dict(id=id,title=title,statement=statement,quantifier=quantifier,why_tests_cant=why,anchors=anchors))
G="src/gpytoolbox/"
p("C01","Half-edges and half-faces are the oriented facets opposite each corner",
 "For a triangle list F, halfedges(F)[f,i] is the directed edge opposite corner i of face f, traversed in the face's own orientation, so the three half-edges of a face form its closed boundary cycle. For a tet list T, halffaces(T)[t,i] is the triangle opposite corner i, and the four half-faces of a tet form a closed, consistently oriented surface (every directed edge used exactly once, and exactly as often as its reverse).",
 "every list of triangles / tetrahedra over arbitrary integer indices",
 "the index pattern must be right for every element list; a wrong permutation only shows up as a flipped sign downstream",
 [G+"halfedges.py:halfedges",G+"halffaces.py:halffaces"])
p("C02","edges() lists every undirected mesh edge exactly once, boundary first",
 "edges(F) returns a list E in which every unordered vertex pair that is a side of some face appears exactly once (in one orientation), and nothing else appears; with return_boundary_indices, the returned indices select exactly those rows of E whose unordered pair is a side of exactly one half-edge.",
 "every non-empty triangle list, including non-manifold, inconsistently oriented and degenerate ones",
 "sizes and edge multiplicities are unbounded; tests use a handful of meshes",
 [G+"edges.py:edges"])
p("C03","interior / non-manifold indices returned by edges() and faces() select interior / non-manifold rows",
 "The optional return values interior_indices and nonmanifold_indices of edges(F) (and faces(T)) are documented as indices into the returned E (F); E[interior_indices] should be exactly the edges with more than one incident half-edge and E[nonmanifold_indices] exactly those with more than two.",
 "every non-empty triangle (tet) list",
 "only meshes that mix boundary and interior edges expose an index into the wrong (pre-permutation) array",
 [G+"edges.py:edges",G+"faces.py:faces"])
p("C04","faces() lists every triangle of a tet mesh exactly once, boundary first",
 "faces(T) returns every unordered vertex triple that is a facet of some tet exactly once, and nothing else; the boundary indices select exactly the triples that are a facet of exactly one half-face.",
 "every non-empty tetrahedron list",
 "same as C02, one dimension up",
 [G+"faces.py:faces",G+"halffaces.py:halffaces"])
p("C05","boundary_edges / boundary_faces / boundary_vertices",
 "boundary_edges(F) are exactly the sides with one incident half-edge, each in the orientation of its half-edge; boundary_faces(T) likewise; boundary_vertices(F) is the strictly increasing list of exactly those vertices that are an endpoint of some boundary edge. A closed mesh gives empty outputs.",
 "every non-empty element list",
 "set-level completeness over unbounded inputs",
 [G+"boundary_edges.py",G+"boundary_faces.py",G+"boundary_vertices.py"])
p("C06","non_manifold_edges returns exactly the over-used edges",
 "non_manifold_edges(F) returns the sorted list without repetition of exactly those unordered pairs (written min,max) which occur as a side of more than two half-edges.",
 "every non-empty triangle list",
 "completeness for all multiplicities",
 [G+"non_manifold_edges.py"])
p("C07","array_correspondence is exact lookup",
 "f = array_correspondence(A,B) has one entry per row of A; f[i] = -1 iff row A[i] does not occur in B; otherwise B[f[i]] = A[i] and f[i] is a valid index (the first such). The axis/flag variants agree with this on rows.",
 "all arrays of rows, with duplicates on either side",
 "correctness depends on the stable-sort / unique interplay for arbitrary duplicates",
 [G+"array_correspondence.py"])
p("C08","halfedge_edge_map: he_to_E and E_to_he are mutually inverse",
 "For a consistently oriented manifold triangle list: every half-edge h has E[he_to_E[h]] equal to h or its reverse; E_to_he[e,0] is a half-edge equal to E[e], E_to_he[e,1] is the oppositely oriented half-edge, or -1 exactly on boundary edges, and E_to_he[he_to_E[h]] contains h. With assume_manifold=False, E_to_he[e] is exactly the set of half-edges on edge e.",
 "every oriented edge-manifold triangle list (and, for the non-manifold mode, every triangle list)",
 "inverse maps must agree for every mesh; index arithmetic k%m, k//m fails only for particular positions",
 [G+"halfedge_edge_map.py"])
p("C09","triangle_triangle_adjacency is a symmetric gluing",
 "For a consistently oriented manifold triangle list: if TT[f,i]=g>=0 and TTi[f,i]=j then half-edge j of g is the reverse of half-edge i of f, and TT[g,j]=f, TTi[g,j]=i; TT[f,i]=-1 iff TTi[f,i]=-1 iff the edge is a boundary edge.",
 "every oriented edge-manifold triangle list",
 "involution over all faces and sides",
 [G+"triangle_triangle_adjacency.py"])
p("C10","connected_components labels faces and vertices consistently",
 "Two vertices get the same component id iff they are linked by a path of mesh edges; a face's id is that of all its corners; adjacency_matrix is symmetric and non-zero exactly on mesh edges; an empty mesh gives empty outputs.",
 "every simplex list and vertex count",
 "reachability is a global property",
 [G+"connected_components.py",G+"adjacency_matrix.py"])
p("C11","Discrete exterior derivative squares to zero",
 "dec_d1(F) * dec_d0(F) = 0: for every vertex function, the discrete curl of the discrete gradient vanishes on every face; rows of d0 sum to zero.",
 "every consistently oriented manifold triangle list and every vertex function",
 "an identity over all meshes",
 [G+"dec_d0.py",G+"dec_d1.py",G+"halfedge_edge_map.py"])
p("C12","Hodge stars and their claimed inverses",
 "dec_h0inv, dec_h1inv, dec_h2inv are the inverses of dec_h0, dec_h1, dec_h2 whenever the diagonal entries are non-zero.",
 "every mesh with non-degenerate entries",
 "a sum of reciprocals equals the reciprocal of a sum only in degenerate cases (single incident face)",
 [G+x+".py" for x in "dec_h0 dec_h0_intrinsic dec_h1 dec_h1_intrinsic dec_h2 dec_h2_intrinsic dec_h0inv dec_h1inv dec_h2inv dec_h0inv_intrinsic dec_h1inv_intrinsic dec_h2inv_intrinsic".split()])
p("C13","remove_unreferenced keeps the geometry and drops exactly the unused vertices",
 "For (U,G,I,J)=remove_unreferenced(V,F): every corner keeps its position (U[G[f,i]] = V[F[f,i]]), every row of U is referenced by G, J is increasing and V[J]=U, I[J]=arange, I[v]=-1 iff v is unreferenced; entries -1 of F stay -1. The function should accept an empty F, as the code's dedicated branch intends.",
 "every vertex list and every face list with indices in range (or -1)",
 "relabelling correctness for all index patterns",
 [G+"remove_unreferenced.py"])
p("C14","remove_duplicate_vertices merges exactly the duplicates",
 "With eps=0: SV has pairwise distinct rows, SV=V[SVI], V=SV[SVJ], faces keep their corner positions. With eps>0: two rows are merged iff they round to the same lattice cell, merged rows differ by at most eps per coordinate; (tolerance claim) any two rows closer than eps are merged.",
 "every vertex list and face list, every eps>=0",
 "rounding-cell boundaries are measure-zero and not hit by tests",
 [G+"remove_duplicate_vertices.py"])
p("C15","boundary_loops traces every boundary edge exactly once",
 "If every boundary vertex has exactly one outgoing and one incoming boundary edge, boundary_loops(F) succeeds, every consecutive (cyclic) pair of vertices in a loop is a boundary edge with the mesh's orientation, every boundary edge occurs exactly once over all loops and each boundary vertex is in exactly one loop. Whenever the function returns at all, consecutive pairs are boundary edges and lengths add up to the number of boundary edges.",
 "every triangle list / any number of boundary components",
 "loop invariants over an unbounded number and length of loops, and termination",
 [G+"boundary_loops.py"])
p("C16","Polyline index generators",
 "edge_indices(n,closed) yields exactly the edges (i,i+1), plus (n-1,0) when closed; regular_circle_polyline(n) yields n distinct points on the unit circle joined in a closed simple cycle.",
 "every n",
 "off-by-one at the closing edge; coincident endpoints",
 [G+"edge_indices.py",G+"regular_circle_polyline.py"])
p("C17","upsample subdivision preserves the surface",
 "subdivide(V,F,method='upsample') puts the old vertices first unchanged, adds one vertex per undirected edge at its midpoint, replaces every face by four faces with the same orientation whose vertex positions are corners/mid-points of the old face (so areas quarter and total area is unchanged), multiplies the number of faces by 4^iters, shares mid-points between neighbouring faces (no cracks), and returned S satisfies Vu=S V with rows that sum to one. Polylines likewise.",
 "every triangle list / polyline and number of iterations",
 "cracks occur only for particular sharing patterns; induction over iterations",
 [G+"subdivide.py:_upsample_polyline",G+"subdivide.py:_upsample_triangle_mesh"])
p("C18","Loop subdivision is an affine combination",
 "For method='loop', each row of the subdivision matrix S sums to one (constants and affine maps are reproduced) and has non-negative weights; boundary vertices depend on boundary neighbours only.",
 "every oriented manifold triangle mesh with interior vertices of valence at least 3",
 "weights depend on unbounded valence",
 [G+"subdivide.py:_loop_triangle_mesh"])
p("C19","regular_square_mesh tiles the square",
 "regular_square_mesh(nx,ny) has nx*ny vertices and 2(nx-1)(ny-1) valid faces, all positively oriented with equal area summing to 4, consistently oriented and edge-manifold: no directed edge is used twice.",
 "all nx, ny >= 2",
 "index arithmetic over all sizes",
 [G+"regular_square_mesh.py"])
p("C20","Parametric surfaces (torus, cylinder, cone) have the advertised topology",
 "torus(nR,nr) is closed: every directed edge is used by exactly one face and so is its reverse; cylinder and cone are consistently oriented edge-manifold with the boundary being the end circles only; all indices valid.",
 "all sizes >= 3",
 "wrap-around index arithmetic over all sizes",
 [G+"torus.py",G+"cylinder.py",G+"cone.py"])
p("C21","regular_cube_mesh decomposes every grid cube",
 "For every supported type, all tet indices are in range, tets are positively oriented (volume()), the volumes add up to the cube volume, and neighbouring cubes are conforming (shared quads carry the same diagonal).",
 "all nx,ny,nz >= 2 and the mesh types",
 "conformity depends on parity and mesh size",
 [G+"regular_cube_mesh.py"])
p("C22","grid_neighbors returns the true grid neighbours",
 "grid_neighbors(gs,order=1) gives in column j the linear indices of the grid neighbours of cell j, -1 where the neighbour is outside the grid (wrapped indices with periodic option); with order=k the neighbours reachable in at most k steps.",
 "all grid sizes in 2D/3D and orders",
 "wrap at small sizes and composition of orders",
 [G+"grid_neighbors.py"])
p("C23","fd_interpolate reproduces affine functions; finite differences are exact on them",
 "For every point in the grid box, the row of fd_interpolate has non-negative weights summing to one, supported on the corners of the containing cell, and applying it to grid coordinates returns the point; fd_partial_derivative / fd_grad of an affine grid function equals its slope at every staggered node.",
 "all grid sizes, spacings, corners and points in the box",
 "boundary cells and index linearisation",
 [G+"fd_interpolate.py",G+"fd_partial_derivative.py",G+"fd_grad.py"])
p("C24","matrix_from_function",
 "matrix_from_function(fun,X1,X2)[i,j] = fun(X1[i],X2[j]) for all i,j, for the full and for the sparse variant with a neighbour pattern (zero outside the pattern).",
 "all inputs and functions",
 "reshape/tile order over all sizes",
 [G+"matrix_from_function.py"])
p("C25","Quadtree cells tile their parents",
 "After any sequence of subdivisions, child/parent arrays are mutually inverse, depth increases by one, widths halve, the children of every internal cell cover it exactly with disjoint interiors, and hence the leaves cover the root box.",
 "every starting box, every subdivision sequence, 2D and 3D",
 "invariant over unbounded histories",
 [G+"subdivide_quad.py",G+"initialize_quadtree.py"])
p("C26","Quadtree adjacency is geometric adjacency",
 "After any sequence of graded-or-not subdivisions (2D and 3D), for any two cells i,j the entry A[i,j] is the code a (1 left, 2 right, 3 bottom, 4 top, 5 back, 6 front) iff cell j lies on the a-th side of cell i, sharing a piece of face of positive measure, and 0 iff they share none; hence quadtree_boundary returns exactly the cells (leaves) of a quadtree that touch the boundary of the root box.",
 "every subdivision history from the root",
 "the lookup tables must be right for all histories",
 [G+"subdivide_quad.py:subdivide_quad",G+"quadtree_boundary.py",G+"quadtree_laplacian.py"])
p("C27","in_quadtree finds the leaf containing the point",
 "For every point of the closed root box, in_quadtree terminates and returns the index of a leaf whose closed cell contains it; for a point outside, -1 and no other cell; `others` lists the visited containing cells, closed under taking parents; if only one leaf contains the point, `others` is all the cells containing it. (Documented besides: the answer is the smallest cell containing the point, and `others` are all the other, non-leaf, cells containing it.)",
 "every tree built by subdivision, every point",
 "ties on cell boundaries; unbounded trees; termination",
 [G+"in_quadtree.py"])
p("C28","Quadtree construction respects depth bounds and grading",
 "initialize_quadtree(P,max_depth,min_depth,graded) terminates without error on every non-empty point cloud; every cell has depth <= max_depth (unless it is the root), every leaf has depth >= min(min_depth,max_depth), a leaf of depth < max_depth contains no point, the default box contains all the points, and with graded=True adjacent leaves differ by at most one level.",
 "every point cloud and depth bounds",
 "recursive grading over arbitrary histories",
 [G+"initialize_quadtree.py",G+"subdivide_quad.py"])
p("C29","Quadtree differential operators annihilate constants",
 "Rows of quadtree_laplacian and quadtree_gradient sum to zero on every leaf; quadtree_gradient is exact for linear functions; both accept every valid quadtree including a single cell.",
 "every quadtree",
 "depends on neighbour configurations",
 [G+"quadtree_laplacian.py",G+"quadtree_gradient.py"])
p("C30","initialize_aabbtree builds a sound bounding volume hierarchy",
 "Every element is in exactly one leaf, every box contains the boxes of its children and the element of its leaves, parent/child arrays are inverse, internal nodes have two children with disjoint element sets whose union is the parent's.",
 "every non-empty element list in any dimension",
 "median splits with ties, queue order, unbounded sizes",
 [G+"initialize_aabbtree.py"])
p("C31","squared_distance with AABB equals brute force",
 "For every query, the distance returned using the tree equals the minimum over all elements of the point-element squared distance, and the returned index attains it (also for points, segments and triangles, and for approximate_hausdorff/unsigned_distance built on top).",
 "every element set and query point",
 "pruning errors only show for adversarial configurations",
 [G+"squared_distance.py",G+"traverse_aabbtree.py",G+"unsigned_distance.py",G+"approximate_hausdorff_distance.py:approximate_hausdorff_distance"])
p("C32","squared_distance_to_element returns the closest point",
 "For a point, a segment (a single point, or at least as long as the documented 1e-10 threshold) and a non-degenerate triangle in any position, the returned squared distance is attained by a point of the element (given by the returned barycentric coordinates, which are non-negative and sum to one) and is <= the squared distance to every point of the element.",
 "every query point and element",
 "seven Voronoi regions with edge cases on their boundaries",
 [G+"squared_distance_to_element.py"])
p("C33","minimum_distance prunes soundly",
 "minimum_distance(V1,F1,V2,F2) equals the minimum over all pairs of elements of the element-element distance; the max-norm box gap used for pruning never exceeds the Euclidean distance of contained elements.",
 "every two element sets",
 "pruning soundness over unbounded inputs",
 [G+"minimum_distance.py"])
p("C34","traverse_aabbtree is callable with its documented defaults",
 "traverse_aabbtree with the default add_to_queue function visits every node accepted by the traversal function in breadth-first order without error.",
 "every tree and traversal function",
 "default branch not covered",
 [G+"traverse_aabbtree.py"])
p("C35","ray_box_intersect is sound and complete",
 "ray_box_intersect reports a hit iff some point origin + t*dir with t >= 0 lies in the closed box, and the returned point is in the box and on the ray.",
 "every dimension, box, origin and direction, incl. zero direction components and origins inside",
 "degenerate directions / boundaries",
 [G+"ray_box_intersect.py"])
p("C36","ray_triangle_intersect is sound and complete",
 "A reported hit lies on the ray (t>0 direction as returned) and in the triangle; a ray that properly crosses the triangle's interior is reported.",
 "every ray and non-degenerate triangle",
 "absolute determinant threshold makes small triangles invisible",
 [G+"ray_triangle_intersect.py"])
p("C37","ray_polyline_intersect returns the first hit",
 "ray_polyline_intersect returns the first point along the ray, within max_distance, where it meets the polyline, with the element index; no hit when there is none.",
 "every ray and 2D polyline",
 "collinear case bug",
 [G+"ray_polyline_intersect.py"])
p("C38","barycentric_coordinates",
 "For a non-degenerate triangle in 2D or 3D, barycentric_coordinates(p,v1,v2,v3) sum to one and reproduce p (its projection on the triangle's plane in 3D); corners get unit coordinates.",
 "all points and non-degenerate triangles",
 "real-valued identity",
 [G+"barycentric_coordinates.py"])
p("C39","volume and doublearea",
 "doublearea(V,F) is twice the Euclidean area (2D absolute value / 3D cross-product norm), invariant under corner permutation; doublearea_intrinsic from edge lengths agrees (Heron); volume is the signed volume: flips sign with orientation, translation invariant.",
 "all vertex positions",
 "real-valued identities",
 [G+"doublearea.py",G+"doublearea_intrinsic.py",G+"volume.py"])
p("C40","cotangent_laplacian is symmetric, annihilates constants and is positive semi-definite",
 "L = cotangent_laplacian(V,F): L symmetric, L*1=0 and x'Lx >= 0 for all x.",
 "every non-degenerate triangle mesh and every x",
 "global quadratic form",
 [G+"cotangent_laplacian.py",G+"cotangent_laplacian_intrinsic.py",G+"cotangent_weights.py",G+"cotangent_weights_intrinsic.py",G+"halfedge_lengths.py",G+"halfedge_lengths_squared.py"])
p("C41","massmatrix conserves area",
 "massmatrix of each type (barycentric, voronoi, full) has total sum equal to the total area (length for polylines) and, for the lumped types, is diagonal with non-negative entries.",
 "every non-degenerate mesh",
 "sum over unbounded meshes; obtuse-angle cases of voronoi",
 [G+"massmatrix.py",G+"massmatrix_intrinsic.py"])
p("C42","grad is exact on linear functions",
 "grad(V,F) applied to the restriction of an affine function to the vertices returns, on every face, its gradient (2D) / its tangential projection (3D); constants map to zero.",
 "every non-degenerate mesh and affine function",
 "real-valued identity for every mesh",
 [G+"grad.py"])
p("C43","min_quad_with_fixed and fixed_dof_solve honour the constraints",
 "u = min_quad_with_fixed(Q,c,A,b,k,y) satisfies u[k]=y exactly, A u = b, and is a minimiser of 1/2 u'Qu+c'u among feasible vectors, for symmetric Q positive semi-definite, whenever the inner linear solve is correct; fixed_dof_solve returns u with u[k]=y and the free rows of A u=b satisfied; precomputed objects can be reused for different right-hand sides.",
 "all sizes, all symmetric PSD Q, all constraint sets",
 "linear algebra over all sizes",
 [G+"min_quad_with_fixed.py",G+"fixed_dof_solve.py"])
p("C44","OBJ write/read round-trip",
 "read_mesh(write_mesh(V,F,UV,Ft,N,Fn)) with the python engine returns the same vertex, texture and normal rows and the same index lists, for all optional combinations that the writer accepts; index lists that were not given come back as the face list when the counts agree and as -1 otherwise, and empty arrays come back as None. Index lists of the wrong length are rejected.",
 "every mesh, every combination of texture/normal data",
 "string codec over unbounded inputs",
 [G+"write_mesh.py:_write_obj_python",G+"read_mesh.py:_read_obj_python"])
p("C45","marching_squares produces closed, consistently oriented contours on the zero level",
 "Every output vertex lies on a grid edge whose end values have opposite sign classes, at the linear zero; every output vertex off the grid border has as many incoming as outgoing contour edges (exactly one each where the crossings are distinct points), so the contours are closed up to the grid border; the positive side is always on the right of every directed edge.",
 "every grid size and every scalar field",
 "16 cell configurations times neighbours",
 [G+"marching_squares.py"])
p("C46","particle_swarm stays in the box and returns the best evaluated point",
 "The returned x is within [lb,ub], f=fun(x), and f is <= every objective value evaluated during the run (monotone), for every sequence of random draws.",
 "all objectives, bounds lb<=ub, random sequences, iterations, topologies",
 "random schedules are unbounded",
 [G+"particle_swarm.py","src/cpp/particle_swarm.cpp"])
p("C47","metropolis_hastings output is consistent",
 "S[0]=x0; F[i]=unnorm_distr(S[i]) for all i; each sample is a proposal accepted from the previous sample.",
 "all distributions, proposal functions and random sequences",
 "random schedules; first entry never compared in tests",
 [G+"metropolis_hastings.py"])
p("C48","rotation_matrix_from_vectors returns a rotation aligning the vectors",
 "The result R is orthogonal with determinant +1 and maps vec1/|vec1| to vec2/|vec2|.",
 "all pairs of non-zero 2D/3D vectors, incl. parallel and antiparallel",
 "antiparallel special case",
 [G+"rotation_matrix_from_vectors.py"])
p("C49","normalize_points fits the unit box",
 "normalize_points(v,center) returns points inside the unit-size axis-aligned box centred at `center`, by a uniform scale and translation, with the largest side equal to 1; the caller's array is not modified.",
 "all point clouds with non-zero extent",
 "aliasing plus global extrema",
 [G+"normalize_points.py"])
p("C50","catmull_rom_spline interpolates its keyframes",
 "With n >= 2 keyframes at the uniform times i/(n-1), the spline passes through P[i] at time i/(n-1) for every i, is a cubic polynomial on every interval, is continuously differentiable across keyframes with the Catmull-Rom tangent, and every query time above 1 (or fewer than two keyframes) is rejected with IndexError.",
 "all keyframes with increasing times",
 "end-point special cases",
 [G+"catmull_rom_spline.py"])
p("C51","linear_blend_skinning",
 "If weights of a vertex sum to one, identical rigid transforms move every vertex by that transform; identity handles leave the shape unchanged; the result is linear in the weights.",
 "all meshes, weights and handle transforms",
 "identity over all sizes",
 [G+"linear_blend_skinning.py"])
p("C52","Sign of a point with respect to a polygon",
 "signed_distance_polygon gives negative sign exactly to interior points of a simple polygon; squared distance is the true distance to the boundary.",
 "all polygons and query points",
 "vertices aligned with the query ray",
 [G+"signed_distance_polygon.py",G+"winding_number.py"])
p("C53","Compactly supported kernels",
 "compactly_supported_normal_kernel / compactly_supported_normal are non-negative, vanish outside their documented support, are symmetric in their arguments and are continuous piecewise polynomials.",
 "all arguments",
 "values exactly at breakpoints",
 [G+"compactly_supported_normal.py",G+"compactly_supported_normal_kernel.py"])
p("C54","random_points_on_mesh samples points of the mesh",
 "Every returned point is a convex combination of the corners of the returned element (indices valid), with the returned barycentric coordinates non-negative and summing to one, for every sequence of uniform draws.",
 "all meshes and random sequences",
 "random schedules; reflection step of the square-to-triangle map",
 [G+"random_points_on_mesh.py"])
p("C55","linear_elasticity_stiffness accepts every mesh",
 "linear_elasticity_stiffness returns an operator on all 2n vertex degrees of freedom for every valid mesh, symmetric and annihilating translations.",
 "all meshes, any ratio of faces to vertices",
 "slicing with the wrong count only fails when 2m < n",
 [G+"linear_elasticity_stiffness.py"])
p("C56","edge_edge_distance returns the true segment-segment distance",
 "edge_edge_distance(P1,Q1,P2,Q2) is attained by points on the two segments and is minimal over all pairs.",
 "all pairs of segments incl. parallel and degenerate",
 "clamping regions",
 [G+"edge_edge_distance.py"])
p("C57","apply_colormap clamps and interpolates",
 "apply_colormap clamps every value to the range, locates it on the (linear or logarithmic) axis from first to last colour and returns the rounding to integers of the linear interpolation of the two neighbouring table colours (or of the nearest table colour): the minimum and below get the first colour, the maximum and above the last; without explicit bounds the range is that of the data.",
 "all colour tables and values",
 "boundary handling",
 [G+"apply_colormap.py",G+"colormap.py"])
p("C58","dmat reading is column-major",
 "read_dmat returns the matrix whose entry (i,j) is the (j*rows+i)-th value in the file for every well-formed dmat text.",
 "all matrix sizes and contents",
 "ordering over all sizes",
 [G+"read_dmat.py"])
p("C59","Tip angles satisfy the cosine rule and sum to pi",
 "tip_angles_intrinsic(l_sq,F) returns, for every non-degenerate triangle, three angles in (0,pi) obeying the cosine rule, summing to pi, whatever the scale of the triangle and whichever value of use_small_angle_approx.",
 "all non-degenerate triangles of any size",
 "the small-angle branch is chosen by absolute length, so tests at unit scale never reach it",
 [G+"tip_angles_intrinsic.py",G+"tip_angles.py"])
p("C60","Empty meshes are handled",
 "Connectivity functions given a face array with zero rows return the empty result instead of failing.",
 "all functions accepting (0,3) face arrays",
 "each function treats the empty array by a different code path",
 [G+"adjacency_matrix.py",G+"connected_components.py"])
p("C61","cut_edges separates exactly along the listed edges",
 "cut_edges(F,E) returns G,I with I[G]=F entrywise, and two corners receive the same new vertex iff they were the same vertex and are linked through faces sharing edges at that vertex that are not in E.",
 "all triangle meshes and edge lists, including the empty list",
 "connectivity around vertices is unbounded",
 [G+"cut_edges.py"])
p("C62","triangle_triangle_distance returns the true distance of two triangles",
 "triangle_triangle_distance returns the minimum distance between the two closed triangles, for all non-degenerate triangles of any size.",
 "every pair of triangles in 3D",
 "continuum of configurations: vertex-face, edge-edge, intersecting",
 [G+"triangle_triangle_distance.py"])
p("C63","The fmt argument of read_mesh/write_mesh accepts the documented format names",
 "read_mesh(file,fmt=x) and write_mesh(file,...,fmt=x) accept the documented names obj, stl (and ply) whatever the file extension; without fmt the extension decides, ignoring case.",
 "every file name",
 "ranges over all file names",
 [G+"read_mesh.py:read_mesh",G+"write_mesh.py:write_mesh"])
p("C64","winding_number counts how often a closed curve goes around a point",
 "For a closed 2D curve and query points off it, winding_number returns an integer: the number of signed crossings of the curve with a ray from the point. Reversing the curve changes the sign; points separated from the curve by a line get 0; points that see every edge counterclockwise get at least 1 (exactly 1 for a triangle).",
 "every closed oriented edge list and every query point off it",
 "a sum of arctangents that must be an exact integer for a continuum of curves and points",
 [G+"winding_number.py:winding_number"])
p("C65","signed_distance is the distance to the curve, negative inside",
 "In 2D signed_distance returns the distance to the closed polyline in absolute value, negative for points inside and positive for points outside, whatever the orientation of the polyline.",
 "every polygon, every query point",
 "continuum of polygons and points; combines a tree search with an angle sum",
 [G+"signed_distance.py:signed_distance",G+"winding_number.py:winding_number",G+"squared_distance.py:squared_distance"])
p("C66","angle_defect is the discrete Gaussian curvature",
 "angle_defect returns 2 pi minus the sum of the tip angles at every vertex not on a boundary edge and 0 on boundary vertices; on a closed mesh the values add up to 2 pi (V - E + F) (Gauss-Bonnet), and interior vertices of a flat mesh whose ring winds once get 0 - at every mesh scale.",
 "every triangle mesh, every set of edge lengths satisfying the triangle inequality",
 "an exact topological identity over all meshes and all real edge lengths",
 [G+"angle_defect.py:angle_defect",G+"angle_defect_intrinsic.py:angle_defect_intrinsic"])
p("C67","Face normals, vertex normals and dihedral angles are the geometric ones",
 "per_face_normals returns unit vectors perpendicular to each face, right-handed; weighted by area they add up to zero on a closed surface. per_vertex_normals returns the unit vector along the area-weighted sum of the incident face normals whenever that sum is not zero. dihedral_angles(V,F)[f,i] is the angle in [0,pi] between the normals on the two sides of that half-edge, the same seen from both faces, NaN exactly on boundary half-edges.",
 "every triangle mesh (polyline for vertex normals in 2D), every vertex, every half-edge",
 "ranges over all meshes and all real positions; couples a sparse accumulation, the adjacency and trigonometry",
 [G+"per_face_normals.py:per_face_normals",G+"per_vertex_normals.py:per_vertex_normals",G+"dihedral_angles.py:dihedral_angles"])
p("C68","biharmonic_energy is a positive semidefinite smoothness energy with the right kernel",
 "biharmonic_energy(V,F) returns the symmetric matrix of x -> sum over vertices of (Laplacian x)^2 / mass; it is never negative and zero exactly for functions constant on each connected piece. With bc='hessian' it is the symmetric matrix of the sum over non-boundary vertices of the squared weak second derivatives divided by the vertex mass, never negative, zero on constants, and zero on all affine functions for a planar mesh.",
 "every mesh of nondegenerate triangles in 2D or 3D, every vertex function",
 "a quadratic-form identity and a kernel over all meshes and all real functions",
 [G+"biharmonic_energy.py:biharmonic_energy",G+"biharmonic_energy_intrinsic.py:biharmonic_energy_intrinsic"])
p("C69","squared_exponential_kernel is the Gaussian kernel and its derivatives",
 "squared_exponential_kernel(X1,X2,length,scale) returns row by row scale*exp(-|x-y|^2/(2 length^2)): symmetric, positive, at most scale, equal to scale exactly when the points agree. With derivatives=(i,-1), (-1,j) and (i,j) it returns the exact partial derivatives in the i-th coordinate of the first point and the j-th of the second. The kernel matrix of any points is positive semidefinite, definite when the points are distinct.",
 "all points in every dimension, all nonzero lengths, all positive scales, all derivative indices",
 "analytic derivatives and positive definiteness over a continuum of points and unboundedly many of them",
 [G+"squared_exponential_kernel.py:squared_exponential_kernel"])
p("C70","gaussian_process returns the Gaussian posterior",
 "gaussian_process(X,y,T) returns for every test point the conditional mean and covariance of a zero-mean Gaussian process with the given kernel (default squared exponential, length 0.2) given noisy observations: mean = K2^T (K + sigma^2 I)^-1 y, cov = K1 - K2^T (K + sigma^2 I)^-1 K2, with gradient observations handled as further observables. The covariance is symmetric positive semidefinite with diagonal at most the prior variance, noise-free data are interpolated with zero variance, gradient outputs are the derivatives of the mean, inducing points equal to the training points change nothing, and neither does compact_kernel for a compactly supported kernel. Outputs have one entry per test point.",
 "every kernel with nonnegative quadratic forms, all training data, test points, dimensions and noise levels",
 "a linear-algebra identity and a semidefiniteness claim over all data sizes and real points; the solver is abstracted by its contract",
 [G+"gaussian_process.py:gaussian_process",G+"gaussian_process.py:gaussian_process_precompute",G+"squared_exponential_kernel.py:squared_exponential_kernel"])
p("C71","Icospheres are closed outward-oriented star-shaped triangulations of the sphere for every subdivision level",
  "icosphere(n) for n >= 0 succeeds and returns 10*4^n+2 vertices and 20*4^n faces forming a closed, consistently oriented manifold with no unused vertices; all vertices lie on the unit sphere; every face is oriented outward; every ray from the origin meets the surface and crosses the interior of at most one face (no folds or self-intersections). Negative n is an AssertionError.",
  "every integer n (no bound on the number of subdivision rounds) and every ray direction",
  "Tests look at a few levels and at Euler characteristics; that no level folds over or flips a face is a statement over all n and all directions.",
  [G+"icosphere.py:icosphere", G+"subdivide.py:subdivide"])
p("C72","min_l1_with_fixed returns a minimiser of the constrained mixed-norm problem through either solver",
 "min_l1_with_fixed(G,d,Q or L,c,k,y,A,b) returns u with u[k]=y and A u=b such that |Gu|_{d,1} + 1/2 u^T Q u + c^T u is smallest among all u meeting the constraints; it succeeds whenever a minimiser exists and raises a ValueError otherwise, whichever of the two conic solvers is used. Missing arguments default to G = identity, c = 0 and no constraint. A factor L may be given instead of Q.",
 "all matrices, vectors and constraint sets of matching shapes, all group sizes d >= 1, every behaviour of the conic solvers that meets their contract",
 "Optimality is a comparison with every other feasible vector; the code's conic reformulation (epigraph variables, cone ordering, sign conventions) has to be exact for all sizes",
 [G+"min_l1_with_fixed.py:min_l1_with_fixed"])
p("C73","linear_elasticity performs one implicit Euler step of planar linear elasticity and reports von Mises stresses",
 "linear_elasticity(V,F,U0,dt,bb,bc,Ud0,fext,K,mu) succeeds on non-degenerate planar meshes and returns displacements U with U[bb]=bc satisfying M(U-U0-dt*Ud0-dt^2*fext)+dt^2*K*U=0 on the remaining degrees of freedom, K being the Hookean stiffness and M the mass matrix; a free body conserves linear and angular momentum, does not gain mass-norm, and a rigidly moving body stays rigid and stress-free; sigma_v is the von Mises stress of each triangle.",
 "all planar triangle meshes, time steps, moduli, masses, initial states, forces and constraint sets",
 "An equation tested against every virtual displacement, and conservation laws over all meshes and states",
 [G+"linear_elasticity.py:linear_elasticity",G+"linear_elasticity_stiffness.py:linear_elasticity_stiffness",G+"min_quad_with_fixed.py:min_quad_with_fixed"])
p("C74","grad_intrinsic computes the gradient in each triangle's own plane","grad_intrinsic(l_sq,F,n), given the squared halfedge lengths of triangles (strict triangle inequalities) and faces with indices below n, succeeds for any number of faces, manifold or not, and returns a (2m,n) matrix; for every function on the vertices, entries f and m+f of the product are the gradient of the linear interpolant over face f in coordinates where the edge from corner 1 to corner 2 is the first axis and the second axis is that edge turned counter-clockwise. For lengths measured on a mesh in space they are the components of grad(V,F)'s gradient along that edge and along normal x edge, so lengths agree and the area-weighted sum of squares is the quadratic form of the cotangent Laplacian. n defaults to the largest index plus one. Mismatched or negative lengths are refused by an assertion, indices outside 0..n-1 by a ValueError; lengths violating a triangle inequality silently give NaN.","all face lists, all triangle lengths, all n and all vertex functions; all embeddings in space with faces of positive area","the identity must hold for every triangle shape and every function, and the claim relates two independently computed operators",[G+"grad_intrinsic.py:grad_intrinsic",G+"grad.py:grad",G+"halfedge_lengths_squared.py:halfedge_lengths_squared"])
p("C75","grid_laplacian_eigenfunctions returns the lowest Neumann modes of the grid",
 "grid_laplacian_eigenfunctions(num_modes,gs,l) returns a (num_grid_points,num_modes) array whose columns are num_modes distinct product-of-cosine modes sampled at the grid points, listed in order of their eigenvalue, such that none of the infinitely many other modes has a smaller eigenvalue; each is an eigenfunction of the Laplacian with zero normal derivative on the boundary of the box, and an eigenvector of the grid's second differences with mirrored boundary.",
 "all grid sizes and side lengths, all num_modes, every tie-breaking of argsort",
 "Minimality ranges over the infinitely many modes and the eigenfunction property over a continuum of points; ties and sizes are unbounded",
 [G+"grid_laplacian_eigenfunctions.py:grid_laplacian_eigenfunctions"])
p("C76","swept_volume turns keyframes to face along the path and passes them on as similarity transforms","swept_volume with translations hands the sweep one 4x4 block per keyframe, block k mapping p to s_k R_k p + t_k with the given rotation and scale (identity and 1 by default). With align_rotations_with_velocity and no rotations, every R_k is a rotation taking the x axis to the normalized difference of the neighbouring keyframes (up to a 1e-8 tolerance per keyframe when directions are nearly parallel) and consecutive frames differ by the twist-free rotation about the common perpendicular. Transformations are stacked unchanged and, as documented, supersede all other inputs. num_faces decimates the result; missing or too short inputs raise.",
 "all keyframe lists of any length, all rotations and scales, including parallel and opposite consecutive directions",
 "Path lengths and directions are unbounded, and alignment is an inductive property along the path whose degenerate (antiparallel) cases have measure zero",
 [G+"swept_volume.py:swept_volume"])
p("C77","remesh_botsch hands the remesher the same mesh with the frozen vertices first",
 "For an edge-manifold mesh with valid indices, remesh_botsch passes on the input mesh renumbered by a permutation: first the feature vertices in the order given, then the boundary vertices that are not features in increasing order, each once, then all others in their old order; the faces and feature edges name the same points as before and the frozen vertices are numbered 0..k-1. Without detection the feature edges are the user's; with it, on oriented meshes of non-degenerate faces, they are each exactly once the user's edges and the edges whose two faces meet at more than the threshold angle. The default edge length is the mean over all face sides. Meshes with an edge in three faces and features that are no vertices raise.",
 "all meshes, feature sets (with repetitions, negative indices, boundary vertices), feature edges and thresholds",
 "Ranges over all meshes and all feature lists, including interaction of repetitions with the boundary; tests fix a few meshes",
 [G+"remesh_botsch.py:remesh_botsch",G+"dihedral_angles.py:dihedral_angles",G+"boundary_vertices.py:boundary_vertices",G+"non_manifold_edges.py:non_manifold_edges"])
p("C78","stochastic_poisson_surface_reconstruction solves the posterior Poisson problem on the grid",
 "With at least eight nodes per axis and every sample half a step inside the lower faces and not beyond the last nodes, the call succeeds in two and three dimensions whenever the iterative solver converges (an AssertionError otherwise); the returned mean has one value per node, first axis fastest, averages to zero over the samples, and up to that constant and the solver's residual solves the screened Poisson equation whose divergence data are the Gaussian-process posterior mean of the normals at the edge midpoints (cubic B-spline kernel of 1.5 times the smallest spacing, noise = sampling density + sigma_n^2, optional prior). The variance has minimum exactly sigma_n^2+1e-6 and differs from the posterior variance of the Poisson solution (or of its projection on the lowest modes) by one constant. Missing grid spacing or corner are both derived from 1.5 times the cloud's bounding box; mismatched arguments raise, samples outside the grid raise ValueError.",
 "all point clouds and normals, all grids of at least eight nodes per axis, all priors, all noise levels, every behaviour of the solvers that meets their contracts; test functions on all nodes",
 "An equation tested against every grid function for every cloud, grid size and solver behaviour; failures hide at faces and small sizes",
 [G+"stochastic_poisson_surface_reconstruction.py:stochastic_poisson_surface_reconstruction",G+"grid_neighbors.py:grid_neighbors",G+"fd_interpolate.py:fd_interpolate",G+"fd_grad.py:fd_grad",G+"matrix_from_function.py:matrix_from_function"])
p("C79","matryoshka returns a copy that really nests and the best one it has seen",
 "matryoshka returns either scale 0 or a scale s between 1/1000 and 1 together with a rotation, centre, unit cut normal and unit removal directions on their own sides such that every vertex and sample b of the inner mesh, placed at c+s*R*(b-B_center), is inside the outer mesh and at least 1e-6 from its surface, and sliding it against a+ never meets the outer surface more than 1e-6 above the cut plane nor against a- more than 1e-6 below. scale_only keeps the given configuration and finds the largest nesting scale within scale_tol; the optimising modes always return a result at least as large as that of every configuration they start from, with c in the bounding box; a scale-0 result means none of these nests. With warm_start the result is at least the seed's scale. Unknown modes are rejected.",
 "all outer shapes described by their signed distance and first ray hits, all inner meshes and samples, all fixed values, every run of the particle swarm, every warm start",
 "Quantifies over all shapes, over a continuum of sliding distances and scales, and over every random run of the optimiser",
 [G+"matryoshka.py:matryoshka",G+"particle_swarm.py:particle_swarm",G+"signed_distance.py:signed_distance",G+"ray_mesh_intersect.py:ray_mesh_intersect"])
p("C80","The upper envelope of labelled tetrahedra is a subdivision of the mesh into single-material tetrahedra",
 "For every tetrahedral mesh with positively oriented tetrahedra and every number of materials, if upper_envelope returns (U, G, L): the vertices U start with the given ones; every returned tetrahedron is positively oriented, lies in an input tetrahedron and carries exactly one label, and at every point of it the linearly interpolated value of its material is the largest up to 1e-5; and the returned tetrahedra tile the input (same total volume, every input point covered).",
 "all vertex arrays, tetrahedron lists and label arrays with any number of materials",
 "the claim quantifies over all meshes and label fields and over every point of every returned tetrahedron; the number of splitting passes and pieces is unbounded, and the defects depend on array counters that only particular sizes expose",
 [G+"upper_envelope.py:upper_envelope","src/cpp/upper_envelope.cpp:upper_envelope","src/cpp/upper_envelope.cpp:propogate_split_func","src/cpp/upper_envelope.cpp:carve_out_material"])
p("C81","reach_for_the_spheres: every implicit step reduces the misfit, the flow terminates and only returns meshes it has checked","One step of the flow (with or without fix_boundary) keeps the number of vertices and never increases the total squared distance between the contact points of the samples and their targets; with positive masses it decreases strictly unless the mesh does not move, and it does not move only at a stationary point. The target of a sample lies on the line through the sample and its contact point, at distance at most |S| (exactly |S| when the mesh is at least tol/2 away and the side is decided), towards the mesh if the mesh's side agrees with the sign of S and away from it otherwise. fix_boundary keeps every boundary vertex where it is. The loop ends after at most max(1,max_iter) iterations; max_iter<=0 and a mesh that already touches all spheres from the right side are returned unchanged; h stays in [min_h,h0]; the line search stays in [min_t,max_t] and satisfies the Armijo condition unless min_t is binding; at most `resample` resamplings happen and with resample=0 the samples returned are the ones given; the returned mesh is the input, or passed the degeneracy test, or is what the remesher made of such a mesh.","all meshes, samples, distances, options, closest-point answers, remesher behaviours and iteration counts; exact real arithmetic, exact linear solver","the flow depends on continuous data, on options and on hundreds of iterations; tests run a few shapes to convergence",[G+"reach_for_the_spheres.py:reach_for_the_spheres",G+"reach_for_the_spheres.py:reach_for_the_spheres_iteration"])
p("C82","reach_for_the_spheres in the plane: the curve remesher keeps curves curves, keeps features and ends, and stays on the curve","In two dimensions, remeshing a union of open and closed curves: splitting halves exactly the edges longer than 1.4h without changing the polyline as a set of points or its length; collapsing always stops, leaves no edge shorter than 0.7h except between two features, and never leaves a convex region containing the curve; relaxation moves a vertex only tangentially, onto the perpendicular of the middle of its neighbours, and then back onto the reference polyline. The result is a union of curves again (closed if the input is), every feature and every end of an open curve is kept where it is, and with project=True every vertex lies on the original polyline; i=0 returns the mesh unchanged. No mesh makes it raise.","all plane polylines in which every vertex has at most one incoming and one outgoing edge, all feature sets, target lengths h, numbers of rounds, argsort orders and closest-point answers; exact real arithmetic","which edges are collapsed depends on lengths after earlier collapses; tests see only whole flows on a few shapes",[G+"reach_for_the_spheres.py:_remesh_line",G+"reach_for_the_spheres.py:_split_line",G+"reach_for_the_spheres.py:_collapse_line",G+"reach_for_the_spheres.py:_relaxation_line",G+"reach_for_the_spheres.py:_line_bdry"])
p("C83","remesh_botsch's splitting stage halves exactly the long edges and keeps the surface",
"One pass of the splitting stage of remesh_botsch splits exactly the interior edges that are longer than the mean of the high targets at their two ends and that are feature edges or touch no feature vertex; each is replaced by two halves meeting at its exact midpoint, whose targets are the means of the ends' targets. Old vertices never move, no other edge between old vertices appears or disappears, the result is again an oriented edge-manifold that covers the same set of points with the same area, the Euler characteristic is kept, the incrementally updated edge tables are those of the new mesh, and the table of feature edges again consists of edges of the mesh and describes the same polyline. Refuted parts: the pass is not repeated, so edges more than twice too long stay too long; a feature edge listed twice leaves a row that is no edge; two faces on the same three vertices give a non-manifold result; on meshes with boundary memory behind one-element vectors is rewritten.",
"every oriented edge-manifold mesh (any size, with or without boundary), every table of targets, every feature vertex list and feature edge table",
"the incremental index arithmetic on face, edge and half-edge tables must be right for every mesh and every subset and order of split edges; tests see a handful of meshes and only final edge-length statistics",
["src/cpp/remesher/split_edges.cpp:split_edges","src/cpp/remesher/split_edges_until_bound.cpp:split_edges_until_bound",G+"remesh_botsch.py:remesh_botsch"])
p("C84", "Edge flipping in remesh_botsch only improves valences and respects features",
  "The valence-equalising stage of remesh_botsch replaces the two faces at an interior edge by the two faces at the other diagonal only; it does so only when none of the four corners is a feature vertex, the edge is not a feature edge, the new diagonal is not yet an edge, both new faces have positive area and normals within sixty degrees of both old normals, and the sum over all vertices of |number of incident faces - 6| drops. The result is again an oriented edge-manifold with the same vertices, number of faces and boundary; whenever an admissible flip exists at the start, the sum does drop; with all vertices features nothing changes.",
  "all oriented edge-manifold triangle meshes, vertex positions, feature vertex and feature edge lists and all implementations of igl::flip_edge that meet its contract",
  "the order of flips and the incrementally maintained valences and adjacency lists must stay coherent for every mesh and every sequence of flips; tests see only a few meshes",
  ["src/cpp/remesher/equalize_valences.cpp:equalize_valences", G+"remesh_botsch.py:remesh_botsch"])
p("C85", "The smoothing stage of remesh_botsch leaves features in place and puts everything else on the reference surface",
  "The tangential relaxation stage never moves feature vertices and ends or junctions of feature curves; a vertex inside a feature curve goes to the midpoint of its two neighbours on the curve and, with project, from there to the nearest point of the original feature polyline; every other vertex moves within its tangent plane towards the average of its neighbours and from there to the nearest point of the reference surface (the input mesh with project, the current mesh without). Refuted: without project, vertices of feature curves are not reprojected onto the original polyline as documented.",
  "all meshes, feature lists, feature edge tables and both settings of project; every implementation of the closest-point query that meets its contract",
  "which of the vertex classes a vertex falls into and where it lands depends on arbitrary combinations of mesh, features and positions",
  ["src/cpp/remesher/tangential_relaxation.cpp:tangential_relaxation", G+"remesh_botsch.py:remesh_botsch"])
p("C86", "Edge collapses in remesh_botsch respect features",
  "The collapsing stage never collapses an edge with a feature vertex; two vertices on feature curves are merged only along a feature edge and never two ends or junctions; the collapsed edge is at most as long as the mean lower bound of its ends and no resulting edge exceeds the upper bound. Feature vertices survive unmoved, surviving ends or junctions of curves stay in place, other surviving curve vertices sit where a curve vertex was. Feature vertices, feature edges and length bounds are renumbered following the merges, without degenerate or duplicate feature edges. Refuted: an end of a feature curve merged into a lower numbered ordinary vertex can be moved off later; faces may be flipped because the orientation test skips faces number 0 and |N|-1.",
  "every sequence of collapses igl::decimate can perform with the callback the code installs, on all meshes, feature lists and bounds",
  "the claim concerns every order and number of collapses and the union-find bookkeeping across them",
  ["src/cpp/remesher/collapse_edges.cpp:collapse_edges", G+"remesh_botsch.py:remesh_botsch"])
p("C87", "remesh_botsch as a whole terminates with an oriented manifold that keeps its feature vertices",
  "For every oriented edge-manifold mesh, every number of iterations and every target length the remeshing loop terminates, the result is again an oriented edge-manifold, the feature vertices are the first vertices of the result, in the same order and unmoved, and with project every vertex that is not a feature or an end or junction of a feature curve lies on an original feature curve or on the input surface. With zero iterations the input is returned. When all vertices are features and no feature edges are given the call changes nothing, as its warning says; when a feature edge that is too long is given it is split in spite of the warning.",
  "all oriented edge-manifold meshes, target lengths, iteration counts, feature lists and feature edges, and all implementations of the libigl functions used that meet their contracts",
  "the invariants must survive any number of iterations of four mutually dependent stages",
  ["src/cpp/remesher/remesh_botsch.cpp:remesh_botsch", G+"remesh_botsch.py:remesh_botsch"])
p("C88","lazy_cage returns the tightest intersection-free offset its bisection can find",
 "For every surface with non-degenerate bounding box whose largest side is 2w, lazy_cage brackets the offset distance between lo and hi with hi - lo = w / 2^max_iter, lo being 0 or an offset whose decimated, self-unioned offset surface still intersects the input; if some tested offset was free, the returned cage is the candidate of hi and does not intersect the input, otherwise None (or, with force_output, the last tried candidate) is returned. If freeness is monotone in the offset, the cage is within w / 2^max_iter of the tightest free one. With max_iter <= 0 force_output fails instead of returning a cage, and containment, promised by the documentation, is never tested: a candidate that vanished in decimation is returned as a cage.",
 "all input meshes, grid sizes, iteration counts, face counts, and all implementations of offsetting, decimation, union and intersection tests",
 "the bracket invariant must hold for every number of iterations and every answer pattern of the intersection test; tests try one shape",
 [G+"copyleft/lazy_cage.py:lazy_cage"])
p("C89","Thin mesh wrappers pass on what they document: booleans, intersection tests, decimation targets, barycenters",
 "mesh_boolean maps 'union', 'intersection', 'difference' and 'minus' to the operation of that name and every other string (including the documented alias 'subtraction') to an error; do_meshes_intersect answers True exactly when there is an intersecting pair, and then returns it; decimate targets num_faces if given, otherwise the largest whole number of faces within face_ratio, between 0 and the face count, and rejects unknown methods; barycenters returns for each element, whatever its positive number of corners, the unique point from which the differences to the corners cancel.",
 "all meshes, all operation and method strings, all ratios, all element lists",
 "quantifies over all strings, all real ratios (rounding) and all element sizes",
 [G+"copyleft/mesh_boolean.py:mesh_boolean",G+"copyleft/do_meshes_intersect.py:do_meshes_intersect",G+"decimate.py:decimate",G+"barycenters.py:barycenters"])
p("C90","bad_quad_mesh_from_quadtree turns the leaves of a tree into quads and hexahedra exactly",
 "For every quadtree or octree obtained from a root by any sequence of subdivisions, bad_quad_mesh_from_quadtree returns vertices without duplicates that are exactly the corners of leaf cells, and one quad per leaf (2D: in order around the cell) respectively one hexahedron and six quads per leaf (3D: each quad going around one side), in the order of quadtree_children, each index pointing to the right corner of the right leaf. In 2D the documented empty H is instead one non-empty row.",
 "all trees reachable by any subdivision history, root centre and width",
 "duplicate merging compares coordinates up to a tolerance derived from the smallest cell; that it merges exactly the equal corners needs an argument about dyadic positions for trees of any depth",
 [G+"bad_quad_mesh_from_quadtree.py:bad_quad_mesh_from_quadtree",G+"quadtree_children.py:quadtree_children"])
p("C91","The first point cloud of reach_for_the_arcs is tangent to the distance samples, for every thread schedule",
 "For distinct sample positions and any order and thread assignment of the parallel loop, the local feasibility step of reach_for_the_arcs always returns the same cloud: at most one point per sample, in the order of the samples, each lying on the sphere of its sample (radius |S_i|), outside the spheres of all other samples of the batch up to tol, with a unit normal n such that p + S_i n is the sample position; samples with |S_i| at or above clamp_value give no point, and a sample whose first candidate is free keeps it. The sphere tree can always be built and a query for spheres containing a point returns only and, up to its limit k, all of them.",
 "all numbers of samples in dimension 2 and 3, all batches, tolerances, iteration counts, shufflings, thread schedules and nearest outside points",
 "the loop runs in parallel over shuffled indices with per-thread buffers that are reused between samples; the tree search prunes by boxes and stops early",
 ["src/cpp/reach_for_the_arcs/locally_make_feasible.cpp:locally_make_feasible","src/cpp/reach_for_the_arcs/sAABB.cpp:get_spheres_containing","src/cpp/reach_for_the_arcs/resolve_collisions_on_sphere.cpp:resolve_collisions_on_sphere",G+"reach_for_the_arcs.py:_locally_make_feasible"])
p("C92","Fine tuning the point cloud of reach_for_the_arcs keeps it tangent, for every thread schedule",
 "For every cloud of points on their spheres, every mesh and every thread schedule, one fine-tuning iteration returns, up to the order of the points, the same cloud; every returned point lies on the sphere of its sample, outside the other spheres of the batch up to tol, with the right normal, and below the clamp; no sample gets more points than it had or than max_points_per_sphere allows; a sample without points gets the point of its sphere that agrees best with the mesh if that is free; a sample whose distance to the mesh is right keeps its free points; a moved point is its target or no further from it than before and within local_search_t of where it was.",
 "all clouds, meshes, sample data, parameters, shufflings, numbers of threads and schedules, in dimension 2 and 3",
 "points are collected per thread and moved with a line search over great arcs whose rotation axis degenerates; the result must not depend on the schedule",
 ["src/cpp/reach_for_the_arcs/fine_tune_point_cloud_iter.cpp:fine_tune_point_cloud_iter",G+"reach_for_the_arcs.py:_fine_tune_point_cloud_iteration"])
p("C93","reach_for_the_arcs returns points of the sample spheres, and the mesh belongs to them",
 "For distinct samples, a positive tol and a search and reconstruction that keep their contracts, reach_for_the_arcs returns; every returned point lies on the sphere of some sample whose distance is below clamp_value, with a unit normal along which the sample is at its signed distance; if all samples fit in one batch it is outside the spheres of all other samples of the same sign up to tol times the size of the data, and outside all other spheres if the cloud was fine-tuned and a mesh came out; without fine tuning a sample of either sign whose first candidate is free gives that candidate; the mesh is the reconstruction of exactly these oriented points in the unit box, moved back, with unchanged faces; scaling and moving the samples with the distances and clamp_value scales and moves the result; samples all in one place make it fail.",
 "all sample positions and distances, parameters, random draws, thread schedules and surface reconstructions, in dimension 2 and 3",
 "the driver normalises the data, splits it by sign, maps indices back and undoes the normalisation after a random, parallel search; tests look at single data sets",
 [G+"reach_for_the_arcs.py:reach_for_the_arcs",G+"reach_for_the_arcs.py:_sdf_to_point_cloud",G+"reach_for_the_arcs.py:_locally_make_feasible",G+"reach_for_the_arcs.py:_fine_tune_point_cloud"])
p("C94","The C++ OBJ engine reads every well-formed file completely and reads back what either engine writes",
 "With the default (C++) engine, reading a text whose vertex, texture and normal lines each have one positive number of columns and whose faces have three corners returns every row and every face in file order with 0-based numbers (-1 where a corner gives none), whatever the order of the lines, the blanks between the words and the other lines; for any text that is read without error there is one face per 'f ' line, texture and normal numbers have the shape of the faces, and rows have equal length; writing raises exactly if Ft or Fn is given with a shape other than that of F; reading what was written gives back V, F, UV, N and the numbers Ft, Fn (by default those of F); the Python writer writes the same file. Malformed rows raise an exception.",
 "all texts, all matrices with indices in the int range, both flags, all number formats whose output is read back",
 "the arrays grow by doubling and are cut at the end, words are found by hand-written scanning, and -1 must survive in unused rows; tests read a few fixed files",
 ["src/cpp/read_obj.cpp:read_obj","src/cpp/read_obj.cpp:non_space","src/cpp/read_obj.cpp:it_to_int","src/cpp/write_obj.cpp:write_obj",G+"read_mesh.py:_read_obj",G+"write_mesh.py:_write_obj"])
p("C95","ray_mesh_intersect returns the first triangle along every ray",
 "With use_embree=False, every ray cam_pos[i] + t cam_dir[i], t >= 0, gets the least t at which it meets the mesh, the number of a triangle that it meets there and the barycentric coordinates (not negative, sum one) of the point it meets; if it meets none, t is infinite, the number is -1 and the coordinates are zero; t does not depend on the acceleration tree that is given or built; t scales with the inverse of the length of the direction.",
 "every mesh, every list of rays and every valid tree over the triangles, exact reals",
 "a traversal that prunes boxes by their entry distance must never discard the nearest triangle, for all trees and rays",
 [G+"ray_mesh_intersect.py",G+"traverse_aabbtree.py",G+"ray_triangle_intersect.py",G+"ray_box_intersect.py",G+"initialize_aabbtree.py"])
p("C96","STL files: every well-formed file is read completely and what is written reads back",
 "A binary STL file is read iff it states 1 to 5e8 facets and has room for them, and the result is the corners at the offsets of the format; an ASCII file with lines of at most 256 bytes is read iff its keyword lines are solid, then facet normal, outer loop, three vertices, endloop, endfacet for every facet, then endsolid, other lines ignored, and the result is the vertices in this order; write_mesh and read_mesh(merge_stl=False) give three new rows per face with the coordinates of its corners in single precision (binary) or as printed and read (ASCII); merging then identifies exactly the equal rows and keeps every corner's position. Every mesh that is written can be read back.",
 "all byte strings, all meshes, both formats, all number formats whose output is read back, every value of the uninitialised byte at the end of the file",
 "the ASCII/binary detection, the state machine of the reader and the byte offsets have to fit for all files; tests read a few fixed files",
 ["src/cpp/microstl/microstl.h","src/cpp/microstl/microstl_wrappers.cpp","src/cpp/binding_read_stl.cpp","src/cpp/binding_write_stl.cpp",G+"read_mesh.py:_read_stl",G+"write_mesh.py:_write_stl",G+"remove_duplicate_vertices.py"])
p("C97","PLY files: every well-formed file is read as its header says, and what is written reads back",
 "For every PLY file (ascii, little or big endian) whose header declares elements and properties in any order, with comments, other elements and other properties, the coordinates, normals, triangles and colours that are returned are the values of the properties with these names, row by row; reading does not depend on uninitialised memory; a mesh written and read again has the same V, F, N and C: exactly in a binary file, up to the printing of doubles in a text file. Malformed or truncated files are refused.",
 "all headers and bodies, all meshes with or without normals, vertex or face colours, both formats, all number formats whose output is read back",
 "the reader makes two passes over the body with byte cursors and type dependent strides; every combination of header, format and optional column has to keep them aligned; tests read a few files that the library wrote, and never evaluate the comparison of the colours",
 ["src/cpp/tinyply/tinyply.h","src/cpp/tinyply/tinyply_wrappers.cpp","src/cpp/binding_read_ply.cpp","src/cpp/binding_write_ply.cpp",G+"read_mesh.py:_read_ply",G+"write_mesh.py:_write_ply"])
p("C98","swept_volume's search for the closest time is consistent with what it stores",
 "For the distance of a point to the moving shape as a function of time, the search called by swept_volume returns a time between 0 and 1 and exactly the distance at this time, in every run of searches for that point, whatever the uninitialised memory was; if no stored interval is met the distance is at most that at the start and at the first of the tried times 1/50, 1/100, ... against the derivative that gains enough, and the path with its result is stored as a new interval that contains the start; stored results never change, stored intervals only grow; a start in a stored interval gets the result of the first such interval without evaluating the distance; asking again from the same start gives the same answer and changes nothing.",
 "all functions and derivatives (also wrong ones), all starts in [0,1], all contents of the store and all histories of calls, rationals",
 "the loop mixes descent, line search, early exits and a growing store; consistency has to hold for all histories of queries",
 ["src/cpp/swept_volume/gradient_descent_test.cpp","src/cpp/swept_volume/swept_volume.cpp"])
p("C99","swept_volume moves the shape smoothly through its keyframes",
 "The translation at time t in [0,1] is that of catmull_rom_spline through the translations of the given matrices: keyframe k is met exactly at time k/(n-1), and the velocity that is handed to the search is the derivative of the translation at every time strictly between 0 and 1, also at keyframes. The matrices meet the keyframes (rotation and scale) at these times, and the matrix velocity is the derivative of the matrix inside every segment.",
 "all numbers of keyframes from two on, all keyframe matrices without a zero column, all times, all quaternion paths that join the rotations; exact reals",
 "piecewise formulas with special cases at both ends and at time 1; their derivatives are written out by hand and never compared with the positions",
 ["src/cpp/swept_volume/swept_volume.cpp",G+"swept_volume.py:swept_volume",G+"catmull_rom_spline.py"])
p("C100","point_cloud_to_mesh hands the normalised points to the solver and moves its mesh back",
 "point_cloud_to_mesh raises exactly if the shapes of P and N differ, there are fewer than two points, the dimension is not 2 or 3, the method is not PSR, the depth is not positive or the screening weight is negative; otherwise the Poisson solver gets every point with its normal, in order, moved into the open unit cube by one translation and one positive scale (also if all points coincide), with a depth of at most 12, and the mesh is what it returns, moved back by the inverse map, with unchanged faces; translating the points translates the mesh.",
 "all point clouds and normals, all parameters, all Poisson solvers; exact reals",
 "the normalisation must fit the box for every cloud, and must be undone exactly; tests look at single clouds",
 [G+"point_cloud_to_mesh.py:point_cloud_to_mesh","src/cpp/point_cloud_to_mesh.cpp:point_cloud_to_mesh","src/cpp/binding_point_cloud_to_mesh.cpp"])
p("C101","The voxel grid that swept_volume contours has no cracks",
 "In the sparse grid that swept_volume builds, every voxel has one cube, with eight numbers that are exactly those of the vertices at its corners; no point is stored twice, so that two cubes use the same number exactly where their corners are the same point; vertices keep their numbers and their values never grow. The value of a vertex is one of the answers of the scalar function there, and no larger than any answer that was computed there for a new voxel or a correction, unless it is not positive. A queued voxel without a cube lies inside: all its corners are vertices, none with a positive value in the end.",
 "all sequences of queue entries (new voxels, corrections, repetitions) and all answers of the scalar function, in particular all orders in which the queue is worked off",
 "the gluing relies on hand-written tables for 30 neighbors, masks and corner numbers; a wrong number shows only where voxels are visited in a certain order",
 ["src/cpp/swept_volume/sparse_continuation.cpp:sparse_continuation","src/cpp/swept_volume/swept_volume.cpp"])
if __name__=="__main__":
    with open("/verif/properties.jsonl","w") as f:
        for q in P: f.write(json.dumps(q)+"\n")
    print(len(P))
