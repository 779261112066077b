# Formal model of gpytoolbox in Rocq (Coq 8.16.1)

## Layout

* `rocq/theories/*Model.v`  - total Gallina transcriptions of the Python and C++ code. Each definition cites file:lines and says where it simplifies.
* `rocq/theories/*Spec.v`   - small, model-independent vocabulary in which properties are phrased (for later properties the section "specification" at the top of the `P_` file).
* `rocq/theories/*Proofs.v` - lemmas.
* `rocq/theories/P_*.v`     - the property theorems `Theorem Cxx_...`, with concrete cases beside them (`Cxx_example`, `Cxx_contract_satisfiable`, `Example`).
* `properties.jsonl`, `MANIFEST.json`: generated by `tools/gen_properties.py`, `tools/gen_manifest.py` (+ `tools/status.json`); `seeded/LOG.jsonl`: mutation tests, run by `tools/mut.py`.
* A theorem with suffix `_refuted` proves that the English claim fails, by a witness or for a whole class of inputs; `_partial` marks a weaker statement. A property with a refuted or missing part has status "partial" and the note says which part.

## Modelling conventions

* numpy integer arrays: lists of `Z` (or `nat` when an index); an `(m,3)` array is a list of triples or a function with separate size.
* numpy float arrays: Coq's real numbers `R` (exact arithmetic). Rounding, overflow, NaN and inf are **not** modelled unless the comment at the definition says so (division by zero etc. are then explicit option/exception values). Consequently no theorem speaks about floating-point error.
* Python exceptions (`assert`, IndexError, ValueError, TypeError ...) are values: `option`, `res`, `E`. Out-of-range reads in C++ are `None`/`IndexError`.
* `while` loops carry fuel; termination theorems show that enough fuel exists, and results do not depend on it.
* Random number generators are arbitrary streams (universally quantified).
* Warnings, printing, plotting, timing and memory use are not modelled.

## Trusted base

* Coq's kernel 8.16.1 and its checker; no `Admitted`, no axioms of our own, no functors/module types, no plugin, no switched-off check.
* The standard library axioms that `Print Assumptions` lists: `ClassicalDedekindReals.sig_forall_dec`, `ClassicalDedekindReals.sig_not_dec`, `FunctionalExtensionality.functional_extensionality_dep` (all three come with `Reals`) and in a few theorems `Classical_Prop.classic`. Appendix A gives them for every theorem (output of `tools/assumptions.py`).
* The reading of the Python/C++ code into the model: that every definition does what the cited lines do.
* The reading of numpy, scipy, Eigen and libigl into the model: functions that are transcribed (`np.unique`, `np.sort`, `argsort`, fancy indexing, broadcasting, sparse assembly with summed duplicates, `np.setdiff1d`, `np.einsum` ...) with their documented semantics, and functions that stay parameters with a contract as hypothesis of the theorem (next section).

## Parameters with contracts

| contract (Coq name) | stands for | used in | shown to be satisfiable |
|---|---|---|---|
| `csgraph_ok`, `csgraph_range` | scipy.sparse.csgraph.connected_components | C10, C60, C61 | C10_contract_satisfiable, C61_contract_satisfiable |
| `solver_ok`, `spd_solver` | scipy.sparse.linalg.splu / spsolve: solves exactly when it returns, and returns on positive definite systems | C43, C73 | elimination (P_ElDyn, P_Solve) |
| `cg_ok` | scipy cg: solves positive definite systems | C70 | elimination (P_Gp) |
| `bicg_ok`, `blurs` | scipy bicg with its exit code, gaussian_filter | C78 | P_Psr |
| `scs_contract`, `msk_contract`, `chol_contract` | SCS, MOSEK, Cholesky | C72 | C72_example |
| `show_ok`, `token_ok` | printing and parsing of floats are inverse | C44, C58 | examples in P_Obj, P_Dmat |
| `argsort_ok` | np.argsort sorts (ties arbitrary) | C75 | selection sort (P_Eig) |
| contract of `rng.choice` | returns an index of positive probability | C54 | P_Random |
| `distance_to`, `first_hit` | signed distance and ray casting against the outer mesh | C79 | P_Matry |
| `query_ok`, `closest_ok` | closest-point query of reach_for_the_spheres | C81, C82 | P_Rfs2, P_RfsLine |
| `coherent` + `once` | igl::unique_edge_map | C83, C84, C87 | built for every oriented edge-manifold in P_RemeshCpp2 |
| `flip_ok` | igl::flip_edge | C84, C87 | `igl_flip` (P_Flip) |
| `run`, `decimated` | igl::decimate with a cost callback: any sequence of collapses the callback allows | C86, C87 | P_Collapse, P_RemeshCpp2 |
| `closest_on_mesh` | igl::point_mesh_squared_distance | C85, C87 | all-faces search (P_RemeshCpp2) |
| contract of the sweep | C++ swept volume core: only its inputs are described | C76 | - |

## What is modelled, what is not

Modelled line by line: all of the pure Python modules named as anchors in `properties.jsonl` (topology, half-edges, DEC, relabelling, loops, subdivision, meshes of primitives, grids and finite differences, quadtrees, AABB trees and distances, rays, barycentric coordinates, areas, normals, angles, curvature, Laplacians, mass matrices, gradients, quadratic and L1 solvers, elasticity, I/O in OBJ and DMAT, marching squares, particle swarm and Metropolis-Hastings, rotations, splines, skinning, kernels, Gaussian processes, stochastic PSR, matryoshka, swept volume wrapper, remesh_botsch wrapper, reach_for_the_spheres, lazy_cage, mesh_boolean), and from the C++ sources the OBJ reader and writer, the particle swarm, upper_envelope, the remesher (split, collapse, flip, relax and the loop around them) reach_for_the_arcs (driver, sphere tree, collision resolution, feasibility search, fine tuning), the readers and writers of STL and PLY files, of swept_volume the motion and the search for the closest time, and point_cloud_to_mesh around its solver.

Not modelled: floating-point rounding; the bindings (`src/cpp/binding_*.cpp`, except for the file formats); libigl, CGAL, Eigen and the other third-party libraries under `src/cpp` (PoissonRecon); `marching_cubes`, `offset_surface`, `dual_contouring_of_signed_distance_data`, `fast_winding_number`, `png2poly` and their C++ cores; of `reach_for_the_arcs` the rasterization (`outside_points_from_rasterization.cpp`); of the C++ core of `swept_volume`, of the continuation over voxels (`sparse_continuation.cpp`) the times, intervals and the choice of the next voxel. Properties of these would be statements about third-party code or about parameters without a contract.

## How each property is modelled and proved

| id | model | proof |
|----|-------|-------|
| C01 | halfedges/halffaces on lists of tuples | direct |
| C02-C06 | flat half-edges, row sort, `np.unique(axis=0)` with first index and counts | specification of unique by induction; C03 refuted by a witness |
| C07 | stable argsort + unique as first-index lookup | induction |
| C08, C09 | flat index `k%m`, `k//m`, correspondence with the flipped array | index arithmetic + C02, C07 |
| C10, C60 | adjacency matrix; csgraph labelling as oracle with its contract | induction on paths |
| C11, C12 | sparse matrices as sums of (i,j,v) triples | sums over lists |
| C13, C14 | relabelling | lists; C13 empty and C14 tolerance by witness |
| C15 | the two nested while loops with fuel | loop invariant + termination measure |
| C16 | list generators over n | lia / trigonometric identities |
| C17, C18 | subdivision via halfedge_edge_map, iterated | C08 + sums, induction over iterations |
| C19-C21 | index generators over all sizes | div/mod arithmetic |
| C22-C24 | linear index arithmetic, interpolation weights, matrices from functions | div/mod arithmetic, sums |
| C25-C29 | quadtree arrays as lists; subdivision step; operators | invariants over all histories of subdivisions |
| C30, C31, C33, C34 | array/queue construction, traversal with pruning | loop invariants with fuel, box lower bounds |
| C32, C56, C62 | point-triangle, segment-segment, triangle-triangle distance region by region | convexity, case analysis over all regions |
| C35-C37 | slab test, Moeller-Trumbore, 2x2 solves | case analysis, field |
| C36-C42, C59, C66, C67 | real geometry of triangles and tets | field/nra, trigonometry, sums over faces |
| C43 | matrices over R, block elimination, inner solve as an oracle with contract | convexity of the quadratic form |
| C44, C58, C63 | lists of characters/tokens; float printing/parsing as an oracle with inverse contract | codec induction |
| C45 | cell cases over a grid of any size | finite case analysis lifted to all grids, degree counting |
| C46, C47, C54 | loops over a stream of random draws | invariants |
| C48-C53, C55, C57 | small real functions | algebra; witnesses where the code violates the claim |
| C61 | cut graph over half-edges, components oracle | paths around vertices |
| C64, C65 | winding number as sum of signed angles | angle lifting, rotation, crossing arguments |
| C68 | biharmonic and Hessian energies as matrix products | Gram matrices, kernels |
| C69, C70, C78 | kernels with derivatives (Coquelicot-free derivability from Reals), posterior by solves | calculus, linear algebra over functions |
| C71 | icosphere by iterated subdivision | invariants over levels: closed, oriented, star-shaped |
| C72 | conic reformulations handed to the solvers | equivalence of the optimisation problems |
| C73, C74 | elastic stiffness, implicit Euler step, intrinsic gradients | energy identities, positive definiteness |
| C75 | tensor products of cosines, argsort | eigenvalue identities, order statistics |
| C76, C77 | the wrappers: what the C++ core is handed | matrices, permutations |
| C79 | nested loops of matryoshka with oracles and arbitrary randomness | loop invariants |
| C80 | upper_envelope.cpp with array reads/writes that can fail | invariants on the carved tets; witnesses for the defects |
| C81, C82 | flow loop and 2-D remesher of reach_for_the_spheres | descent of an implicit step, invariants of the curve rounds |
| C83-C87 | C++ remesher: face/edge/half-edge tables updated in place, union-find, loop | table invariants (`omesh`, `coherent`, `once`) preserved by every step, for every order of steps |
| C88 | lazy_cage: bisection over offset surfaces with libigl parts as parameters | loop invariant of the bisection; witnesses |
| C89 | argument handling of mesh_boolean, decimate and barycenters | case analysis |
| C90 | bad_quad_mesh_from_quadtree: leaf corners stacked, duplicates merged with tolerance, index gathering | corners lie on a dyadic lattice, so tolerance merging is exact; index arithmetic on column blocks |
| C91, C92 | the C++ core of reach_for_the_arcs: sphere tree, collision resolution, feasibility search and fine tuning as loops over an arbitrary schedule of (iteration, thread) pairs | each iteration's outcome does not depend on the thread's buffers; tangency is an invariant of the collision resolution; tree coverage by boxes |
| C93 | the Python driver of reach_for_the_arcs around that core; searches, reconstruction and random draws are parameters with contracts | the data in the unit box and back; goodness of a point (own sphere, other spheres of a set, normal) is an invariant of the fine-tuning iterations; scaling by functional extensionality of the normalised data |
| C94 | the C++ OBJ reader (scanning, stoi, growing Eigen matrices with -1 filled index rows, final shrinking) and writer; stod and the number format are parameters | an invariant that relates the used rows of each matrix to the lines read so far, by induction on the lines; words by an inductive spacing relation; the written text is a list of such lines, so the round trip follows from the reading theorem; the Python writer's text is equal by comparing row by row |
| C95 | ray_mesh_intersect without Embree over initialize_aabbtree's tree; a parameter of infinity is None | the queue invariant of C30: every triangle whose box was dropped is behind the best hit; the box entry distance bounds the hit parameters of everything in the box; barycentric coordinates from the signed areas |
| C96 | microstl's reader (ASCII/binary detection, line reader, state machine, binary layout) and writer with the wrappers, on byte strings; float printing and parsing are parameters with a contract, the uninitialised byte at the end of the file is universally quantified | little endian round trip by division; the accepted token sequences of the state machine by induction with a trap state; keyword prefixes exclude one another; trimming related to 'blanks, keyword, rest'; merging by C14 |
| C97 | tinyply's header parser, property lookup, the measuring and the reading pass over the body (ascii, little and big endian, lists, skipped properties), the wrapper's conversion to matrices, and the writer, on byte strings; numbers are bit patterns, operator<< and operator>> parameters with a contract, uninitialised memory is universally quantified | a relational description of bodies (cells, rows, elements); both passes simulated against it with the invariant 'stream, list size, dummy count, buffers'; buffers decoded to the named columns; headers by induction over declared lines; the writer shown to emit a described file |
| C98 | gradient_descent_test with its store of intervals, values and minima, over rationals; the distance, its derivative and the stopping test are parameters | invariants of the line search and of the descent (in range, value evaluated, no increase, start in the path), the store as a list of entries; histories by induction |
| C99 | interpolate_position of swept_volume.cpp over exact reals: tangents, segment and fraction of a time, position, velocity, scales, rotation matrix and its velocity; the quaternion path of a segment and its derivative are parameters | each segment is a cubic whose Taylor form gives the derivative; neighbouring segments are glued; the translation is identified with the model of C50; product rule for the matrices |
| C100 | point_cloud_to_mesh: assertions, names of the boundary condition, normalisation, the call of the solver (a parameter) and the inverse map, over exact reals | bounds of minima and maxima; the two affine maps are inverse to each other; minima and maxima commute with translation |
| C101 | swept_volume's sparse_continuation: neighbor, corner and mask tables, cubes, vertices, values and the inside test, for arbitrary queue entries and answers | the tables are checked by computation (shared corners, partners, masks); invariant: every cube entry is the number of its corner, vertices distinct; values follow by a second invariant |

## Findings (theorems with suffix `_refuted`, see the notes in MANIFEST.json)

Each "partial" entry names what fails and for which inputs; these were found by trying to prove the documented behaviour.

