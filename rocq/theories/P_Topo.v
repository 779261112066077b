(** Property theorems C01-C09 (mesh connectivity).  Vocabulary: TopoSpec.v; code: TopoModel.v. *)
From Verif Require Import NumpyModel TopoModel TopoSpec TopoProofs CorrProofs HemProofs HemNmProofs TopoLemmas.
From Coq Require Import Permutation Sorted.
Open Scope Z_scope.

(** *** C01 *)
Theorem C01_halfedges : forall F,
  (halfedges F = None <-> F = []) /\
  forall he, halfedges F = Some he -> length he = length F /\
    forall f t i, nth_error F f = Some t -> (i < 3)%nat ->
      exists r, nth_error he f = Some r /\ row3 r i = side_opp t i.
Proof. exact halfedges_ok. Qed.
Print Assumptions C01_halfedges.

(** each half-face is the facet opposite its corner with the simplicial boundary
    orientation, and the four of them form a closed oriented surface *)
Theorem C01_halffaces : forall T,
  (halffaces T = None <-> T = []) /\
  forall hf, halffaces T = Some hf -> length hf = length T /\
    forall k t, nth_error T k = Some t -> exists r, nth_error hf k = Some r
      /\ (forall i, (i < 4)%nat -> exists g, nth_error (bdry_facets t) i = Some g /\ rot_eq (row4 r i) g)
      /\ Permutation (all_sides [row4 r 0; row4 r 1; row4 r 2; row4 r 3])
           (map rev_edge (all_sides [row4 r 0; row4 r 1; row4 r 2; row4 r 3])).
Proof. exact halffaces_ok. Qed.
Print Assumptions C01_halffaces.
Example C01_nonvacuous : halfedges [(0,1,2);(2,1,3)] = Some [((1,2),(2,0),(0,1)); ((1,3),(3,2),(2,1))].
Proof. reflexivity. Qed.

(** *** C02 *)
Theorem C02_edges : forall F,
  (edges F = None <-> F = []) /\
  forall E bi ii nm, edges F = Some (E, bi, ii, nm) ->
    (forall e, (exists e', In e' E /\ same_edge e e') <-> (0 < incidence F e)%nat)
    /\ (forall k l e f, nth_error E k = Some e -> nth_error E l = Some f -> same_edge e f -> k = l)
    /\ (forall k e, nth_error E k = Some e -> (In k bi <-> incidence F e = 1%nat))
    /\ NoDup bi
    /\ (forall k, In k bi -> exists e, nth_error E k = Some e /\ In e (all_sides F)).
Proof. exact (fun F => conj (edges_none F) (edges_complete F)). Qed.
Print Assumptions C02_edges.
Example C02_nonvacuous : exists E bi ii nm, edges [(0,1,2);(2,1,3)] = Some (E, bi, ii, nm)
  /\ length E = 5%nat /\ length bi = 4%nat /\ incidence [(0,1,2);(2,1,3)] (2,1) = 2%nat.
Proof. vm_compute. eauto 10. Qed.

(** *** C03: the interior / non-manifold indices are NOT indices into the returned array
    (edges.py:71,74 index the pre-permutation array) *)
Theorem C03_edges_interior_indices_refuted : exists F E bi ii nm k e,
  edges F = Some (E, bi, ii, nm) /\ In k ii /\ nth_error E k = Some e /\ incidence F e = 1%nat.
Proof. exact edges_interior_refuted. Qed.
Print Assumptions C03_edges_interior_indices_refuted.
Theorem C03_edges_nonmanifold_indices_refuted : exists F E bi ii nm k e,
  edges F = Some (E, bi, ii, nm) /\ In k nm /\ nth_error E k = Some e /\ incidence F e = 1%nat.
Proof. exact edges_nonmanifold_refuted. Qed.
Print Assumptions C03_edges_nonmanifold_indices_refuted.
Theorem C03_faces_interior_indices_refuted : exists T F bi ii nm k f,
  faces T = Some (F, bi, ii, nm) /\ In k ii /\ nth_error F k = Some f /\ facet_incidence T f = 1%nat.
Proof. exact faces_interior_refuted. Qed.
Print Assumptions C03_faces_interior_indices_refuted.
(** they are right for meshes without boundary *)
Theorem C03_edges_indices_closed_partial : forall F E bi ii nm, edges F = Some (E, bi, ii, nm) ->
  (forall e, incidence F e <> 1%nat) ->
  forall k e, nth_error E k = Some e ->
    (In k ii <-> (1 < incidence F e)%nat) /\ (In k nm <-> (2 < incidence F e)%nat).
Proof. exact edges_indices_closed. Qed.
Print Assumptions C03_edges_indices_closed_partial.
Example C03_closed_nonvacuous : exists E bi ii nm, edges [(0,1,2);(0,2,3);(0,3,1);(1,3,2)] = Some (E, bi, ii, nm)
  /\ forallb (fun e => negb (Nat.eqb (incidence [(0,1,2);(0,2,3);(0,3,1);(1,3,2)] e) 1)) E = true /\ length ii = 6%nat.
Proof. vm_compute. eauto 10. Qed.

(** *** C04 *)
Theorem C04_faces : forall T,
  (faces T = None <-> T = []) /\
  forall F bi ii nm, faces T = Some (F, bi, ii, nm) ->
    (forall f, (exists f', In f' F /\ same_tri f f') <-> (0 < facet_incidence T f)%nat)
    /\ (forall k l e f, nth_error F k = Some e -> nth_error F l = Some f -> same_tri e f -> k = l)
    /\ (forall k f, nth_error F k = Some f -> (In k bi <-> facet_incidence T f = 1%nat))
    /\ NoDup bi
    /\ (forall k, In k bi -> exists f t g, nth_error F k = Some f /\ In t T /\ In g (bdry_facets t) /\ rot_eq f g).
Proof. exact (fun T => conj (faces_none T) (faces_complete T)). Qed.
Print Assumptions C04_faces.
Example C04_nonvacuous : exists F bi ii nm, faces [(0,1,2,3);(1,2,3,4)] = Some (F, bi, ii, nm)
  /\ length F = 7%nat /\ length bi = 6%nat.
Proof. vm_compute. eauto 10. Qed.

(** *** C05 *)
Theorem C05_boundary_edges : forall F, F <> [] -> exists B, boundary_edges F = Some B
  /\ (forall e, In e B <-> In e (all_sides F) /\ incidence F e = 1%nat)
  /\ (forall k l e f, nth_error B k = Some e -> nth_error B l = Some f -> same_edge e f -> k = l).
Proof. exact boundary_edges_ok. Qed.
Print Assumptions C05_boundary_edges.
Theorem C05_boundary_vertices : forall F, F <> [] -> exists L, boundary_vertices F = Some L
  /\ StronglySorted Z.lt L
  /\ (forall v, In v L <-> exists e, In e (all_sides F) /\ incidence F e = 1%nat /\ (v = fst e \/ v = snd e)).
Proof. exact boundary_vertices_ok. Qed.
Print Assumptions C05_boundary_vertices.
Theorem C05_boundary_faces : forall T, T <> [] -> exists B, boundary_faces T = Some B
  /\ (forall f, (exists f', In f' B /\ same_tri f f') <-> facet_incidence T f = 1%nat)
  /\ (forall f, In f B -> exists t g, In t T /\ In g (bdry_facets t) /\ rot_eq f g)
  /\ (forall k l e f, nth_error B k = Some e -> nth_error B l = Some f -> same_tri e f -> k = l).
Proof. exact boundary_faces_ok. Qed.
Print Assumptions C05_boundary_faces.
Example C05_nonvacuous : boundary_edges [(0,1,2);(2,1,3)] = Some [(0,1);(2,0);(1,3);(3,2)]
  /\ boundary_vertices [(0,1,2);(2,1,3)] = Some [0;1;2;3]
  /\ boundary_edges [(0,1,2);(0,2,3);(0,3,1);(1,3,2)] = Some [].
Proof. vm_compute. auto. Qed.

(** *** C06 *)
Theorem C06_non_manifold_edges : forall F, F <> [] -> exists L, non_manifold_edges F = Some L
  /\ StronglySorted (fun x y => fst x < fst y \/ fst x = fst y /\ snd x < snd y) L
  /\ (forall a b, In (a, b) L <-> a <= b /\ (2 < incidence F (a, b))%nat).
Proof. exact non_manifold_edges_ok. Qed.
Print Assumptions C06_non_manifold_edges.
Example C06_nonvacuous : non_manifold_edges [(0,1,2);(1,0,3);(0,1,4)] = Some [(0,1)].
Proof. reflexivity. Qed.

(** *** C07 (rows of any ordered type; instances: integers, pairs, triples) *)
Theorem C07_array_correspondence : forall (A : Type) (O : Ord A) (a b : list A),
  (b <> [] \/ a = [] -> exists f, array_correspondence a b = Some f /\ length f = length a
    /\ forall i x, nth_error a i = Some x -> exists k, nth_error f i = Some k
        /\ (k = -1 <-> ~ In x b)
        /\ (k <> -1 -> 0 <= k /\ nth_error b (Z.to_nat k) = Some x
             /\ forall l, nth_error b l = Some x -> k <= Z.of_nat l))
  /\ (b = [] -> a <> [] -> array_correspondence a b = None).
Proof. exact array_correspondence_ok. Qed.
Print Assumptions C07_array_correspondence.
Example C07_nonvacuous : array_correspondence [(1,2);(5,5);(0,1);(1,2)] [(0,1);(1,2);(1,2);(7,7)] = Some [1;-1;0;1].
Proof. reflexivity. Qed.

(** *** C08 *)
Theorem C08_halfedge_edge_map : forall F, F <> [] -> oriented_manifold F ->
  exists E h2e e2h, halfedge_edge_map F = Some (E, h2e, e2h)
  /\ (forall e, (exists e', In e' E /\ same_edge e e') <-> (0 < incidence F e)%nat)
  /\ (forall k l e f, nth_error E k = Some e -> nth_error E l = Some f -> same_edge e f -> k = l)
  /\ length e2h = length E
  /\ (forall f i t, nth_error F f = Some t -> (i < 3)%nat ->
       exists k e h0 h1, h2e (Z.of_nat f) (Z.of_nat i) = Z.of_nat k /\ nth_error E k = Some e
         /\ same_edge e (side_opp t i) /\ nth_error e2h k = Some (h0, h1)
         /\ (h0 = (Z.of_nat f, Z.of_nat i) \/ h1 = (Z.of_nat f, Z.of_nat i)))
  /\ (forall k e, nth_error E k = Some e -> exists f i t h1,
       nth_error e2h k = Some ((Z.of_nat f, Z.of_nat i), h1)
       /\ (i < 3)%nat /\ nth_error F f = Some t /\ side_opp t i = e
       /\ h2e (Z.of_nat f) (Z.of_nat i) = Z.of_nat k
       /\ (incidence F e = 1%nat /\ h1 = (-1, -1)
           \/ incidence F e = 2%nat /\ exists g j s, h1 = (Z.of_nat g, Z.of_nat j) /\ (j < 3)%nat
                /\ nth_error F g = Some s /\ side_opp s j = (snd e, fst e)
                /\ h2e (Z.of_nat g) (Z.of_nat j) = Z.of_nat k)).
Proof. exact hem_ok. Qed.
Print Assumptions C08_halfedge_edge_map.
Theorem C08_halfedge_edge_map_nonmanifold : forall F, F <> [] ->
  exists E h2e e2h, halfedge_edge_map_nm F = Some (E, h2e, e2h)
  /\ (forall e, (exists e', In e' E /\ same_edge e e') <-> (0 < incidence F e)%nat)
  /\ (forall k l e f, nth_error E k = Some e -> nth_error E l = Some f -> same_edge e f -> k = l)
  /\ length e2h = length E
  /\ (forall k e hs, nth_error E k = Some e -> nth_error e2h k = Some hs ->
        NoDup hs
        /\ length hs = incidence F e
        /\ forall r c, In (r, c) hs <-> exists f i t, r = Z.of_nat f /\ c = Z.of_nat i /\ (i < 3)%nat
               /\ nth_error F f = Some t /\ same_edge e (side_opp t i))
  /\ (forall f i t, nth_error F f = Some t -> (i < 3)%nat ->
       exists k e, h2e (Z.of_nat f) (Z.of_nat i) = Z.of_nat k /\ nth_error E k = Some e /\ same_edge e (side_opp t i)).
Proof. exact hem_nm_ok. Qed.
Print Assumptions C08_halfedge_edge_map_nonmanifold.
Example C08_nonvacuous : [(0,1,2);(2,1,3)] <> [] /\ oriented_manifold [(0,1,2);(2,1,3)]
  /\ incidence [(0,1,2);(2,1,3)] (1,2) = 2%nat /\ incidence [(0,1,2);(2,1,3)] (0,1) = 1%nat.
Proof. exact om_example. Qed.

(** *** C09 *)
Theorem C09_triangle_triangle_adjacency : forall F, F <> [] -> oriented_manifold F ->
  exists TT TTi, triangle_triangle_adjacency F = Some (TT, TTi)
    /\ length TT = length F /\ length TTi = length F
    /\ forall f i t r ri, nth_error F f = Some t -> (i < 3)%nat ->
        nth_error TT f = Some r -> nth_error TTi f = Some ri ->
        (row3 r i = -1 /\ row3 ri i = -1 /\ ~ In (snd (side_opp t i), fst (side_opp t i)) (all_sides F))
        \/ exists g j s rg rgi, row3 r i = Z.of_nat g /\ row3 ri i = Z.of_nat j /\ (j < 3)%nat
             /\ nth_error F g = Some s /\ side_opp s j = (snd (side_opp t i), fst (side_opp t i))
             /\ nth_error TT g = Some rg /\ nth_error TTi g = Some rgi
             /\ row3 rg j = Z.of_nat f /\ row3 rgi j = Z.of_nat i.
Proof. exact tta_ok. Qed.
Print Assumptions C09_triangle_triangle_adjacency.
Example C09_nonvacuous : triangle_triangle_adjacency [(0,1,2);(2,1,3)] = Some ([(1,-1,-1);(-1,-1,0)], [(2,-1,-1);(-1,-1,0)]).
Proof. reflexivity. Qed.
