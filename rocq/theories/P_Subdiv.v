(** C16-C18: polyline indices, upsampling and Loop subdivision.  Vocabulary: SubdivSpec.v, TopoSpec.v;
    code: SubdivModel.v *)
From Verif Require Import NumpyModel PyExn TopoModel TopoSpec MatModel MatProofs Vec SubdivModel SubdivSpec SubdivProofs Subdiv2Proofs Subdiv3Proofs LoopSubProofs.
From Coq Require Import Psatz.
Open Scope Z_scope.

(** *** C16 *)
Theorem C16_edge_indices : forall n, 1 <= n ->
  edge_indices n false = Ok (map (fun i => (Z.of_nat i, Z.of_nat i + 1)) (seq 0 (Z.to_nat (n - 1))))
  /\ edge_indices n true = Ok (map (fun i => (Z.of_nat i, Z.of_nat i + 1)) (seq 0 (Z.to_nat (n - 1))) ++ [(n - 1, 0)]).
Proof. exact (fun n H => conj (edge_indices_open n H) (edge_indices_closed n H)). Qed.
Print Assumptions C16_edge_indices.
Theorem C16_circle_partial : forall n, 3 <= n -> exists V E, regular_circle_polyline n = Ok (V, E)
  /\ length V = Z.to_nat n /\ (forall p, In p V -> fst p * fst p + snd p * snd p = 1)%R
  /\ E = map (fun i => (Z.of_nat i, Z.of_nat i + 1)) (seq 0 (Z.to_nat (n - 1))) ++ [(n - 1, 0)].
Proof. intros n H. destruct (circle_ok n H) as (V & E & A & B & C & D & _). eauto 10. Qed.
Print Assumptions C16_circle_partial.
(** the n points are never pairwise distinct: linspace includes 2 pi, so the first and the last coincide
    and the closing edge has length zero (regular_circle_polyline.py:35) *)
Theorem C16_circle_distinct_refuted : forall n, 3 <= n -> exists V E p, regular_circle_polyline n = Ok (V, E)
  /\ nth_error V 0 = Some p /\ nth_error V (Z.to_nat (n - 1)) = Some p /\ In (n - 1, 0) E /\ ~ NoDup V.
Proof.
  intros n H. destruct (circle_ok n H) as (V & E & A & L & _ & D & F1 & F2). exists V, E, (1,0)%R. repeat split; auto.
  - rewrite D. apply in_app_iff. right. left. auto.
  - intros ND. rewrite NoDup_nth_error in ND. specialize (ND 0%nat (Z.to_nat (n-1)) ltac:(lia) ltac:(congruence)). lia.
Qed.
Print Assumptions C16_circle_distinct_refuted.
Example C16_nonvacuous : edge_indices 3 true = Ok [(0,1);(1,2);(2,0)] /\ edge_indices 3 false = Ok [(0,1);(1,2)].
Proof. split; reflexivity. Qed.

(** *** C17 *)
(** one step, for points of any kind with a symmetric midpoint *)
Theorem C17_upsample : forall P (mid : P -> P -> P) (mid_comm : forall x y, mid x y = mid y x) V F,
  F <> [] -> (2 <= length V)%nat -> good_mesh F -> in_range (Z.of_nat (length V)) F ->
  exists Vu Fu E, upsample_triangle_mesh mid V F = Ok (Vu, Fu, E)
     /\ length Vu = (length V + length E)%nat /\ length Fu = (4 * length F)%nat
     /\ (forall i, (i < length V)%nat -> nth_error Vu i = nth_error V i)
     /\ good_mesh Fu /\ in_range (Z.of_nat (length Vu)) Fu
     (* E: every undirected edge once *)
     /\ (forall e, (exists e', In e' E /\ same_edge e e') <-> (0 < incidence F e)%nat)
     /\ (forall k l e f, nth_error E k = Some e -> nth_error E l = Some f -> same_edge e f -> k = l)
     /\ (forall k e, nth_error E k = Some e -> exists x y, at_ V (fst e) x /\ at_ V (snd e) y /\ at_ Vu (Z.of_nat (length V + k)) (mid x y))
     /\ (forall f t x y z, nth_error F f = Some t -> at3 V t x y z -> exists s0 s1 s2 s3,
           children (length F) f Fu s0 s1 s2 s3
           /\ at3 Vu s0 x (mid x y) (mid z x) /\ at3 Vu s1 (mid x y) y (mid y z)
           /\ at3 Vu s2 (mid z x) (mid y z) z /\ at3 Vu s3 (mid z x) (mid x y) (mid y z)).
Proof. exact (@upsample_ok). Qed.
Print Assumptions C17_upsample.
(** each child has the orientation of its parent and a quarter of its area *)
Theorem C17_children_area : forall x y z, let N := scal3 (1/4) (tri_normal x y z) in
  tri_normal x (mid3 x y) (mid3 z x) = N /\ tri_normal (mid3 x y) y (mid3 y z) = N
  /\ tri_normal (mid3 z x) (mid3 y z) z = N /\ tri_normal (mid3 z x) (mid3 x y) (mid3 y z) = N.
Proof. exact child_normals. Qed.
Print Assumptions C17_children_area.
Theorem C17_iterations : forall P (mid : P -> P -> P) (mid_comm : forall x y, mid x y = mid y x) k V F,
  F <> [] -> (2 <= length V)%nat -> good_mesh F -> in_range (Z.of_nat (length V)) F ->
  exists Vu Fu, subdivide_upsample mid k V F = Ok (Vu, Fu)
      /\ length Fu = (4 ^ k * length F)%nat /\ good_mesh Fu /\ in_range (Z.of_nat (length Vu)) Fu
      /\ (forall i, (i < length V)%nat -> nth_error Vu i = nth_error V i).
Proof. exact (@subdivide_ok). Qed.
Print Assumptions C17_iterations.
Theorem C17_total_area : forall k V F, F <> [] -> (2 <= length V)%nat -> good_mesh F -> in_range (Z.of_nat (length V)) F ->
  exists Vu Fu, subdivide_upsample mid3 k V F = Ok (Vu, Fu) /\ total_area Vu Fu = total_area V F.
Proof. exact subdivide_area. Qed.
Print Assumptions C17_total_area.
(** the accumulated matrix (started from the identity) maps each coordinate column of V to that of Vu;
    its rows are convex combinations *)
Theorem C17_matrix : forall k V F, F <> [] -> (2 <= length V)%nat -> good_mesh F -> in_range (Z.of_nat (length V)) F ->
  exists Vu Fu S, subdivide_upsample hmid k V F = Ok (Vu, Fu)
   /\ subdivide_matrix k (length V) F (fun i j => if i =? j then 1%R else 0%R) = Ok (length Vu, S)
   /\ (forall i, (i < length Vu)%nat -> col Vu (Z.of_nat i) = sumn (length V) (fun j => (S (Z.of_nat i) (Z.of_nat j) * col V (Z.of_nat j))%R))
   /\ (forall i, (i < length Vu)%nat -> sumn (length V) (fun j => S (Z.of_nat i) (Z.of_nat j)) = 1%R)
   /\ (forall i j, (i < length Vu)%nat -> (j < length V)%nat -> (0 <= S (Z.of_nat i) (Z.of_nat j))%R).
Proof.
  intros k V F NE LV GM RG.
  assert (PK : forall i g, (i < length V)%nat -> sumn (length V) (fun j => if Z.of_nat i =? Z.of_nat j then g (Z.of_nat j) else 0%R) = g (Z.of_nat i)).
  { intros i g Hi. apply sumn_pick. lia. }
  apply (subdivide_matrix_gen k (length V) V V F _ NE LV GM RG).
  - intros i Hi. rewrite <- (PK i (col V) Hi). unfold sumn. apply sumf_ext. intros j _. destruct (Z.of_nat i =? Z.of_nat j); lra.
  - intros i Hi. apply (PK i (fun _ => 1%R) Hi).
  - intros i j _ _. destruct (Z.of_nat i =? Z.of_nat j); lra.
Qed.
Print Assumptions C17_matrix.
Theorem C17_polyline : forall P (mid : P -> P -> P) V E, E <> [] -> (2 <= length V)%nat ->
    (forall e, In e E -> 0 <= fst e < Z.of_nat (length V) /\ 0 <= snd e < Z.of_nat (length V)) ->
    exists Vu Eu, upsample_polyline mid V E = Ok (Vu, Eu)
     /\ length Vu = (length V + length E)%nat /\ length Eu = (2 * length E)%nat
     /\ (forall i, (i < length V)%nat -> nth_error Vu i = nth_error V i)
     /\ (forall e, In e Eu -> 0 <= fst e < Z.of_nat (length Vu) /\ 0 <= snd e < Z.of_nat (length Vu))
     /\ (forall k a b x y, nth_error E k = Some (a,b) -> at_ V a x -> at_ V b y ->
          let c := Z.of_nat (length V + k) in
          nth_error Eu k = Some (a, c) /\ nth_error Eu (length E + k) = Some (c, b) /\ at_ Vu c (mid x y)).
Proof. exact (@upsample_polyline_ok). Qed.
Print Assumptions C17_polyline.
Theorem C17_polyline_iterations : forall P (mid : P -> P -> P) k V E, E <> [] -> (2 <= length V)%nat ->
    (forall e, In e E -> 0 <= fst e < Z.of_nat (length V) /\ 0 <= snd e < Z.of_nat (length V)) ->
    exists Vu Eu, subdivide_polyline mid k V E = Ok (Vu, Eu) /\ length Eu = (2 ^ k * length E)%nat
     /\ (forall e, In e Eu -> 0 <= fst e < Z.of_nat (length Vu) /\ 0 <= snd e < Z.of_nat (length Vu))
     /\ (forall i, (i < length V)%nat -> nth_error Vu i = nth_error V i).
Proof. exact (@subdivide_polyline_ok). Qed.
Print Assumptions C17_polyline_iterations.

(** a mesh with interior and boundary edges that meets the hypotheses *)
Definition fan := [(0,1,2);(0,2,3);(0,3,1)].
Lemma fan_good : good_mesh fan /\ in_range 4 fan.
Proof.
  split; [split; [|split]|].
  - unfold oriented_manifold, fan. cbn. repeat constructor; cbn; intuition congruence.
  - intros t I. cbn in I. destruct I as [<-|[<-|[<-|[]]]]; cbn; lia.
  - intros s t I J S. cbn in I, J. destruct I as [<-|[<-|[<-|[]]]], J as [<-|[<-|[<-|[]]]]; auto; cbn in S; exfalso; intuition congruence.
  - intros t I. cbn in I. destruct I as [<-|[<-|[<-|[]]]]; lia.
Qed.
Example C17_nonvacuous : exists Vu Fu, subdivide_upsample (fun x y => ((x+y)/2)%Z) 2 [0;16;32;64] fan = Ok (Vu, Fu) /\ length Fu = 48%nat /\ length Vu = 31%nat.
Proof. vm_compute. eauto. Qed.

(** *** C18 *)
(** all five stencils; [n] is the number of vertices, x any vertex function (e.g. a coordinate) *)
Theorem C18_stencils : forall F n, F <> [] -> good_mesh F -> in_range n F -> exists M Fu E, loop_matrix n F = Ok (M, Fu)
  /\ (forall e, (exists e', In e' E /\ same_edge e e') <-> (0 < incidence F e)%nat)
  /\ (forall k l e f, nth_error E k = Some e -> nth_error E l = Some f -> same_edge e f -> k = l)
  /\ (forall t, In t M -> (0 <= trow t < n + Z.of_nat (length E)) /\ (0 <= tcol t < n))
  /\ (forall i j, (0 <= entry M i j)%R)
  (* new vertex on a boundary edge *)
  /\ (forall x k e, nth_error E k = Some e -> incidence F e = 1%nat ->
       mulv (Z.to_nat n) M x (n + Z.of_nat k) = (1/2 * x (fst e) + 1/2 * x (snd e))%R)
  (* new vertex on an interior edge: c and d are the two opposite corners *)
  /\ (forall x k e, nth_error E k = Some e -> incidence F e <> 1%nat -> exists c d,
       rot_in F (fst e) (snd e) c /\ rot_in F (snd e) (fst e) d /\ c <> d /\
       mulv (Z.to_nat n) M x (n + Z.of_nat k) = (3/8 * x (fst e) + 3/8 * x (snd e) + 1/8 * x c + 1/8 * x d)%R)
  (* interior vertex of valence N *)
  /\ (forall x v, 0 <= v < n -> ~ on_boundary F v -> out_sides F v <> [] ->
       let N := length (out_sides F v) in (3 <= N)%nat /\
       mulv (Z.to_nat n) M x v = ((1 - INR N * loop_weight N) * x v + loop_weight N * sumf (fun s => x (snd s)) (out_sides F v))%R)
  (* boundary vertex: 3/4 1/8 1/8 along the boundary *)
  /\ (forall x v, 0 <= v < n -> on_boundary F v ->
       mulv (Z.to_nat n) M x v = sumf (fun s => (if fst s =? v then 3/4 * x v + 1/8 * x (snd s) else 0) + (if snd s =? v then 1/8 * x (fst s) else 0))%R (bdry_sides F))
  (* vertex of no face *)
  /\ (forall x v, 0 <= v < n -> (forall s, In s (all_sides F) -> fst s <> v /\ snd s <> v) -> mulv (Z.to_nat n) M x v = 0%R).
Proof.
  assert (LW : forall N, (3 <= N)%nat -> loop_weight N = beta N).
  { intros N H. unfold loop_weight, beta. destruct Nat.eqb; [reflexivity|]. apply (le_INR 3) in H. cbn in H. field. lra. }
  intros F n NE GM RG. destruct (loop_ok F n NE GM RG) as (M & Fu & E & A). exists M, Fu, E. do 7 (split; [apply A|]). split; [|split; [apply A|apply A]].
  intros x v V0 V1 V2 N. assert (S : (3 <= N)%nat) by (apply A; auto). split; [exact S|]. rewrite (LW N S). apply A; auto.
Qed.
Print Assumptions C18_stencils.
(** a boundary vertex with one boundary side entering and one leaving *)
Theorem C18_boundary_vertex : forall F n M Fu x v u w, F <> [] -> good_mesh F -> in_range n F -> loop_matrix n F = Ok (M, Fu) -> 0 <= v < n ->
  In (u,v) (bdry_sides F) -> In (v,w) (bdry_sides F) ->
  (forall s, In s (bdry_sides F) -> (fst s = v -> snd s = w) /\ (snd s = v -> fst s = u)) ->
  mulv (Z.to_nat n) M x v = (3/4 * x v + 1/8 * x u + 1/8 * x w)%R.
Proof. exact loop_simple_boundary. Qed.
Print Assumptions C18_boundary_vertex.
(** row sums are one for every vertex that belongs to a face and, if on the boundary, sits on one boundary fan *)
Theorem C18_row_sums_partial : forall F n, F <> [] -> good_mesh F -> in_range n F ->
  (forall v, 0 <= v < n -> exists w, In (v,w) (all_sides F)) ->
  (forall v, 0 <= v < n -> on_boundary F v -> exists u w, In (u,v) (bdry_sides F) /\ In (v,w) (bdry_sides F) /\
     forall s, In s (bdry_sides F) -> (fst s = v -> snd s = w) /\ (snd s = v -> fst s = u)) ->
  exists M Fu E, loop_matrix n F = Ok (M, Fu)
    /\ (forall e, (exists e', In e' E /\ same_edge e e') <-> (0 < incidence F e)%nat)
    /\ forall i, 0 <= i < n + Z.of_nat (length E) -> sumn (Z.to_nat n) (fun j => entry M i (Z.of_nat j)) = 1%R.
Proof.
  intros F n NE GM RG RF SB. destruct (C18_stencils F n NE GM RG) as (M & Fu & E & L & EC & EU & _ & _ & S1 & S2 & S3 & S4 & _).
  exists M, Fu, E. split; auto. split; auto. intros i Hi.
  assert (RS : sumn (Z.to_nat n) (fun j => entry M i (Z.of_nat j)) = mulv (Z.to_nat n) M (fun _ => 1%R) i).
  { unfold mulv, sumn. apply sumf_ext. intros; lra. }
  rewrite RS. destruct (Z.lt_ge_cases i n) as [Hn|Hn].
  - assert (D : on_boundary F i \/ ~ on_boundary F i).
    { destruct (existsb (fun e => Nat.eqb (incidence F e) 1 && ((fst e =? i) || (snd e =? i))) E) eqn:X.
      - left. apply existsb_exists in X as (e & _ & X). rewrite andb_true_iff, orb_true_iff, Nat.eqb_eq, !Z.eqb_eq in X. exists e. tauto.
      - right. intros (e & I1 & Q). assert (exists e', In e' E /\ same_edge e e') as (e' & Ie & S) by (apply EC; lia).
        rewrite <- not_true_iff_false in X. apply X, existsb_exists. exists e'. split; auto.
        rewrite andb_true_iff, orb_true_iff, Nat.eqb_eq, !Z.eqb_eq. rewrite <- (same_edge_incidence F _ _ S). split; auto.
        destruct S as [[A B]|[A B]]; rewrite A, B in Q; tauto. }
    destruct D as [D|D].
    + destruct (SB i ltac:(lia) D) as (u & w & Iu & Iw & U). rewrite (C18_boundary_vertex F n M Fu _ i u w NE GM RG L ltac:(lia) Iu Iw U). lra.
    + assert (NO : out_sides F i <> []).
      { destruct (RF i ltac:(lia)) as (w & I). intros Q. assert (J : In (i,w) (out_sides F i)) by (apply filter_In; split; auto; apply Z.eqb_refl). rewrite Q in J. destruct J. }
      destruct (S3 (fun _ => 1%R) i ltac:(lia) D NO) as [_ ->]. rewrite sumf_const. ring.
  - replace i with (n + Z.of_nat (Z.to_nat (i - n))) by lia. set (k := Z.to_nat (i - n)).
    destruct (nth_error E k) as [e|] eqn:Ek; [|apply nth_error_None in Ek; lia].
    destruct (Nat.eq_dec (incidence F e) 1) as [I1|I1].
    + rewrite (S1 _ _ _ Ek I1). lra.
    + destruct (S2 (fun _ => 1%R) _ _ Ek I1) as (c & d & _ & _ & _ & ->). lra.
Qed.
Print Assumptions C18_row_sums_partial.
(** the faces are those of one upsampling step, if the last vertex belongs to a face *)
Lemma max_index_eq F n : in_range n F -> (exists t, In t F /\ (fst (fst t) = n - 1 \/ snd (fst t) = n - 1 \/ snd t = n - 1)) -> 0 < n -> SubdivModel.max_index F + 1 = n.
Proof.
  intros R (t & I & H) P. assert (A : SubdivModel.max_index F <= n - 1).
  { clear I H. induction F as [|[[a b] c] F IH]; cbn; [lia|]. pose proof (R (a,b,c) (or_introl eq_refl)) as Q. cbn in Q.
    assert (in_range n F) as R' by (intros u J; apply R; right; auto). specialize (IH R'). unfold SubdivModel.max_index in IH. lia. }
  assert (B : n - 1 <= SubdivModel.max_index F); [|lia]. clear R A.
  induction F as [|[[a b] c] F IH]; [destruct I|]. unfold SubdivModel.max_index in *. cbn. destruct I as [<-|I]; [cbn in H; lia|]. specialize (IH I). lia.
Qed.
Theorem C18_faces_partial : forall P (mid : P -> P -> P) (V : list P) F, F <> [] -> (2 <= length V)%nat -> good_mesh F ->
  in_range (Z.of_nat (length V)) F ->
  (exists t, In t F /\ (fst (fst t) = Z.of_nat (length V) - 1 \/ snd (fst t) = Z.of_nat (length V) - 1 \/ snd t = Z.of_nat (length V) - 1)) ->
  exists M Fu Vu E, loop_matrix (Z.of_nat (length V)) F = Ok (M, Fu) /\ upsample_triangle_mesh mid V F = Ok (Vu, Fu, E).
Proof.
  intros P mid V F NE LV GM RG LAST. destruct (HemProofs.hem_ok F NE (proj1 GM)) as (E & h2e & e2h & Q & HR).
  rewrite (loop_matrix_eq F E h2e e2h _ GM RG HR NE Q). rewrite (max_index_eq F _ RG LAST ltac:(lia)).
  assert (BE : forall e, In e E -> 0 <= fst e < Z.of_nat (length V) /\ 0 <= snd e < Z.of_nat (length V)).
  { intros e I. apply (sides_range F _ RG), (E_sides F E h2e e2h HR), I. }
  destruct (append_mids_ok mid V E BE) as (Vu & EV & _). do 2 eexists. exists Vu, E. split; [reflexivity|].
  unfold upsample_triangle_mesh. rewrite match_cons by auto. rewrite Q. destruct (Nat.leb_spec (length V) 1); [lia|]. rewrite EV. reflexivity.
Qed.
Print Assumptions C18_faces_partial.

(** a vertex of no face gets a zero row: Loop moves it to the origin *)
Theorem C18_row_sums_unreferenced_refuted : exists F n M Fu v, good_mesh F /\ in_range n F /\ loop_matrix n F = Ok (M, Fu) /\ 0 <= v < n
  /\ forall x, mulv (Z.to_nat n) M x v = 0%R.
Proof.
  exists fan, 5. destruct fan_good as [GM RG]. assert (RG' : in_range 5 fan) by (intros t I; specialize (RG t I); destruct t as [[a b] c]; lia).
  destruct (C18_stencils fan 5 ltac:(discriminate) GM RG') as (M & Fu & E & L & A). exists M, Fu, 4. repeat split; auto; try lia; try apply GM.
  intros x. apply A; [lia|]. intros s I. cbn in I. repeat destruct I as [<-|I]; cbn; try lia; destruct I.
Qed.
Print Assumptions C18_row_sums_unreferenced_refuted.
(** and when that vertex is the last one, the faces of the result index wrong rows: row 3 below is the
    (collapsed) old vertex 3, but a face uses it as an edge midpoint *)
Lemma loop_faces_eq n F M Fu : loop_matrix n F = Ok (M, Fu) -> exists E h2e e2h, halfedge_edge_map F = Some (E, h2e, e2h) /\ Fu = upsample_faces (SubdivModel.max_index F + 1) F h2e.
Proof.
  unfold loop_matrix. destruct F as [|t0 F0]; [discriminate|]. destruct (halfedge_edge_map (t0 :: F0)) as [[[E h2e] e2h]|]; [|discriminate].
  destruct (existsb _ _); [discriminate|]. unfold csr. destruct (forallb _ _); [|discriminate]. cbn [bind]. intros Q. injection Q as _ <-. eauto.
Qed.
Theorem C18_faces_trailing_refuted : exists F n M Fu t, good_mesh F /\ in_range n F /\ loop_matrix n F = Ok (M, Fu)
  /\ In t Fu /\ snd (fst t) = 3 /\ 3 < n /\ forall x, mulv (Z.to_nat n) M x 3 = 0%R.
Proof.
  assert (GM : good_mesh [(0,1,2)]).
  { split; [|split]. - unfold oriented_manifold. cbn. repeat constructor; cbn; intuition congruence.
    - intros t [<-|[]]; cbn; lia. - intros s t [<-|[]] [<-|[]] _; auto. }
  assert (RG : in_range 4 [(0,1,2)]) by (intros t [<-|[]]; lia).
  destruct (C18_stencils [(0,1,2)] 4 ltac:(discriminate) GM RG) as (M & Fu & E & L & A).
  assert (IF : exists t, In t Fu /\ snd (fst t) = 3).
  { destruct (loop_faces_eq _ _ _ _ L) as (E' & h2e & e2h & Q & ->). vm_compute in Q. injection Q as <- <- <-. exists (0,3,4). vm_compute. auto. }
  destruct IF as (t & It & Qt). exists [(0,1,2)], 4, M, Fu, t. repeat split; auto; try lia; try apply GM.
  intros x. apply A; [lia|]. intros s I. cbn in I. repeat destruct I as [<-|I]; cbn; try lia; destruct I.
Qed.
Print Assumptions C18_faces_trailing_refuted.
(** a boundary vertex shared by two fans gets a row that sums to two *)
Theorem C18_row_sums_bowtie_refuted : exists F n M Fu v, good_mesh F /\ in_range n F /\ loop_matrix n F = Ok (M, Fu) /\ 0 <= v < n
  /\ sumn (Z.to_nat n) (fun j => entry M v (Z.of_nat j)) = 2%R.
Proof.
  set (F := [(0,1,2);(0,3,4)]).
  assert (GM : good_mesh F).
  { split; [|split]. - unfold oriented_manifold. cbn. repeat constructor; cbn; intuition congruence.
    - intros t [<-|[<-|[]]]; cbn; lia.
    - intros s t I J S. cbn in I, J. destruct I as [<-|[<-|[]]], J as [<-|[<-|[]]]; auto; cbn in S; exfalso; intuition congruence. }
  assert (RG : in_range 5 F) by (intros t [<-|[<-|[]]]; lia).
  destruct (C18_stencils F 5 ltac:(unfold F; discriminate) GM RG) as (M & Fu & E & L & A). exists F, 5, M, Fu, 0. repeat split; auto; try lia; try apply GM.
  assert (RS : sumn (Z.to_nat 5) (fun j => entry M 0 (Z.of_nat j)) = mulv (Z.to_nat 5) M (fun _ => 1%R) 0).
  { unfold mulv, sumn. apply sumf_ext. intros; lra. }
  rewrite RS. destruct A as (_ & _ & _ & _ & _ & _ & _ & A & _). rewrite A; [|lia|exists (0,1); vm_compute; auto].
  replace (bdry_sides F) with (all_sides F) by reflexivity. cbn. lra.
Qed.
Print Assumptions C18_row_sums_bowtie_refuted.
(** the hypotheses of C18_row_sums_partial hold for the fan, which has an interior vertex of valence 3 *)
Example C18_nonvacuous : exists M Fu E, loop_matrix 4 fan = Ok (M, Fu)
    /\ (forall e, (exists e', In e' E /\ same_edge e e') <-> (0 < incidence fan e)%nat)
    /\ forall i, 0 <= i < 4 + Z.of_nat (length E) -> sumn (Z.to_nat 4) (fun j => entry M i (Z.of_nat j)) = 1%R.
Proof.
  destruct fan_good as [GM RG]. apply C18_row_sums_partial; auto; [discriminate | |].
  - intros v Hv. assert (v = 0 \/ v = 1 \/ v = 2 \/ v = 3) as [ -> | [ -> | [ -> | -> ] ] ] by lia; cbn; eauto 20.
  - intros v Hv OB. assert (BS : bdry_sides fan = [(1,2);(2,3);(3,1)]) by reflexivity. rewrite BS.
    assert (v = 0 \/ v = 1 \/ v = 2 \/ v = 3) as [ -> | [ -> | [ -> | -> ] ] ] by lia.
    + exfalso. destruct OB as ([a b] & I1 & Q). unfold incidence in I1.
      assert (X : forall s, In s (filter (same_edgeb (a,b)) (all_sides fan)) -> same_edge (a,b) s /\ In s (all_sides fan)) by (intros s J; apply filter_In in J as [J1 J2]; split; auto; apply same_edgeb_iff; auto).
      destruct (filter (same_edgeb (a,b)) (all_sides fan)) as [|s [|s' l]] eqn:FE; cbn in I1; try lia.
      destruct (X s (or_introl eq_refl)) as [S J].
      assert (INS : In (snd s, fst s) (filter (same_edgeb (a,b)) (all_sides fan))).
      { apply filter_In. split; [|apply same_edgeb_iff; unfold same_edge in *; cbn in *; tauto].
        unfold same_edge in S. cbn in S, Q. assert (fst s = 0 \/ snd s = 0) by lia. cbn in J. repeat destruct J as [<-|J]; cbn in *; try lia; tauto. }
      rewrite FE in INS. destruct INS as [IQ|[]]. destruct s as [p q]. cbn in IQ. assert (p = q) by congruence. subst q. cbn in J. repeat (destruct J as [J|J]; [congruence|]). destruct J.
    + exists 3, 2. cbn. repeat split; auto; intuition; subst; cbn in *; congruence.
    + exists 1, 3. cbn. repeat split; auto; intuition; subst; cbn in *; congruence.
    + exists 2, 1. cbn. repeat split; auto; intuition; subst; cbn in *; congruence.
Qed.
