(** C11, C12: discrete exterior calculus.  Vocabulary: TopoSpec.v (oriented_manifold), GeomSpec.v,
    MatModel.v; code: DecModel.v, TopoModel.v (halfedge_edge_map) *)
From Verif Require Import NumpyModel PyExn TopoModel TopoSpec Vec MatModel GeomSpec GeomModel DecModel DecSpec DecProofs.
Open Scope Z_scope.

(** d1 d0 = 0 entry by entry; d0 1 = 0.  [dec_d0] uses n = max(F)+1 vertices. *)
Theorem C11_dd_zero : forall F, F <> [] -> oriented_manifold F -> (forall t, In t F -> 0 <= c0 t /\ 0 <= c1 t /\ 0 <= c2 t) ->
  exists D0 D1 nE, dec_d0 F = Ok D0 /\ dec_d1 F = Ok D1
    /\ (forall t, In t D1 -> 0 <= tcol t < Z.of_nat nE)
    /\ (forall f j, (f < length F)%nat -> matmul nE D1 D0 (Z.of_nat f) j = 0%R)
    /\ (forall k, (k < nE)%nat -> mulv (Z.to_nat (max_index F + 1)) D0 (fun _ => 1%R) (Z.of_nat k) = 0%R).
Proof. exact dec_dd. Qed.
Print Assumptions C11_dd_zero.

(** what d0 and d1 compute: end-point difference of every edge, signed circulation of every face
    (so the zero product above is not the product of zero matrices) *)
Theorem C11_meaning : forall F, F <> [] -> oriented_manifold F -> (forall t, In t F -> 0 <= c0 t /\ 0 <= c1 t /\ 0 <= c2 t) ->
  exists E h2e e2h D0 D1, halfedge_edge_map F = Some (E, h2e, e2h) /\ dec_d0 F = Ok D0 /\ dec_d1 F = Ok D1
    /\ (forall x k e, nth_error E k = Some e ->
         mulv (Z.to_nat (max_index F + 1)) D0 x (Z.of_nat k) = (x (fst e) - x (snd e))%R)
    /\ (forall (x : Z -> R) f t, nth_error F f = Some t ->
      mulv (length e2h) D1 x (Z.of_nat f) =
      sumf (fun i => let k := h2e (Z.of_nat f) (Z.of_nat i) in
              (match nth_error E (Z.to_nat k) with
               | Some e => if edge_eqb e (side_opp t i) then x k else - x k
               | None => 0 end)%R) [0;1;2]%nat).
Proof.
  intros F NE OM NN. destruct (dec_d0_ok F NE OM NN) as (E & h2e & e2h & D0 & Q & E0 & HR & C0 & H0).
  destruct (dec_d1_ok F OM E h2e e2h Q HR) as (D1 & E1 & C1 & H1).
  exists E, h2e, e2h, D0, D1. auto.
Qed.
Print Assumptions C11_meaning.

(** d0' h1 d0 = cotangent Laplacian *)
Theorem C11_laplacian : forall (L : faces_lsq) n, L <> [] -> oriented_manifold (map fst L) -> valid (Z.of_nat n) (map fst L) ->
  exists E h2e e2h D0 d M,
    halfedge_edge_map (map fst L) = Some (E, h2e, e2h)
    /\ dec_d0_E E (Z.of_nat n) = Ok D0 /\ dec_h1_intrinsic L = Ok (diags d) /\ length d = length E
    /\ cotangent_laplacian_intrinsic L (Z.of_nat n) = Ok M
    /\ forall i j, sumn (length E) (fun k => (entry D0 (Z.of_nat k) i * nth k d 0 * entry D0 (Z.of_nat k) j)%R) = entry M i j.
Proof. exact dec_laplacian. Qed.
Print Assumptions C11_laplacian.

Example C11_nonvacuous : oriented_manifold [(0,1,2);(2,1,3);(0,2,3)] /\
  exists D0 D1, dec_d0 [(0,1,2);(2,1,3);(0,2,3)] = Ok D0 /\ dec_d1 [(0,1,2);(2,1,3);(0,2,3)] = Ok D1 /\ length D1 = 9%nat /\ length D0 = 12%nat.
Proof. split; [unfold oriented_manifold; vm_compute; repeat constructor; cbn; intuition congruence | do 2 eexists; repeat split; vm_compute; reflexivity]. Qed.

(** ** C12 *)
Theorem C12_h1 : forall (L : faces_lsq), map fst L <> [] -> oriented_manifold (map fst L) ->
  exists d d', dec_h1_intrinsic L = Ok (diags d) /\ dec_h1inv_intrinsic L = Ok (diags d') /\ length d' = length d
    /\ ((forall v, In v d -> v <> 0%R) -> is_inverse (length d) (diags d) (diags d') /\ is_inverse (length d) (diags d') (diags d)).
Proof. exact dec_h1_inverse. Qed.
Print Assumptions C12_h1.
Theorem C12_h2 : forall (L : faces_lsq), (forall p, In p L -> dblA (snd p) <> 0%R) ->
  is_inverse (length L) (dec_h2_intrinsic L) (dec_h2inv_intrinsic L) /\ is_inverse (length L) (dec_h2inv_intrinsic L) (dec_h2_intrinsic L).
Proof. exact dec_h2_inverse. Qed.
Print Assumptions C12_h2.
(** dec_h0inv (dec_h0inv_intrinsic.py:40-46) adds up the reciprocals of the corner shares instead of
    taking the reciprocal of their sum: with k incident corners the product is at least k^2 (exactly
    k^2 when all faces have the same area), so it inverts dec_h0 only at vertices with one corner. *)
Theorem C12_h0_partial : forall (L : faces_lsq) n, valid (Z.of_nat n) (map fst L) -> (forall p, In p L -> 0 < dblA (snd p))%R ->
  exists H0 H0i, dec_h0_intrinsic L (Z.of_nat n) = Ok H0 /\ dec_h0inv_intrinsic L (Z.of_nat n) = Ok H0i /\
  forall i, (0 <= i < Z.of_nat n)%Z ->
   (forall j, j <> i -> matmul n H0 H0i i j = 0%R) /\
   (length (corners_at L i) = 1%nat -> matmul n H0 H0i i i = 1%R) /\
   (INR (length (corners_at L i)) * INR (length (corners_at L i)) <= matmul n H0 H0i i i)%R /\
   ((forall p q, In p L -> In q L -> dblA (snd p) = dblA (snd q)) ->
     matmul n H0 H0i i i = (INR (length (corners_at L i)) * INR (length (corners_at L i)))%R).
Proof. exact dec_h0_product. Qed.
Print Assumptions C12_h0_partial.
(** hence dec_h0inv is not the inverse as soon as one vertex has two corners *)
Theorem C12_h0_refuted : forall (L : faces_lsq) n H0 H0i i, valid (Z.of_nat n) (map fst L) -> (forall p, In p L -> 0 < dblA (snd p))%R ->
  dec_h0_intrinsic L (Z.of_nat n) = Ok H0 -> dec_h0inv_intrinsic L (Z.of_nat n) = Ok H0i ->
  0 <= i < Z.of_nat n -> (2 <= length (corners_at L i))%nat -> ~ is_inverse n H0 H0i.
Proof.
  intros L n H0 H0i i Va P E1 E2 Hi K IN. destruct (dec_h0_product L n Va P) as (A & B & EA & EB & H).
  rewrite E1 in EA. injection EA as <-. rewrite E2 in EB. injection EB as <-.
  destruct (H i Hi) as (_ & _ & G & _). specialize (IN i i Hi). rewrite Z.eqb_refl in IN. rewrite IN in G.
  apply le_INR in K. cbn in K. nra.
Qed.
Print Assumptions C12_h0_refuted.
Example C12_nonvacuous : exists L, valid 4 (map fst L) /\ (forall p, In p L -> 0 < dblA (snd p))%R /\ map fst L <> []
  /\ oriented_manifold (map fst L) /\ length (corners_at L 1) = 2%nat /\ length (corners_at L 0) = 1%nat.
Proof.
  exists [((0,1,2),(1,1,1)%R);((2,1,3),(1,1,1)%R)]. repeat split; try (destruct H as [<-|[<-|[]]]; unfold c0, c1, c2; cbn; lia).
  - intros p I. assert (snd p = (1,1,1)%R) as -> by (destruct I as [<-|[<-|[]]]; reflexivity).
    unfold dblA, X, Y, Zc; cbn [fst snd]. rewrite sqrt_1. unfold Rmax. destruct Rle_dec; [lra|].
    apply Rmult_lt_0_compat; [lra|]. apply sqrt_lt_R0. lra.
  - discriminate.
  - unfold oriented_manifold; vm_compute; repeat constructor; cbn; intuition congruence.
Qed.
