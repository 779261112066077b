(** C13, C14: remove_unreferenced, remove_duplicate_vertices.
    Vocabulary: RelabelSpec.v; code: RelabelModel.v *)
From Verif Require Import NumpyModel PyExn RelabelModel RelabelSpec RelabelProofs.
From Coq Require Import Reals Sorted Lra.
Open Scope Z_scope.

Theorem C13_with_vertices : forall (A : Type) (V : list A) F, concat F <> [] ->
  (forall v, In v (concat F) -> -1 <= v < Z.of_nat (length V)) ->
  exists newV newF I J, remove_unreferenced (Some V) F = Ok (Some newV, newF, I, J)
    /\ relabelled (Z.of_nat (length V)) F newF I J
    /\ Forall2 (fun x j => nth_error V (Z.to_nat j) = Some x) newV J
    /\ Forall2 (Forall2 (fun v g => (v = -1 /\ g = -1) \/
         (0 <= v /\ 0 <= g < Z.of_nat (length newV) /\ nth_error newV (Z.to_nat g) = nth_error V (Z.to_nat v)))) F newF.
Proof. exact @remove_unreferenced_V'. Qed.
Print Assumptions C13_with_vertices.

Theorem C13_without_vertices : forall F, concat F <> [] -> (forall v, In v (concat F) -> -1 <= v) ->
  exists newF I J n, remove_unreferenced (A:=unit) None F = Ok (None, newF, I, J)
    /\ In (n - 1) (concat F) /\ (forall v, In v (concat F) -> v < n)
    /\ relabelled n F newF I J.
Proof. exact remove_unreferenced_None. Qed.
Print Assumptions C13_without_vertices.

(** bad inputs are rejected, never silently relabelled *)
Theorem C13_rejects : forall (A : Type) (V : list A) F,
  (exists v, In v (concat F) /\ (v < -1 \/ Z.of_nat (length V) <= v)) ->
  remove_unreferenced (Some V) F = Err AssertionError.
Proof. exact @remove_unreferenced_rejects. Qed.
Print Assumptions C13_rejects.

(** an empty F is rejected by np.max (remove_unreferenced.py:70,73) although lines 76-82 provide an
    answer for it: the branch is dead code *)
Theorem C13_empty_refuted : forall (A : Type) (V : option (list A)) F, concat F = [] ->
  remove_unreferenced V F = Err ValueError.
Proof. exact @remove_unreferenced_empty. Qed.
Print Assumptions C13_empty_refuted.

Example C13_nonvacuous : remove_unreferenced (Some [10;11;12;13;14]) [[0;4;2];[4;2;-1]]
  = Ok (Some [10;12;14], [[0;2;1];[2;1;-1]], [0;-1;1;-1;2;-1], [0;2;4]).
Proof. reflexivity. Qed.

Theorem C14_exact : forall (A : Type) (O : Ord A) (V : list A) faces,
  Forall (Forall (fun i => (i < length V)%nat)) faces ->
  exists SV SVI SVJ G, remove_duplicate_vertices0 V faces = Some (SV, SVI, SVJ, G)
    /\ NoDup SV /\ StronglySorted (fun x y => cmp x y = Lt) SV
    /\ (forall x, In x SV <-> In x V)
    /\ Forall2 (fun x i => nth_error V i = Some x) SV SVI
    /\ (forall k i j, nth_error SVI k = Some i -> nth_error V j = nth_error V i -> (i <= j)%nat)
    /\ Forall2 (fun x j => nth_error SV j = Some x) V SVJ
    /\ Forall2 (Forall2 (fun i j => nth_error SV j = nth_error V i /\ (j < length SV)%nat)) faces G.
Proof. exact @remove_duplicate_vertices0_ok. Qed.
Print Assumptions C14_exact.

(** eps > 0: rows are identified iff they fall in the same rounding cell; identified rows (and a row
    and its representative) differ by at most eps in every coordinate; representatives are in
    distinct cells *)
Theorem C14_eps : forall V eps faces, (0 < eps)%R -> Forall (Forall (fun i => (i < length V)%nat)) faces ->
  exists SV SVI SVJ G, remove_duplicate_vertices_eps V eps faces = Some (SV, SVI, SVJ, G)
    /\ length SVJ = length V
    /\ Forall2 (fun x i => nth_error V i = Some x) SV SVI
    /\ (forall a b x y, nth_error V a = Some x -> nth_error V b = Some y ->
          (nth_error SVJ a = nth_error SVJ b <-> dup_key eps x = dup_key eps y))
    /\ (forall a b x y, nth_error V a = Some x -> nth_error V b = Some y -> nth_error SVJ a = nth_error SVJ b -> rows_close eps x y)
    /\ (forall a x, nth_error V a = Some x -> exists j y, nth_error SVJ a = Some j /\ nth_error SV j = Some y /\ rows_close eps x y)
    /\ (forall i j x y, nth_error SV i = Some x -> nth_error SV j = Some y -> dup_key eps x = dup_key eps y -> i = j)
    /\ (forall j y, nth_error SV j = Some y -> exists a, nth_error V a = Some y /\ nth_error SVJ a = Some j)
    /\ Forall2 (Forall2 (fun i j => nth_error SVJ i = Some j)) faces G.
Proof. exact remove_duplicate_vertices_eps_ok. Qed.
Print Assumptions C14_eps.

(** "epsilon: tolerance" is not a tolerance: vertices closer than eps/4 may stay separate *)
Theorem C14_tolerance_refuted : exists V eps SV SVI SVJ G a b x y,
  (0 < eps)%R /\ remove_duplicate_vertices_eps V eps [] = Some (SV, SVI, SVJ, G)
  /\ nth_error V a = Some x /\ nth_error V b = Some y /\ rows_close (eps / 4) x y
  /\ nth_error SVJ a <> nth_error SVJ b.
Proof. exact dup_tolerance_refuted. Qed.
Print Assumptions C14_tolerance_refuted.

Example C14_nonvacuous : remove_duplicate_vertices0 [[1;0];[0;1];[1;0];[0;0]] [[0;1;2];[3;2;1]]%nat
  = Some ([[0;0];[0;1];[1;0]], [3;1;0]%nat, [2;1;2;0]%nat, [[2;1;2];[0;2;1]]%nat).
Proof. reflexivity. Qed.
