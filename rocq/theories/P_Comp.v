(** C10: adjacency_matrix, connected_components.  Vocabulary: CompSpec.v, TopoSpec.v; code: CompModel.v *)
From Verif Require Import NumpyModel PyExn TopoModel TopoSpec CompModel CompSpec CompProofs.
Open Scope Z_scope.

Theorem C10_adjacency : forall F, F <> [] -> (forall t, In t F -> 0 <= fst (fst t) /\ 0 <= snd (fst t) /\ 0 <= snd t) ->
  exists n l, adjacency_matrix3 F = Ok (n, l)
  /\ (forall p, In p l -> 0 <= fst p < n /\ 0 <= snd p < n)
  /\ (forall i j, aentry (n,l) i j = aentry (n,l) j i)
  /\ (forall i j, aentry (n,l) i j <> 0 <-> edge_of F i j)
  /\ (forall i j, i <> j -> edge_of F i j -> aentry (n,l) i j = 1)
  /\ (forall t, In t F -> fst (fst t) < n /\ snd (fst t) < n /\ snd t < n)
  /\ (exists t, In t F /\ (fst (fst t) = n - 1 \/ snd (fst t) = n - 1 \/ snd t = n - 1)).
Proof. exact adjacency3_ok. Qed.
Print Assumptions C10_adjacency.

(** for every correct graph routine [cc] *)
Theorem C10_components : forall cc F, csgraph_ok cc -> F <> [] ->
  (forall t, In t F -> 0 <= fst (fst t) /\ 0 <= snd (fst t) /\ 0 <= snd t) ->
  exists C CF n, connected_components cc F = Ok (C, CF)
   /\ (exists t, In t F /\ (fst (fst t) = n - 1 \/ snd (fst t) = n - 1 \/ snd t = n - 1))
   /\ (forall t, In t F -> fst (fst t) < n /\ snd (fst t) < n /\ snd t < n)
   /\ length C = Z.to_nat n /\ length CF = length F
   /\ (forall u v, 0 <= u < n -> 0 <= v < n ->
        (nth_error C (Z.to_nat u) = nth_error C (Z.to_nat v) <-> linked F u v))
   /\ (forall f t, nth_error F f = Some t -> forall v, v = fst (fst t) \/ v = snd (fst t) \/ v = snd t ->
        nth_error CF f = nth_error C (Z.to_nat v)).
Proof. exact connected_components_ok. Qed.
Print Assumptions C10_components.
Theorem C10_empty : forall cc, connected_components cc [] = Ok ([], []).
Proof. reflexivity. Qed.
Print Assumptions C10_empty.
(** the assumed contract is met by an explicit algorithm *)
Theorem C10_contract_satisfiable : exists cc, csgraph_ok cc.
Proof. exact (ex_intro _ _ components_by_edges_ok). Qed.
Print Assumptions C10_contract_satisfiable.
(** adjacency_matrix of an empty mesh raises: csr_matrix() needs an argument (adjacency_matrix.py:29) *)
Theorem C60_adjacency_empty_refuted : adjacency_matrix3 [] = Err TypeError /\ adjacency_matrix2 [] = Err TypeError.
Proof. split; reflexivity. Qed.
Print Assumptions C60_adjacency_empty_refuted.
Example C10_nonvacuous : connected_components components_by_edges [(0,1,2);(3,4,5);(2,1,6)] = Ok ([2;2;2;5;5;5;2], [2;5;2]).
Proof. vm_compute. reflexivity. Qed.
