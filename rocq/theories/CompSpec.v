(** Specification vocabulary for C10 *)
From Verif Require Import NumpyModel TopoSpec CompModel.
From Coq Require Import Relations.
Open Scope Z_scope.

(** u, v are joined by a path of mesh edges (possibly empty) *)
Definition edge_of (F : list (Z*Z*Z)) (u v : Z) : Prop := In (u, v) (all_sides F) \/ In (v, u) (all_sides F).
Definition linked (F : list (Z*Z*Z)) : Z -> Z -> Prop := clos_refl_trans Z (edge_of F).

(** the contract of scipy's connected_components: one label per row, equal labels iff the two
    indices are connected through non-zero entries (taken in either direction) *)
Definition nonzero_link (A : amat) (i j : Z) : Prop := aentry A i j <> 0 \/ aentry A j i <> 0.
Definition csgraph_ok (cc : amat -> list Z) : Prop :=
  forall n l, 0 <= n -> (forall p, In p l -> 0 <= fst p < n /\ 0 <= snd p < n) ->
   length (cc (n, l)) = Z.to_nat n /\
   forall i j, 0 <= i < n -> 0 <= j < n ->
    (nth_error (cc (n, l)) (Z.to_nat i) = nth_error (cc (n, l)) (Z.to_nat j)
     <-> clos_refl_trans Z (nonzero_link (n, l)) i j).
