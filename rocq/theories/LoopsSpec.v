(** Specification vocabulary for boundary loops (independent of the code). *)
From Verif Require Import NumpyModel TopoSpec.
Open Scope Z_scope.

(** consecutive pairs of a cyclic vertex sequence, the closing pair included *)
Definition cyc_pairs (l : list Z) : list (Z * Z) :=
  match l with [] => [] | x :: r => combine l (r ++ [x]) end.

(** no vertex has two outgoing boundary sides *)
Definition simple_boundary (F : list (Z * Z * Z)) : Prop :=
  forall e f, In e (all_sides F) -> In f (all_sides F) -> incidence F e = 1%nat -> incidence F f = 1%nat ->
    fst e = fst f -> e = f.
