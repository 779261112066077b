(** Sparse matrices as built by [scipy.sparse.csr_matrix((data,(i,j)),shape)]:
    lists of (row, column, value) triplets; duplicates add up.  Real numbers are
    exact (floating point rounding is not modelled). *)
From Coq Require Export List Arith ZArith Lia Bool Reals Lra.
From Verif Require Export PyExn.
Export ListNotations.

(** sum of [f] over a list *)
Fixpoint sumf {A} (f : A -> R) (l : list A) : R :=
  match l with [] => 0%R | x :: r => (f x + sumf f r)%R end.
(** sum over 0..n-1 *)
Definition sumn (n : nat) (f : nat -> R) : R := sumf f (seq 0 n).

Definition trip := (Z * Z * R)%type.
Definition trow (t : trip) : Z := fst (fst t).
Definition tcol (t : trip) : Z := snd (fst t).
Definition tval (t : trip) : R := snd t.

(** shape check performed by scipy when the indices are handed over *)
Definition in_shape (rows cols : Z) (t : trip) : bool :=
  (0 <=? trow t)%Z && (trow t <? rows)%Z && (0 <=? tcol t)%Z && (tcol t <? cols)%Z.
Definition csr (rows cols : Z) (l : list trip) : res (list trip) :=
  if forallb (in_shape rows cols) l then Ok l else Err ValueError.

(** entry (i,j) of the matrix *)
Definition entry (M : list trip) (i j : Z) : R :=
  sumf (fun t => if (trow t =? i)%Z && (tcol t =? j)%Z then tval t else 0%R) M.

(** matrix-vector product, row i: sum over columns 0..n-1 *)
Definition mulv (n : nat) (M : list trip) (x : Z -> R) (i : Z) : R :=
  sumn n (fun j => (entry M i (Z.of_nat j) * x (Z.of_nat j))%R).
(** matrix product *)
Definition matmul (n : nat) (A B : list trip) (i j : Z) : R :=
  sumn n (fun k => (entry A i (Z.of_nat k) * entry B (Z.of_nat k) j)%R).
(** quadratic form x' M x *)
Definition quadform (n : nat) (M : list trip) (x : Z -> R) : R :=
  sumn n (fun i => (x (Z.of_nat i) * mulv n M x (Z.of_nat i))%R).
