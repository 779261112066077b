(** matrix_from_function.py.  Rows of X1, X2 are elements of any type [P]; [fun] is the vectorised callback
    (two arrays of rows of the same length to one value per row). *)
From Verif Require Import NumpyModel PyExn Vec MatModel SubdivModel.
Open Scope Z_scope.
Section MF.
  Context {P : Type}.
  (** np.kron(np.ones((k,1)), X): X stacked k times *)
  Definition kron_ones {A} (k : nat) (X : list A) : list A := concat (repeat X k).
  (** np.kron(X, np.ones((k,1))): every row k times *)
  Definition kron_rep {A} (X : list A) (k : nat) : list A := flat_map (fun x => repeat x k) X.
  (** np.linspace(0,n-1,n,dtype=int) *)
  Definition lin_idx (n : nat) : list Z := map Z.of_nat (seq 0 n).
  (** csc_matrix((vals,(I,J)),shape): lengths must agree *)
  Definition csc (vals : list R) (I J : list Z) (r c : Z) : res (list trip) :=
    if (length vals =? length I)%nat && (length I =? length J)%nat
    then csr r c (combine (combine I J) vals) else Err ValueError.
  (** K2.eliminate_zeros(): every coordinate is stored once after the duplicates were summed, and zero sums are dropped.
      Summing first is a property of csc; entries do not change, so it is modelled as the identity. *)
  Definition eliminate_zeros (M : list trip) : list trip := M.
  (** :38-60, no pattern *)
  Definition matrix_from_function (f : list P -> list P -> list R) (X1 X2 : list P) : res (list trip) :=
    let n1 := length X1 in let n2 := length X2 in
    let vals := f (kron_ones n2 X1) (kron_rep X2 n1) in
    do K <- csc vals (kron_ones n2 (lin_idx n1)) (kron_rep (lin_idx n2) n1) (Z.of_nat n1) (Z.of_nat n2);
    Ok (eliminate_zeros K).
  (** :61-62 np.reshape(vals,(n1,n2),order='F'), as the list of rows *)
  Definition reshapeF (vals : list R) (n1 n2 : nat) : res (list (list R)) :=
    if (length vals =? n1 * n2)%nat
    then Ok (map (fun i => map (fun j => nth (i + n1 * j) vals 0%R) (seq 0 n2)) (seq 0 n1)) else Err ValueError.
  Definition matrix_from_function_dense (f : list P -> list P -> list R) (X1 X2 : list P) : res (list (list R)) :=
    let n1 := length X1 in let n2 := length X2 in
    reshapeF (f (kron_ones n2 X1) (kron_rep X2 n1)) n1 n2.
  (** :40-45, :53-60 with a pattern (I,J); X1[I,:] wraps negative indices, the matrix constructor rejects them *)
  Definition matrix_from_function_pattern (f : list P -> list P -> list R) (X1 X2 : list P) (I J : list Z) : res (list trip) :=
    do A <- lift IndexError (mapO (getZ X1) I);
    do B <- lift IndexError (mapO (getZ X2) J);
    do K <- csc (f A B) I J (Z.of_nat (length X1)) (Z.of_nat (length X2));
    Ok (eliminate_zeros K).
End MF.
