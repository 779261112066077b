(** point_cloud_to_mesh.py:57-91, binding_point_cloud_to_mesh.cpp:18-73 and point_cloud_to_mesh.cpp:107-197 over exact reals.  A matrix is its number of columns and its rows.
    The Poisson solver (PoissonRecon: lines 169-187) is the parameter [psr]: dimension, Dirichlet?, screening weight, depth, the oriented points -> vertices and faces.  The number of threads
    and verbose are not modelled.  Only the branch oded_scaling = true (line 144) exists at run time. *)
From Coq Require Import Reals ZArith List Bool String.
Import ListNotations.
Open Scope R_scope.

(** the numpy arrays P and N, point_cloud_to_mesh.py:57-61 *)
Record matrix := { cols : nat; rows : list (list R) }.
Definition point := list R.
Inductive result := Raises | Mesh (V : list point) (F : list (list nat)).
(** point_cloud_to_mesh.cpp:151-152, 159: minCoeff, maxCoeff *)
Definition least (l : list R) : R := match l with [] => 0 | a :: r => fold_left Rmin r a end.
Definition most (l : list R) : R := match l with [] => 0 | a :: r => fold_left Rmax r a end.
Section Psr.
Variable psr : nat -> bool -> R -> Z -> list (point * point) -> list point * list (list nat).
Section Scaling.
Variable dim : nat.
Variable P : list point.
Definition column (j : nat) : list R := map (fun r => nth j r 0) P.
(** :151-158 (trans is mins): entry j *)
Definition tdif (j : nat) : R := most (column j) - least (column j) + 1 / 1000000.
Definition mins (j : nat) : R := least (column j) - 11 / 10 * tdif j - 1 / 1000000.
Definition maxs (j : nat) : R := most (column j) + 11 / 10 * tdif j + 1 / 1000000.
(** :159 *)
Definition scale : R := most (map (fun j => maxs j - mins j) (seq 0 dim)).
(** :160 *)
Definition into (r : point) : point := map (fun j => (nth j r 0 - mins j) / scale) (seq 0 dim).
(** :191 *)
Definition back (v : point) : point := map (fun j => nth j v 0 * scale + mins j) (seq 0 dim).
End Scaling.
(** point_cloud_to_mesh.cpp:107-197 *)
Definition reconstruct (dim : nat) (dirichlet : bool) (P N : list point) (weight : R) (depth : Z) : result :=
  let '(V, F) := psr dim dirichlet weight depth (combine (map (into dim P) P) N) in Mesh (map (back dim P) V) F.
(** binding_point_cloud_to_mesh.cpp:33-71 *)
Definition dirichlet (s : string) : bool := String.eqb s "Dirichlet" || String.eqb s "dirichlet".
(** point_cloud_to_mesh.py:57-91 *)
Definition point_cloud_to_mesh (P N : matrix) (method : string) (weight : R) (depth : Z) (boundary : string) : result :=
  if negb (Nat.eqb (cols P) (cols N) && Nat.eqb (List.length (rows P)) (List.length (rows N))) then Raises
  else if negb (Nat.ltb 1 (List.length (rows P))) then Raises
  else if negb (Nat.eqb (cols P) 2 || Nat.eqb (cols P) 3) then Raises
  else if negb (String.eqb method "PSR") then Raises
  else if negb (Z.ltb 0 depth) then Raises
  else if Rle_dec 0 weight then reconstruct (cols P) (dirichlet boundary) (rows P) (rows N) weight (Z.min 12 depth)
  else Raises.
End Psr.
