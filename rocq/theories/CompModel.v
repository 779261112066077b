(** adjacency_matrix.py, connected_components.py *)
From Verif Require Import NumpyModel PyExn TopoModel.
Open Scope Z_scope.

(** An integer csr matrix built from ones: dimension and the list of (row, col) pairs; repeated
    pairs add up. *)
Definition amat := (Z * list (Z * Z))%type.
Definition aentry (A : amat) (i j : Z) : Z :=
  Z.of_nat (length (filter (fun p => (fst p =? i) && (snd p =? j)) (snd A))).
(** sp.sparse.csr_matrix((ones,(I,J)),shape=(n,n)): indices out of range raise *)
Definition acsr (n : Z) (l : list (Z * Z)) : res amat :=
  if forallb (fun p => (0 <=? fst p) && (fst p <? n) && (0 <=? snd p) && (snd p <? n)) l
  then Ok (n, l) else Err ValueError.
(** adjacency_matrix.py:37-44 given the edge list E; np.max of the non-empty E *)
Definition max_of (l : list Z) : Z := match l with [] => 0 | x :: r => fold_left Z.max r x end.
Definition adjacency_of_edges (E : list edge) : res amat :=
  let n := max_of (map fst E ++ map snd E) + 1 in
  acsr n (combine (map fst E ++ map snd E) (map snd E ++ map fst E)).
(** adjacency_matrix.py:28-31 edge list input ([csr_matrix()] without argument raises TypeError) *)
Definition adjacency_matrix2 (E : list edge) : res amat :=
  match E with [] => Err TypeError | _ => adjacency_of_edges E end.
(** adjacency_matrix.py:28-29, 32-33 triangle list input *)
Definition adjacency_matrix3 (F : list tri) : res amat :=
  match edges F with
  | None => Err TypeError
  | Some (E, _, _, _) => adjacency_of_edges E
  end.

(** connected_components.py:33-46.  [cc] is scipy.sparse.csgraph.connected_components (labels part),
    a library routine left abstract; its contract is CompSpec.csgraph_ok. *)
Definition connected_components (cc : amat -> list Z) (F : list tri) : res (list Z * list Z) :=
  match F with
  | [] => Ok ([], [])
  | _ =>
    do A <- adjacency_matrix3 F;
    let C := cc A in
    do CF <- lift IndexError (gather C (map (fun t => Z.to_nat (fst (fst t))) F));
    Ok (C, CF)
  end.
