(** bad_quad_mesh_from_quadtree.py, exact reals.  Only for a positive smallest leaf width, where remove_duplicate_vertices gets a positive epsilon. *)
From Coq Require Import List Arith ZArith Reals Bool.
From Verif Require Import PyExn NumpyModel LoopsModel RelabelModel QuadModel.
Import ListNotations.
Open Scope nat_scope.

(** the rows of signs of :48-53 and :61-70 *)
Definition signs (dim : nat) : list (list R) :=
  (if Nat.eqb dim 2 then [[-1; -1]; [-1; 1]; [1; 1]; [1; -1]]
   else [[-1; -1; -1]; [-1; 1; -1]; [1; 1; -1]; [1; -1; -1]; [-1; -1; 1]; [-1; 1; 1]; [1; 1; 1]; [1; -1; 1]])%R.
(** C + 0.5*W*sign, one row *)
Definition offset_row (c : list R) (w : R) (s : list R) : list R := map (fun p => fst p + 0.5 * w * snd p)%R (combine c s).
(** is_child = (CH[:,1]==-1) :42 *)
Definition is_child (T : qtree) (i : nat) : bool := Z.eqb (nth 1 (nth i (qCH T) []) 0%Z) (-1).
Definition leaves (T : qtree) : list nat := filter (is_child T) (seq 0 (length (qCH T))).
(** columns of the quads of an octree :73-80 *)
Definition quad_cols : list (list nat) := [[0; 1; 2; 3]; [4; 5; 6; 7]; [2; 1; 5; 6]; [3; 0; 4; 7]; [1; 0; 4; 5]; [3; 2; 6; 7]].
(** np.amin *)
Definition minR (l : list R) : res R := match l with [] => Err ValueError | x :: r => Ok (fold_left Rmin r x) end.
(** :40-84; in two dimensions H is None and SVJ[None] is SVJ with a new first axis *)
Definition bad_quad_mesh_from_quadtree (dim : nat) (T : qtree) : res (list (list R) * list (list nat) * list (list nat)) :=
  let ls := leaves T in let n := length ls in
  let V := flat_map (fun s => map (fun i => offset_row (nth i (qC T) []) (nth i (qW T) 0%R) s) ls) (signs dim) in
  let hexes := map (fun q => map (fun k => q + k * n) (seq 0 8)) (seq 0 n) in
  let Q := if Nat.eqb dim 2 then map (fun q => [q; q + n; q + 2 * n; q + 3 * n]) (seq 0 n)
           else flat_map (fun cols => map (fun q => map (fun k => q + k * n) cols) (seq 0 n)) quad_cols in
  do w <- minR (map (fun i => nth i (qW T) 0%R) ls);
  match remove_duplicate_vertices_eps V (w / 100)%R Q with
  | None => Err IndexError
  | Some (SV, _, SVJ, Q') =>
    if Nat.eqb dim 2 then Ok (SV, Q', [SVJ])
    else match gather2 SVJ hexes with None => Err IndexError | Some H => Ok (SV, Q', H) end
  end.
