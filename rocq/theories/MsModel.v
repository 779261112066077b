(** marching_squares.py:57-203.  Exact reals. *)
From Coq Require Import List Arith ZArith Reals Lra Bool.
From Verif Require Import PyExn NumpyModel RelabelModel.
Import ListNotations.
Open Scope R_scope.

(** np.reshape(S,(nx,ny),order='F') :57 *)
Definition reshapeF (S : list R) (nx ny : nat) : res (nat -> nat -> R) :=
  if Nat.eqb (length S) (nx * ny) then Ok (fun i j => nth (i + nx * j) S 0) else Err ValueError.

Definition pos (x : R) : bool := if Rgt_dec x 0 then true else false.
(** the contour index k and the flip of :70-83 *)
Definition kindex (a b c d : R) : nat := ((if pos a then 1 else 0) + (if pos b then 2 else 0) + (if pos c then 4 else 0) + (if pos d then 8 else 0))%nat.

(** one cell :65-178: the appended vertices and the appended edges (indices relative to the first appended vertex) *)
Definition ms_cell (i j a b c d : R) : list (list R) * list (nat * nat) :=
  let k0 := kindex a b c d in
  let flip := Nat.ltb 7 k0 in
  let k := if flip then (15 - k0)%nat else k0 in
  let bottom := [i - a / (b - a); j] in
  let left := [i; j - a / (d - a)] in
  let right := [i + 1; j - b / (c - b)] in
  let top := [i - d / (c - d); j + 1] in
  match k with
  | 1%nat => ([bottom; left], [if flip then (0, 1)%nat else (1, 0)%nat])                (* :86-98 *)
  | 2%nat => ([bottom; right], [if flip then (1, 0)%nat else (0, 1)%nat])               (* :99-110 *)
  | 3%nat => ([left; right], [if flip then (1, 0)%nat else (0, 1)%nat])                 (* :111-121 *)
  | 4%nat => ([right; top], [if flip then (1, 0)%nat else (0, 1)%nat])                  (* :122-132 *)
  | 5%nat => ([bottom; left; right; top],                                               (* :133-154 *)
              [(if flip then (0, 1)%nat else (1, 0)%nat); (if flip then (3, 2)%nat else (2, 3)%nat)])
  | 6%nat => ([bottom; top], [if flip then (1, 0)%nat else (0, 1)%nat])                 (* :155-165 *)
  | 7%nat => ([top; left], [if flip then (0, 1)%nat else (1, 0)%nat])                   (* :166-176 *)
  | _ => ([], [])                                                                       (* :177-178 *)
  end.

(** the two loops :62-178 *)
Definition ms_append (st cell : list (list R) * list (nat * nat)) : list (list R) * list (nat * nat) :=
  let n := length (fst st) in
  (fst st ++ fst cell, snd st ++ map (fun e => (n + fst e, n + snd e)%nat) (snd cell)).
Definition ms_cells (S : nat -> nat -> R) (nx ny : nat) : list (list (list R) * list (nat * nat)) :=
  flat_map (fun i => map (fun j => ms_cell (INR i) (INR j) (S i j) (S (i + 1)%nat j) (S (i + 1)%nat (j + 1)%nat) (S i (j + 1)%nat)) (seq 0 (ny - 1))) (seq 0 (nx - 1)).
Definition ms_raw (S : nat -> nat -> R) (nx ny : nat) : list (list R) * list (nat * nat) :=
  fold_left ms_append (ms_cells S nx ny) ([], []).

(** np.sqrt(np.finfo(float64).eps) = 2^-26 *)
Definition sqrt_eps : R := / 2 ^ 26.
(** GV.min(axis=0), GV.max(axis=0) *)
Definition col_ext (f : R -> R -> R) (GV : list (R * R)) : res (R * R) :=
  match GV with [] => Err ValueError | p :: r => Ok (fold_left f (map fst r) (fst p), fold_left f (map snd r) (snd p)) end.
Definition rescale (nx ny : nat) (lo hi : R * R) (v : list R) : list R :=               (* :199-201 *)
  [nth 0 v 0 / INR (nx - 1) * (fst hi - fst lo) + fst lo; nth 1 v 0 / INR (ny - 1) * (snd hi - snd lo) + snd lo].
Definition marching_squares (Sf : list R) (GV : list (R * R)) (nx ny : nat) : res (list (list R) * list (nat * nat)) :=
  do Sg <- reshapeF Sf nx ny;
  let (verts, edges) := ms_raw Sg nx ny in
  match verts with
  | [] => Ok ([], edges)                                                                (* :185-187 *)
  | _ =>
    do r <- lift IndexError (remove_duplicate_vertices_eps verts sqrt_eps (map (fun e => [fst e; snd e]) edges));   (* :189-190 *)
    let '(SV, _, _, G) := r in
    let E := filter (fun e => negb (Nat.eqb (fst e) (snd e))) (map (fun f => (nth 0 f 0%nat, nth 1 f 0%nat)) G) in   (* :193 *)
    do lo <- col_ext Rmin GV; do hi <- col_ext Rmax GV;
    Ok (map (rescale nx ny lo hi) SV, E)
  end.
