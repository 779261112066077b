(** quadtree_laplacian.py:72-174, quadtree_gradient.py:74-181.  Exact reals.
    A division whose denominator is zero is an error here: in the gradient it is Python's ZeroDivisionError when no neighbour
    was found along an axis (both lengths are the integer 0); numpy would return inf/nan for cells of width zero. *)
From Coq Require Import List Arith ZArith Reals Bool.
From Verif Require Import PyExn LoopsModel QuadModel.
Import ListNotations.

(** children = np.nonzero(CH[:,1]==-1)[0] (:76) *)
Definition leaves (T : qtree) : list nat := filter (is_leaf T) (seq 0 (qn T)).
(** cell_to_children (:78-79) *)
Definition c2c (T : qtree) (m : nat) : Z := if is_leaf T m then Z.of_nat (length (filter (is_leaf T) (seq 0 m))) else (-1)%Z.
(** np.argmax(depths): the first of the deepest (:104) *)
Fixpoint first_deepest (T : qtree) (best : nat) (l : list nat) : nat :=
  match l with [] => best | m :: r => first_deepest T (if Nat.ltb (nth best (qD T) 0%nat) (nth m (qD T) 0%nat) then m else best) r end.
(** the body of the loop over directions (:101-136): the length l[j] and the cells with their weights; None if there is no neighbour *)
Definition dir_nb (T : qtree) (c : nat) (j : Z) : res (option (R * list (nat * R))) :=
  let wd i := nth i (qW T) 0%R in
  let dp i := nth i (qD T) 0%nat in
  let js := filter (fun m => (qA T c m =? j)%Z) (seq 0 (qn T)) in
  match js with
  | [] => Ok None
  | m0 :: r =>
    let m := first_deepest T m0 r in
    if Nat.leb (dp m) (dp c) then
      if (0 <=? c2c T m)%Z then Ok (Some (((wd c + wd m) / 2.0)%R, [(m, 1.0%R)])) else Err AssertionError                  (* :110-118 *)
    else
      match filter (fun m => Nat.eqb (dp m) (dp c + 1)) js with                                                        (* :122-134 *)
      | [a; b] => if is_leaf T a && is_leaf T b then Ok (Some (((wd c + wd b) / 2.0)%R, [(a, 0.5%R); (b, 0.5%R)])) else Err AssertionError
      | _ => Err AssertionError
      end
  end.
Definition len_of (x : option (R * list (nat * R))) : R := match x with Some (l, _) => l | None => 0%R end.
Definition cells_of (x : option (R * list (nat * R))) : list (nat * R) := match x with Some (_, l) => l | None => [] end.
Definition isz (x : R) : bool := if Req_EM_T x 0 then true else false.
Definition rdiv (e : exn) (a b : R) : res R := if isz b then Err e else Ok (a / b)%R.

(** the entries of the direction with length [l], opposite length [lo] (:141-161) *)
Definition lap_entries (T : qtree) (i : nat) (x : option (R * list (nat * R))) (lopp : R) : res (list (nat * Z * R)) :=
  let l := len_of x in
  mapE (fun mw => do v <- rdiv NotANumber (- snd mw) (l * (l + (if isz lopp then l else lopp)))%R; Ok (i, c2c T (fst mw), v)) (cells_of x).
Definition lap_row (dim : nat) (T : qtree) (ic : nat * nat) : res (list (nat * Z * R)) :=
  let (i, c) := ic in
  do x1 <- dir_nb T c 1; do x2 <- dir_nb T c 2; do x3 <- dir_nb T c 3; do x4 <- dir_nb T c 4;
  do _ <- (if Nat.eqb dim 3 then                                                        (* l has five entries: l[5], l[6] do not exist (:90, :111, :126) *)
             do x5 <- dir_nb T c 5; do x6 <- dir_nb T c 6;
             match x5, x6 with None, None => Ok tt | _, _ => Err IndexError end
           else Ok tt);
  do e1 <- lap_entries T i x1 (len_of x2); do e2 <- lap_entries T i x2 (len_of x1);
  do e3 <- lap_entries T i x3 (len_of x4); do e4 <- lap_entries T i x4 (len_of x3);
  Ok (e1 ++ e2 ++ e3 ++ e4).
(** csr_matrix((vals,(I,J))): duplicates add up *)
Definition sum_at (tr : list (nat * Z * R)) (i j : nat) : R :=
  fold_right (fun e s => ((if Nat.eqb (fst (fst e)) i && (snd (fst e) =? Z.of_nat j)%Z then snd e else 0) + s)%R) 0%R tr.
Definition rsum (f : nat -> R) (n : nat) : R := fold_right (fun j s => (f j + s)%R) 0%R (seq 0 n).
(** the result: number of rows, number of columns, entries *)
Definition quadtree_laplacian (dim : nat) (T : qtree) : res (nat * (nat -> nat -> R)) :=
  let ch := leaves T in
  let nc := length ch in
  do rows <- mapE (lap_row dim T) (combine (seq 0 nc) ch);
  let L0 i j := (-2 * sum_at (concat rows) i j)%R in                                    (* :171 *)
  if Nat.eqb nc 1 then Err TypeError                                                    (* :172, diags of a 0-d array *)
  else Ok (nc, fun i j => (L0 i j - (if Nat.eqb i j then rsum (L0 i) nc else 0))%R).

(** quadtree_gradient.py:141-166; the row of an x derivative is i, of a y derivative nc + i *)
Definition grad_entries (T : qtree) (row i : nat) (x : option (R * list (nat * R))) (sign den : R) : res (list (nat * Z * R)) :=
  let cells := map (fun mw => (c2c T (fst mw), snd mw)) (cells_of x) ++ (if isz (len_of x) then [(Z.of_nat i, 1.0%R)] else []) in
  mapE (fun mw => do v <- rdiv ZeroDivisionError (sign * snd mw)%R den; Ok (row, fst mw, v)) cells.
Definition grad_row (T : qtree) (nc : nat) (ic : nat * nat) : res (list (nat * Z * R)) :=
  let (i, c) := ic in
  do x1 <- dir_nb T c 1; do x2 <- dir_nb T c 2; do x3 <- dir_nb T c 3; do x4 <- dir_nb T c 4;
  let dx := (len_of x1 + len_of x2)%R in let dy := (len_of x3 + len_of x4)%R in
  do e1 <- grad_entries T i i x1 (-1) dx; do e2 <- grad_entries T i i x2 1 dx;
  do e3 <- grad_entries T (nc + i) i x3 (-1) dy; do e4 <- grad_entries T (nc + i) i x4 1 dy;
  Ok (e1 ++ e2 ++ e3 ++ e4).
Definition quadtree_gradient (T : qtree) : res (nat * nat * (nat -> nat -> R)) :=
  let ch := leaves T in
  let nc := length ch in
  do rows <- mapE (grad_row T nc) (combine (seq 0 nc) ch);
  Ok ((2 * nc)%nat, nc, sum_at (concat rows)).
