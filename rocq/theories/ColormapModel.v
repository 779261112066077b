(** apply_colormap.py:59-85, with scipy.interpolate.interp1d (kinds 'linear' and 'nearest', bounds_error) and numpy's round.
    Exact reals; C is its list of rows.  Float rounding of np.logspace's end points is not modelled. *)
From Coq Require Import Reals Lra ZArith List Bool.
From Verif Require Import PyExn Vec.
Import ListNotations.
Open Scope R_scope.

Definition eps : R := / 2 ^ 52.
Fixpoint amin (x : R) (l : list R) : R := match l with [] => x | y :: r => Rmin x (amin y r) end.
Fixpoint amax (x : R) (l : list R) : R := match l with [] => x | y :: r => Rmax x (amax y r) end.
Definition amin0 (l : list R) : res R := match l with [] => Err ValueError | x :: r => Ok (amin x r) end.
Definition amax0 (l : list R) : res R := match l with [] => Err ValueError | x :: r => Ok (amax x r) end.
(** :67-73 *)
Definition resolve_range (f : list R) (mn mx : option R) (log : bool) : res (R * R) :=
  do minimum <- match mn with None => amin0 f | Some m => Ok m end;
  let minimum := if log then if Rlt_dec minimum eps then eps else minimum else minimum in
  do maximum <- match mx with None => amax0 f | Some m => Ok m end;
  if Rlt_dec maximum minimum then Err AssertionError
  else let maximum := if Rlt_dec maximum (minimum + eps) then minimum + eps else maximum in
  Ok (minimum, maximum).
Definition log2 (x : R) : R := ln x / ln 2.
(** np.linspace(a,b,n)[i], :81, and np.logspace(log2 a, log2 b, n, base=2)[i], :78-79 *)
Definition lin_at (a b : R) (n i : nat) : R := a + INR i * ((b - a) / INR (n - 1)).
Definition axis_at (log : bool) (a b : R) (n i : nat) : R :=
  if log then Rpower 2 (lin_at (log2 a) (log2 b) n i) else lin_at a b n i.
Definition axis (log : bool) (a b : R) (n : nat) : list R := map (axis_at log a b n) (seq 0 n).
(** np.searchsorted(xs, v, side='left') on a sorted array *)
Fixpoint searchsorted (xs : list R) (v : R) : nat :=
  match xs with [] => 0%nat | x :: r => if Rlt_dec x v then S (searchsorted r v) else 0%nat end.
Definition clip_nat (lo hi k : nat) : nat := Nat.min hi (Nat.max lo k).
(** interp1d._call_linear *)
Definition call_linear (xs : list R) (C : list (list R)) (v : R) : list R :=
  let k := clip_nat 1 (length xs - 1) (searchsorted xs v) in
  let xlo := nth (k - 1) xs 0 in let xhi := nth k xs 0 in
  map (fun p => (snd p - fst p) / (xhi - xlo) * (v - xlo) + fst p) (combine (nth (k - 1) C []) (nth k C [])).
(** interp1d._call_nearest: midpoints, half rounds down *)
Fixpoint midpoints (xs : list R) : list R := match xs with x :: ((y :: _) as r) => (y / 2 + x / 2) :: midpoints r | _ => [] end.
Definition call_nearest (xs : list R) (C : list (list R)) (v : R) : list R :=
  nth (clip_nat 0 (length xs - 1) (searchsorted (midpoints xs) v)) C [].
Definition interp (piecewise_linear : bool) (xs : list R) (C : list (list R)) (v : R) : res (list R) :=
  if Rlt_dec v (nth 0 xs 0) then Err ValueError
  else if Rlt_dec (nth (length xs - 1) xs 0) v then Err ValueError
  else Ok (if piecewise_linear then call_linear xs C v else call_nearest xs C v).
(** ndarray.round(): nearest integer, ties to even *)
Definition rne (x : R) : Z :=
  let k := Int_part (x + 1/2) in
  if Req_EM_T (IZR k) (x + 1/2) then if Z.even k then k else (k - 1)%Z else k.
Fixpoint mapR {A B} (g : A -> res B) (l : list A) : res (list B) :=
  match l with [] => Ok [] | a :: r => do x <- g a; do y <- mapR g r; Ok (x :: y) end.
(** :59-85 *)
Definition apply_colormap (C : list (list R)) (f : list R) (mn mx : option R) (log piecewise_linear : bool) : res (list (list R)) :=
  if Nat.eqb (length C) 0 then Err AssertionError                                         (* :59 *)
  else if negb (forallb (fun r => Nat.eqb (length r) 3) C) then Err AssertionError        (* :60 *)
  else if Nat.eqb (length C) 1 then Ok (repeat (nth 0 C []) (length f))                   (* :62-63 *)
  else do (minimum, maximum) <- resolve_range f mn mx log;
  let f := map (fun v => Rmin (Rmax v minimum) maximum) f in                              (* :75 *)
  let xaxis := axis log minimum maximum (length C) in                                     (* :77-81 *)
  do out <- mapR (interp piecewise_linear xaxis C) f;                                     (* :83-85 *)
  Ok (map (map (fun x => IZR (rne x))) out).
