(** squared_exponential_kernel.py:41-69.  Points are rows (list R), exact reals. *)
From Coq Require Import Reals Lra ZArith List Bool.
From Verif Require Import PyExn Vec SubdivModel.
Import ListNotations.
Open Scope R_scope.

(** :60, one row of r = X1 - X2 *)
Definition sek_val (r : list R) (len scale : R) : R := scale * exp (- (1/2) * dotl r r / len ^ 2).
(** :56-69, one row; r[:,i] wraps negative indices *)
Definition sek_row (x1 x2 : list R) (len scale : R) (indi indj : Z) : res R :=
  if negb (Nat.eqb (length x1) (length x2)) then Err ValueError else                       (* :44 *)
  if Req_EM_T len 0 then Err NotANumber else                                               (* :56 division by zero *)
  let r := subl x1 x2 in                                                                   (* :44 *)
  let gamma := 1 / len ^ 2 in                                                              (* :56 *)
  if (indi =? -1)%Z && (indj =? -1)%Z then Ok (sek_val r len scale)                        (* :57-60 *)
  else if (indj =? -1)%Z || (indi =? -1)%Z then                                            (* :62 *)
    do ri <- lift IndexError (getZ r (Z.max indi indj));                                   (* :64 *)
    Ok (- IZR (Z.sgn (indi - indj)) * gamma * ri * sek_val r len scale)                    (* :65-66 *)
  else
    do ri <- lift IndexError (getZ r indi);
    do rj <- lift IndexError (getZ r indj);
    Ok (((if (indi =? indj)%Z then 1 else 0) * gamma - gamma * gamma * ri * rj) * sek_val r len scale).   (* :69 *)

(** float or one length per row (:51-52) *)
Inductive len_arg := LScalar (l : R) | LVec (l : list R).
(** the arrays; broadcasting a single row against many (X1 - X2 with one row) is not modelled *)
Fixpoint sek_rows (X1 X2 : list (list R)) (L : list R) (scale : R) (indi indj : Z) : res (list R) :=
  match X1, X2, L with
  | [], [], [] => Ok []
  | x :: X1, y :: X2, l :: L => do v <- sek_row x y l scale indi indj; do vs <- sek_rows X1 X2 L scale indi indj; Ok (v :: vs)
  | _, _, _ => Err ValueError
  end.
Definition squared_exponential_kernel (X1 X2 : list (list R)) (L : len_arg) (scale : R) (indi indj : Z) : res (list R) :=
  sek_rows X1 X2 (match L with LScalar l => repeat l (length X1) | LVec l => l end) scale indi indj.
(** :45-49: one-dimensional input is a list of points on the line *)
Definition squared_exponential_kernel_1d (X1 X2 : list R) (L : len_arg) (scale : R) (indi indj : Z) : res (list R) :=
  squared_exponential_kernel (map (fun x => [x]) X1) (map (fun x => [x]) X2) L scale indi indj.
