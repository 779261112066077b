(** gaussian_process.py.  Kernels are vectorised callbacks taking derivative indices and two arrays of points; matrices
    as in ElastModel.v; exact reals.  splu (a factorisation: raises or returns a solve function) and cg (a solve) are parameters. *)
From Coq Require Import Reals Lra ZArith List Bool.
From Verif Require Import NumpyModel PyExn Vec MatModel MatFunModel ElastModel SolveModel SqExpModel.
Import ListNotations.
Open Scope R_scope.

Notation point := (list R) (only parsing).
Definition kern := Z -> Z -> list (list R) -> list (list R) -> list R.
Definition cg_t := nat -> matrix -> (nat -> R) -> nat -> R.

(** the default kernel :149 with its default length and scale (squared_exponential_kernel.py:3); a row on which it would raise counts as 0 here *)
Definition sek_kernel (len scale : R) : kern :=
  fun i j A B => map (fun p => match sek_row (fst p) (snd p) len scale i j with Ok v => v | Err _ => 0 end) (combine A B).
Definition default_kernel : kern := sek_kernel (2/10) 1.

(** Euclidean distance used by KDTree *)
Definition edist (x y : list R) : R := sqrt (dotl (subl x y) (subl x y)).
(** :306-314: point_tree.query_ball_point(X1, r): for each row of X1 the rows of X2 within r, as index lists *)
Definition ball_pattern (X1 X2 : list (list R)) (r : R) : list (Z * Z) :=
  flat_map (fun p => map (fun q => (fst p, fst q)) (filter (fun q => if Rle_dec (edist (snd p) (snd q)) r then true else false) (combine (lin_idx (length X2)) X2)))
    (combine (lin_idx (length X1)) X1).
Fixpoint hstackL (l : list mat) : res mat := match l with [] => Err ValueError | [a] => Ok a | a :: r => do b <- hstackL r; hstack2 a b end.
Fixpoint vstackL (l : list mat) : res mat := match l with [] => Err ValueError | [a] => Ok a | a :: r => do b <- vstackL r; vstack2 a b end.
Fixpoint mapE {A B} (f : A -> res B) (l : list A) : res (list B) := match l with [] => Ok [] | a :: r => do b <- f a; do bs <- mapE f r; Ok (b :: bs) end.
(** cov_matrix_from_function :302-331.  dim = X1.shape[1] *)
Definition cov_matrix (ker : kern) (dim : nat) (X1 X2 : list (list R)) (grads : bool) (support : option R) : res mat :=
  let n1 := length X1 in let n2 := length X2 in
  if grads then                                                                            (* :317-329 the pattern is not used *)
    do rows <- mapE (fun i => do ms <- mapE (fun j => do M <- matrix_from_function (ker (Z.of_nat i - 1)%Z (Z.of_nat j - 1)%Z) X1 X2; Ok (of_trips n1 n2 M)) (seq 0 (dim + 1)); hstackL ms) (seq 0 (dim + 1));
    vstackL rows
  else match support with
  | None => do M <- matrix_from_function (ker (-1)%Z (-1)%Z) X1 X2; Ok (of_trips n1 n2 M)  (* :331 *)
  | Some r => let P := ball_pattern X1 X2 r in
      do M <- matrix_from_function_pattern (ker (-1)%Z (-1)%Z) X1 X2 (map fst P) (map snd P); Ok (of_trips n1 n2 M)
  end.

(** :155-173: bisection for the support along the diagonal from 0 to (1,..,1); x1, x2 are multiples of (1,..,1) *)
Definition tenth_micro : R := 1 / 10 ^ 10.                                                 (* 1e-10 *)
Fixpoint bisect (ker : kern) (dim n : nat) (x1 x2 : R) : R :=
  match n with
  | O => x2
  | S n => let mid := 1/2 * (x1 + x2) in
      if Rlt_dec tenth_micro (nth 0 (ker (-1)%Z (-1)%Z [repeat 0 dim] [repeat mid dim]) 0) then bisect ker dim n mid x2 else bisect ker dim n x1 mid
  end.
Definition find_support (ker : kern) (dim : nat) : R := bisect ker dim 10 0 1.

(** the trained object *)
Inductive gp_state :=
| Plain (LU : (nat -> R) -> nat -> R) (K3_inv_y : nat -> R)
| Induced (X_induced : list (list R)) (Kmm : mat) (sigma_LU LU : (nat -> R) -> nat -> R) (Kmm_inv_mu_m : nat -> R).
Record gp := mkgp { g_ker : kern; g_dim : nat; g_grads : bool; g_support : option R; g_X : list (list R); g_state : gp_state }.

(** grad_y_train.flatten('F') :142 *)
Definition flattenF (dim : nat) (G : list (list R)) : list R := flat_map (fun c => map (fun r => nth c r 0) G) (seq 0 dim).
Definition mvec (M : mat) (x : nat -> R) : nat -> R := fun i => sumn (nc M) (fun j => at_ M i j * x j).
Definition add_noise (K : mat) (s : R) : matrix := fun i j => at_ K i j + (if Nat.eqb i j then s ^ 2 else 0).   (* K + sigma^2 eye *)
(** __init__ :133-215.  dim = X_train.shape[1] *)
Definition gp_train (splu : solver_t) (cg : cg_t) (X : list (list R)) (dim : nat) (y : list R) (kernel : option kern) (X_induced : option (list (list R)))
  (grad_y : option (list (list R))) (sigma : R) (lump compact : bool) : res gp :=
  if negb (Nat.eqb (length X) (length y)) then Err AssertionError else                     (* :138 *)
  let grads := match grad_y with Some _ => true | None => false end in                     (* :139-141 *)
  let ys := match grad_y with Some G => y ++ flattenF dim G | None => y end in             (* :142-143 *)
  let ker := match kernel with None => default_kernel | Some k => k end in                 (* :148-152 *)
  let compact := match kernel with None => false | Some _ => compact end in                (* :150 *)
  let support := if compact then Some (find_support ker dim) else None in                  (* :154-173 *)
  match X_induced with
  | Some Xm =>
      if Rle_dec sigma 0 then Err AssertionError else                                      (* :185 *)
      do Kmm <- cov_matrix ker dim Xm Xm grads None;                                       (* :187 *)
      do Kmn <- cov_matrix ker dim Xm X grads None;                                        (* :188 *)
      do KK <- mul Kmn (transpose Kmn);
      let SI : matrix := fun i j => at_ Kmm i j + 1 / sigma ^ 2 * at_ KK i j in            (* :189 *)
      let m := nr Kmm in
      do sLU <- splu m SI;                                                                 (* :191 *)
      if negb (Nat.eqb (nc Kmn) (length ys)) then Err ValueError else
      let mu := fun i => 1 / sigma ^ 2 * mvec Kmm (cg m SI (mvec Kmn (fun j => nth j ys 0))) i in   (* :194 *)
      do LU <- splu m (at_ Kmm);                                                           (* :195 *)
      Ok (mkgp ker dim grads support X (Induced Xm Kmm sLU LU (cg m (at_ Kmm) mu)))        (* :198 *)
  | None =>
      do K3 <- cov_matrix ker dim X X grads support;                                       (* :204 *)
      let K3 := if lump then mkmat (nr K3) (nr K3) (fun i j => if Nat.eqb i j then sumn (nc K3) (at_ K3 i) else 0) else K3 in   (* :205-206 *)
      let A := add_noise K3 sigma in
      do LU <- splu (nr K3) A;                                                             (* :208 *)
      if negb (Nat.eqb (nr K3) (length ys)) then Err ValueError else
      Ok (mkgp ker dim grads support X (Plain LU (cg (nr K3) A (fun j => nth j ys 0))))    (* :212 *)
  end.
(** predict :242-295: number of outputs, mean, covariance *)
Definition gp_predict (g : gp) (T : list (list R)) : res (nat * (nat -> R) * mat) :=
  match g_state g with
  | Induced Xm Kmm sLU LU beta =>
      do K2 <- cov_matrix (g_ker g) (g_dim g) Xm T (g_grads g) (g_support g);              (* :254 *)
      let mean := mvec (transpose K2) beta in                                              (* :255 *)
      let lu := mkmat (nr K2) (nc K2) (fun i j => LU (fun k => at_ K2 k j) i) in           (* :256 *)
      do K1 <- cov_matrix (g_ker g) (g_dim g) T T (g_grads g) None;                        (* :261 *)
      let Klu := mkmat (nr Kmm) (nc lu) (fun i j => sumn (nc Kmm) (fun k => at_ Kmm i k * at_ lu k j)) in
      let W := mkmat (nr Kmm) (nc lu) (fun i j => sLU (fun k => at_ Klu k j) i) in
      let KW := mkmat (nr Kmm) (nc lu) (fun i j => sumn (nc Kmm) (fun k => at_ Kmm i k * at_ W k j)) in
      Ok (nc K2, mean, mkmat (nr K1) (nc K1) (fun i j =>
        at_ K1 i j - sumn (nr K2) (fun k => at_ K2 k i * at_ lu k j) + sumn (nr lu) (fun k => at_ lu k i * at_ KW k j)))   (* :262 *)
  | Plain LU alpha =>
      do K2 <- cov_matrix (g_ker g) (g_dim g) (g_X g) T (g_grads g) (g_support g);         (* :268 *)
      do K1 <- cov_matrix (g_ker g) (g_dim g) T T (g_grads g) None;                        (* :285 *)
      Ok (nc K2, mvec (transpose K2) alpha, mkmat (nr K1) (nc K1) (fun i j => at_ K1 i j - sumn (nr K2) (fun k => at_ K2 k i * LU (fun k => at_ K2 k j) k)))   (* :275, :286 *)
  end.
(** gaussian_process :70 *)
Definition gaussian_process splu cg X dim y T kernel X_induced grad_y lump compact sigma : res (nat * (nat -> R) * mat) :=
  do g <- gp_train splu cg X dim y kernel X_induced grad_y sigma lump compact; gp_predict g T.
