(** grad_intrinsic.py:50-68.  Exact reals; a division by zero or the root of a negative number (NaN in numpy) is an error here. *)
From Coq Require Import Reals.
From Verif Require Import MatModel NumpyModel PyExn Vec GeomModel ElastModel L1Model.
Open Scope R_scope.

(** :58-60, one face *)
Definition gi_l0 (l : r3) : R := sqrt (X l).
Definition gi_gx (l : r3) : R := (Y l - X l - Zc l) / (-2 * gi_l0 l).
Definition gi_gy (l : r3) : R := sqrt (Zc l - gi_gx l ^ 2).
Definition gi_nan (l : r3) : bool := if Req_EM_T (X l) 0 then true else if Rlt_dec (Zc l - gi_gx l ^ 2) 0 then true else false.
(** :61 *)
Definition gi_V2 (L : list r3) : list vec2 := map (fun l => (gi_gx l, gi_gy l)) L ++ repeat (0, 0) (length L) ++ map (fun l => (gi_l0 l, 0)) L.
(** :62 *)
Definition gi_F2 (m : nat) : list tri := map (fun f => (Z.of_nat f, Z.of_nat (m + f), Z.of_nat (2 * m + f))) (seq 0 m).
(** :64, row by row *)
Definition gi_P (F : list tri) : list trip :=
  let m := length F in
  flat_map (fun p => let '(f, t) := p in [(Z.of_nat f, c0 t, 1); (Z.of_nat (m + f), c1 t, 1); (Z.of_nat (2 * m + f), c2 t, 1)]) (combine (seq 0 m) F).
(** l_sq and F are arrays with three columns; n (default max(F)+1; a negative maximum counts as -1) *)
Definition grad_intrinsic (L : list r3) (F : list tri) (n : option nat) : res mat :=
  do _ <- assert_ (Nat.eqb (length L) (length F));                                                        (* :51 *)
  do _ <- assert_ (forallb (fun l => if Rle_dec 0 (X l) then if Rle_dec 0 (Y l) then if Rle_dec 0 (Zc l) then true else false else false else false) L);   (* :52 *)
  do n <- match n with
          | Some n => Ok n
          | None => do mx <- lift ValueError (Zmax_list (flat_map (fun t => [c0 t; c1 t; c2 t]) F)); Ok (Z.to_nat (mx + 1)) end;   (* :54-55 *)
  let m := length F in
  if existsb gi_nan L then Err NotANumber else
  do G2 <- grad2 (fun i => nth (Z.to_nat i) (gi_V2 L) (0, 0)) (Z.of_nat (3 * m)) (gi_F2 m);               (* :63 *)
  do P <- csr (Z.of_nat (3 * m)) (Z.of_nat n) (gi_P F);                                                   (* :64 *)
  mul (of_trips (2 * m) (3 * m) G2) (of_trips (3 * m) n P).                                               (* :66 *)
