(** catmull_rom_spline.py:35-59, one query time and one coordinate column (queries and columns are processed elementwise).
    Exact reals; np.linspace(0,1,n)[i] = i/(n-1). *)
From Coq Require Import Reals Lra ZArith List Bool.
From Verif Require Import NumpyModel PyExn Vec SubdivModel.
Import ListNotations.
Open Scope R_scope.

(** :39 *)
Definition keyframe_times (n : nat) : list R := map (fun i => INR i / INR (n - 1)) (seq 0 n).
Definition hermite (tt x0 x1 m0 m1 : R) : R :=
  (2 * tt ^ 3 - 3 * tt ^ 2 + 1) * x0 + (tt ^ 3 - 2 * tt ^ 2 + tt) * m0 + (- 2 * tt ^ 3 + 3 * tt ^ 2) * x1 + (tt ^ 3 - tt ^ 2) * m1.   (* :57 *)
Definition catmull_rom (P : list R) (t : R) : res R :=
  let n := length P in let nz := Z.of_nat n in
  let times := keyframe_times n in
  do tau <- lift IndexError (getZ times 1);                                        (* :40 *)
  let b0 := Int_part (t * (INR n - 1)) in                                          (* :42 *)
  let b := if Req_EM_T t 1 then (b0 - 1)%Z else b0 in                              (* :43 *)
  do tb <- lift IndexError (getZ times b);
  let tt := (t - tb) / tau in                                                      (* :45 *)
  do x0 <- lift IndexError (getZ P b);                                             (* :47 *)
  do x1 <- lift IndexError (getZ P (b + 1));                                       (* :48 *)
  do p1 <- lift IndexError (getZ P (Z.min (b + 1) (nz - 1)));
  do p0 <- lift IndexError (getZ P (Z.max (b - 1) 0));
  let m0 := (p1 - p0) / 2 in                                                       (* :50 *)
  let m0 := if (b =? 0)%Z then 2 * m0 else m0 in                                   (* :51 *)
  do p3 <- lift IndexError (getZ P (Z.min (b + 2) (nz - 1)));
  do p2 <- lift IndexError (getZ P (Z.max b 0));
  let m1 := (p3 - p2) / 2 in                                                       (* :52 *)
  let m1 := if (b =? nz - 2)%Z then 2 * m1 else m1 in                              (* :53 *)
  Ok (hermite tt x0 x1 m0 m1).
