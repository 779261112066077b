(** tip_angles_intrinsic.py, tip_angles.py.  Arithmetic is exact, [acos] is arccos. *)
From Verif Require Import Vec GeomModel.
From Coq Require Import Reals Ratan.
Open Scope R_scope.

(** np.clip(x, -1., 1.) *)
Definition clip1 (x : R) : R := Rmin (Rmax x (-1)) 1.
(** tip_angles_intrinsic.py:44-45 *)
Definition cr_exact (a b c : R) : R := acos (clip1 ((a + b - c) / (2 * sqrt (a * b)))).
(** tip_angles_intrinsic.py:52-54 *)
Definition cr_small (a b c : R) : R :=
  let sa := sqrt a in let sb := sqrt b in
  sqrt (Rmax ((c - (sa - sb) ^ 2) / (sa * sb)) 0).
(** tip_angles_intrinsic.py:43-55 for one element; [small] is sqrt(eps) of the dtype *)
Definition cr (approx : bool) (small a b c : R) : R :=
  if approx then if Rlt_dec c small then cr_small a b c else cr_exact a b c
  else cr_exact a b c.
(** tip_angles_intrinsic.py:56-62, one face *)
Definition tip_angles_intrinsic (approx : bool) (small : R) (l : r3) : r3 :=
  (cr approx small (Y l) (Zc l) (X l), cr approx small (Zc l) (X l) (Y l), cr approx small (X l) (Y l) (Zc l)).
(** tip_angles.py:34-35, one face *)
Definition tip_angles (V : Z -> list R) (approx : bool) (small : R) (t : tri) : r3 :=
  tip_angles_intrinsic approx small (lsq_face V t).
