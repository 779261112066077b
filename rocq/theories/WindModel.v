(** winding_number.py:53-64 (2D) and signed_distance.py:71-86 (2D, with the Python path of squared_distance). Exact reals. *)
From Coq Require Import List ZArith Reals.
From Verif Require Import NumpyModel TopoModel PyExn Vec SubdivModel LoopsModel GeomModel SqDistModel AabbModel.
Import ListNotations.
Open Scope R_scope.

(** np.arctan2 on exact reals (there is no negative zero: arctan2(0, x) = PI for x < 0) *)
Definition atan2 (y x : R) : R :=
  if Rlt_dec 0 x then atan (y / x)
  else if Rlt_dec x 0 then (if Rle_dec 0 y then atan (y / x) + PI else atan (y / x) - PI)
  else if Rlt_dec 0 y then PI / 2 else if Rlt_dec y 0 then - (PI / 2) else 0.
(** :60-63 for one query and one edge *)
Definition edge_angle (o s d : vec2) : R :=
  let a := sub2 o s in let b := sub2 o d in - atan2 (fst b * snd a - snd b * fst a) (fst b * fst a + snd b * snd a).
Fixpoint suml (l : list R) : R := match l with [] => 0 | x :: r => x + suml r end.
(** :56-64 *)
Definition winding_number (O V : list vec2) (F : list (Z * Z)) : res (list R) :=
  do VS <- lift IndexError (mapO (fun e => getZ V (fst e)) F);
  do VD <- lift IndexError (mapO (fun e => getZ V (snd e)) F);
  Ok (map (fun o => suml (map (fun sd => edge_angle o (fst sd) (snd sd)) (combine VS VD)) / (2 * PI)) O).
(** signed_distance.py:71-86 for one query; F = None means the closed polyline (:72-75) *)
Definition row2 (v : vec2) : vec := [fst v; snd v].
Definition signed_distance (argsort : list R -> list nat) (fuel : nat) (q : vec2) (V : list vec2) (F : option (list (Z * Z))) : res (R * Z * list R) :=
  do E <- match F with Some E => Ok E | None => edge_indices (Z.of_nat (length V)) true end;
  do (d, i, l) <- squared_distance_aabb argsort fuel 2 (row2 q) (map row2 V) (map (fun e => [fst e; snd e]) E);
  do W <- winding_number [q] V E;
  Ok (sign (-2 * nth 0 W 0 + 1) * sqrt d, i, l).
