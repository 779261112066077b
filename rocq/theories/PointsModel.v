(** normalize_points.py:32-47, linear_blend_skinning.py:43-51, random_points_on_mesh.py:60-119.
    Simplifications: exact reals; loops over columns that touch only their own column are one elementwise operation. *)
From Coq Require Import Reals Lra ZArith List Bool.
From Verif Require Import NumpyModel PyExn Vec MatModel GeomModel SubdivModel AabbModel.
Import ListNotations.
Open Scope R_scope.

(** np.max of a non-empty array *)
Definition max_list (l : list R) : option R := match l with [] => None | x :: r => Some (fold_left Rmax r x) end.
(** normalize_points.py: the caller's array after the call, and the result *)
Definition normalize_points (v : list vec) (center : option vec) : res (list vec * list vec) :=
  do mn <- lift ValueError (amin0 v);
  let v1 := map (fun r => map2 Rminus r mn) v in                        (* :36-37, in place: this is the caller's array from here on *)
  do m <- lift ValueError (max_list (concat v1));                       (* :39 *)
  if Req_EM_T m 0 then Err NotANumber else
  let v2 := map (map (fun x => x / m)) v1 in                            (* :39, a new array *)
  do mx <- lift ValueError (amax0 v2);
  let v3 := map (fun r => map2 Rminus r (map (fun x => 0.5 * x) mx)) v2 in   (* :41-42 *)
  Ok (v1, match center with None => v3 | Some c => map (fun r => map2 Rplus r c) v3 end).   (* :44-45 *)

(** linear_blend_skinning.py: entry (p,j) of U; arrays as index functions with m handles and d coordinates *)
Section LBS.
  Variable m d : nat.
  Variable V : nat -> nat -> R.
  Variable Ws : nat -> nat -> R.
  Variable Rs : nat -> nat -> nat -> R.
  Variable Ts : nat -> nat -> R.
  Definition lbs (p j : nat) : R :=
    fold_left (fun U i =>
      let rotation := sumn d (fun k => V p k * Rs i j k) in             (* :46 np.dot(V,Rs[i].T) *)
      U + Ws p i * (rotation + Ts i j)) (seq 0 m) 0.                    (* :47-49 *)
End LBS.

(** random_points_on_mesh.py:94-95, :109-110: the sampling weights *)
Definition weights (A : list R) (likelihood : list R) : list R :=
  let l := map2 Rmult A likelihood in map (fun x => x / fold_right Rplus 0 l) l.
(** :77-83: one sample *)
Definition combine_rows (u : list R) (rows : list vec) : option vec :=
  match u, rows with
  | [a; b], [x; y] => Some (map2 Rplus (map (Rmult a) x) (map (Rmult b) y))
  | [a; b; c], [x; y; z] => Some (map2 Rplus (map2 Rplus (map (Rmult a) x) (map (Rmult b) y)) (map (Rmult c) z))
  | _, _ => None
  end.
(** :99-100 and :114-117 *)
Definition bary_polyline (r : R) : list R := [r; 1 - r].
Definition bary_triangle (r2 r : R) : list R := [1 - sqrt r; sqrt r * (1 - r2); r2 * sqrt r].
Section RandomPoints.
  (** rng.choice(size,p): None stands for the ValueError on probabilities that are NaN or negative *)
  Variable choice : list R -> nat -> option (list nat).
  Variable V : list vec.
  Variable F : list (list Z).
  Variable likelihood : option (list R).
  Definition sample (us : list (list R)) (Ix : list nat) : res (list (vec * nat * list R)) :=
    lift IndexError (mapO (fun q => match nth_error F (snd q) with
                          | Some f => match mapO (getZ V) f with Some rows => option_map (fun x => (x, snd q, fst q)) (combine_rows (fst q) rows) | None => None end
                          | None => None end) (combine us Ix)).
  Definition lk : list R := match likelihood with None => repeat 1 (length F) | Some l => l end.   (* :60-61 *)
  (** :75-78 with k = 2; the draws are r *)
  Definition random_points_polyline (n : nat) (r : list R) : res (list (vec * nat * list R)) :=
    if (n =? 0)%nat then Ok [] else                                     (* :66-72 *)
    do lens <- lift IndexError (mapO (fun f => match f with [a; b] => match getZ V a, getZ V b with Some x, Some y => Some (sqrt (sqlen y x)) | _, _ => None end | _ => None end) F);
    do Ix <- lift ValueError (choice (weights lens lk) n);
    sample (map bary_polyline r) Ix.
  (** :79-83 with k = 3; the draws are pairs *)
  Definition random_points_triangles (n : nat) (r : list (R * R)) : res (list (vec * nat * list R)) :=
    if (n =? 0)%nat then Ok [] else
    do areas <- lift IndexError (mapO (fun f => match f with [a; b; c] => match getZ V a, getZ V b, getZ V c with
        | Some x, Some y, Some z => Some (dblA (sqlen z y, sqlen x z, sqlen y x)) | _, _, _ => None end | _ => None end) F);
    do Ix <- lift ValueError (choice (weights areas lk) n);
    sample (map (fun q => bary_triangle (fst q) (snd q)) r) Ix.
End RandomPoints.
