(** signed_distance_polygon.py:37-60.  One query point (the code treats the rows of P independently). Exact reals. *)
From Coq Require Import Reals Lra List.
From Verif Require Import PyExn Vec.
Import ListNotations.
Open Scope R_scope.

Definition clip01 (x : R) : R := Rmin (Rmax x 0) 1.                           (* np.clip(x,0.0,1.0) *)
(** one pass of the loop :46-59 on the edge (Vi, Vj), state (d, s) *)
Definition sdp_step (P Vi Vj : vec2) (st : R * R) : R * R :=
  let (d, s) := st in
  let e := sub2 Vj Vi in                                                       (* :46 *)
  if Req_EM_T (dot2 e e) 0 then st else                                        (* :48 *)
  let w := sub2 P Vi in                                                        (* :50 *)
  let b := sub2 w (scal2 (clip01 (dot2 w e / dot2 e e)) e) in                  (* :51-53 *)
  let d := Rmin d (dot2 b b) in                                                (* :54 *)
  let q1 := if Rge_dec (snd P) (snd Vi) then true else false in                (* :55 *)
  let q2 := if Rle_dec (snd P) (snd Vj) then true else false in
  let q3 := if Rgt_dec (fst e * snd w) (snd e * fst w) then true else false in
  let change := orb (andb q1 (andb q2 q3)) (andb (negb q1) (andb (negb q2) (negb q3))) in   (* :56-58 *)
  (d, if change then - 1 * s else s).                                          (* :59 *)
(** the loop :41-59: [prev] is V[j], j = i-1 (V[n-1] for i = 0) *)
Fixpoint sdp_loop (P prev : vec2) (V : list vec2) (st : R * R) : R * R :=
  match V with [] => st | v :: V' => sdp_loop P v V' (sdp_step P v prev st) end.
Definition signed_distance_polygon (P : vec2) (V : list vec2) : res R :=
  match V with
  | [] => Err IndexError                                                       (* V[0,:] *)
  | v0 :: _ => let d0 := dot2 (sub2 P v0) (sub2 P v0) in                       (* :39 *)
               let (d, s) := sdp_loop P (last V v0) V (d0, 1) in
               Ok (s * sqrt d)                                                 (* :60 *)
  end.
