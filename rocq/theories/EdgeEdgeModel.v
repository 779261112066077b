(** edge_edge_distance.py:45-197.  Simplification: exact reals; a quotient 0/0, which numpy evaluates to nan, is None.
    A_dot_T / A_dot_A is only 0/0 when A_dot_A = 0 because then A = 0. *)
From Coq Require Import Reals Lra.
From Verif Require Import Vec.
Open Scope R_scope.

Definition npdiv (x y : R) : option R := if Req_EM_T y 0 then None else Some (x / y).
(** :124-129, :155-160, :186-192 *)
Definition along (P A : vec3) (t : option R) : vec3 :=
  match t with
  | None => P
  | Some t => if Rle_dec t 0 then P else if Rge_dec t 1 then add3 P A else add3 P (scal3 t A)
  end.
Definition edge_edge_distance (P1 Q1 P2 Q2 : vec3) : R * vec3 * vec3 :=
  let P := P1 in let Q := P2 in let A := sub3 Q1 P1 in let B := sub3 Q2 P2 in let T := sub3 Q P in      (* :45-52 *)
  let AA := dot3 A A in let BB := dot3 B B in let AB := dot3 A B in let AT := dot3 A T in let BT := dot3 B T in   (* :58-62 *)
  let denom := AA * BB - AB * AB in                                                   (* :85 *)
  let t := if Req_EM_T denom 0 then 0 else (AT * BB - BT * AB) / denom in             (* :86-89 *)
  let t := if Rlt_dec t 0 then 0 else if Rgt_dec t 1 then 1 else t in                 (* :91-94 *)
  let u := if Req_EM_T BB 0 then 0 else (t * AB - BT) / BB in                         (* :96-99 *)
  let XY :=
    if Rle_dec u 0 then (along P A (npdiv AT AA), Q)                                  (* :121-129 *)
    else if Rge_dec u 1 then (along P A (npdiv (AT + AB) AA), add3 Q B)               (* :152-160 *)
    else (along P A (Some t), add3 Q (scal3 u B)) in                                  (* :184-192 *)
  (norm3 (sub3 (fst XY) (snd XY)), fst XY, snd XY).                                   (* :194-197 *)
