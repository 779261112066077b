(** compactly_supported_normal.py:40-88 and compactly_supported_normal_kernel.py:39-94, for one point (the rows of the
    input are processed elementwise).  Exact reals; Boolean factors of the products are 0/1 as in numpy. *)
From Coq Require Import Reals Lra ZArith List Bool.
From Verif Require Import PyExn Vec.
Import ListNotations.
Open Scope R_scope.

Definition ind (b : bool) : R := if b then 1 else 0.
Definition ltb (x y : R) : bool := if Rlt_dec x y then true else false.
Definition leb (x y : R) : bool := if Rle_dec x y then true else false.

(** compactly_supported_normal.py:62-69: the factor of the differentiated coordinate *)
Definition csn_dd (n : Z) (x : R) : res R :=
  let a := Rabs x in
  if (n =? 2)%Z then Ok (ind (ltb a (1/2)) * (-2) + ind (ltb a (3/2)) * ind (ltb (1/2) a) * 1)                       (* :63 *)
  else if (n =? 1)%Z then Ok (0 * a)                                                                               (* :65 *)
  else if (n =? 3)%Z then Ok (ind (ltb a 1) * (3*3*2*a - 12) * (1/6) + ind (leb a 2) * ind (leb 1 a) * (-3*2*a + 12) * (1/6))   (* :67 *)
  else if (n =? 4)%Z then Ok (ind (leb a (5/2)) * ind (leb (3/2) a) * (16*4*3*a^2 - 160*3*2*a + 600*2) * (1/384)
      + ind (leb a (3/2)) * ind (leb (1/2) a) * (-16*4*3*a^2 + 80*3*2*a - 120*2) * (1/96)
      + ind (leb a (1/2)) * (48*4*3*a^2 - 120*2) * (1/192))                                                        (* :69 *)
  else Err UnboundLocalError.
(** :71-78: the factor of any other coordinate *)
Definition csn_val (n : Z) (x : R) : res R :=
  let a := Rabs x in
  if (n =? 2)%Z then Ok (ind (ltb a (1/2)) * (- x^2 + 3/4) + ind (ltb a (3/2)) * ind (ltb (1/2) a) * (1/2 * x^2 - 3/2 * a + 9/8))  (* :72 *)
  else if (n =? 1)%Z then Ok (ind (ltb a 1) * (1 - a))                                                             (* :74 *)
  else if (n =? 3)%Z then Ok (ind (ltb a 1) * (3 * a^3 - 6 * a^2 + 4) * (1/6)
      + ind (leb a 2) * ind (leb 1 a) * (- a^3 + 6 * a^2 - 12 * a + 8) * (1/6))                                    (* :76 *)
  else if (n =? 4)%Z then Ok (ind (leb a (5/2)) * ind (leb (3/2) a) * (16 * a^4 - 160 * a^3 + 600 * a^2 - 1000 * a + 625) * (1/384)
      + ind (leb a (3/2)) * ind (leb (1/2) a) * (-16 * a^4 + 80 * a^3 - 120 * a^2 + 20 * a + 55) * (1/96)
      + ind (leb a (1/2)) * (48 * a^4 - 120 * a^2 + 115) * (1/192))                                                (* :78 *)
  else Err UnboundLocalError.
(** :59-81 the loop over the coordinates; i is the index of the head of xs *)
Fixpoint csn_loop (n sd i : Z) (xs : list R) (vals : R) : res R :=
  match xs with
  | [] => Ok vals
  | x :: r => do v <- (if (sd =? i)%Z then csn_dd n x else csn_val n x); csn_loop n sd (i + 1) r (vals * v)
  end.
(** :40-88; [center = None] is the default; a centre of another length fails to broadcast (:50) *)
Definition csn (x : list R) (n : Z) (sigma : R) (center : option (list R)) (sd : Z) : res R :=
  let c := match center with None => repeat 0 (length x) | Some c => c end in                                      (* :48-49 *)
  if negb (Nat.eqb (length c) (length x)) then Err ValueError
  else let xn := map (fun p => (fst p - snd p) / sigma) (combine x c) in                                           (* :50 *)
  do v <- csn_loop n sd 0 xn 1;
  let val := v / sigma ^ length x in                                                                               (* :83 *)
  Ok (if (0 <=? sd)%Z then val / sigma ^ 2 else val).                                                              (* :84-85 *)

(** compactly_supported_normal_kernel.py:66-81: the factor of coordinate i *)
Definition kfactor (d0 d1 i : Z) (x : R) : R :=
  let a := Rabs x in
  let sign := ind (leb 0 x) * 1 + ind (ltb x 0) * -1 in                                                            (* :66 *)
  if negb (d0 =? i)%Z && negb (d1 =? i)%Z then
    ind (ltb a 1) * (3 * a^3 - 6 * a^2 + 4) * (1/6) + ind (leb a 2) * ind (leb 1 a) * (- a^3 + 6 * a^2 - 12 * a + 8) * (1/6)     (* :69 *)
  else if (d0 =? i)%Z && negb (d1 =? i)%Z then
    ind (ltb a 1) * (9 * sign * a^2 - 12 * x) * (1/6) + ind (leb a 2) * ind (leb 1 a) * (-3 * sign * x^2 + 12 * x - 12 * sign) * (1/6)  (* :72 *)
  else if negb (d0 =? i)%Z && (d1 =? i)%Z then
    - (ind (ltb a 1) * (9 * sign * a^2 - 12 * x) * (1/6) + ind (leb a 2) * ind (leb 1 a) * (-3 * sign * x^2 + 12 * x - 12 * sign) * (1/6))  (* :74-75 *)
  else
    - (ind (ltb a 1) * (3*3*2*a - 12) * (1/6) + ind (leb a 2) * ind (leb 1 a) * (-3*2*a + 12) * (1/6)).            (* :80-81 *)
(** :64-83 *)
Fixpoint k_loop (d0 d1 i : Z) (xs : list R) (vals : R) : R :=
  match xs with
  | [] => vals
  | x :: r => k_loop d0 d1 (i + 1) r (vals * kfactor d0 d1 i x)
  end.
(** :39-94 *)
Definition kernel (x1 x2 : list R) (len scale : R) (d0 d1 : Z) : res R :=
  if negb (Nat.eqb (length x1) (length x2)) then Err ValueError
  else let rn := map (fun p => (fst p - snd p) / len) (combine x1 x2) in                                           (* :39, :55 *)
  let val := k_loop d0 d1 0 rn 1 / len ^ length x1 in                                                              (* :85 *)
  let val := val * scale in                                                                                        (* :86 *)
  Ok (if (d0 =? -1)%Z && (d1 =? -1)%Z then val
      else if (d0 =? -1)%Z || (d1 =? -1)%Z then val / len
      else val / len ^ 2).                                                                                         (* :87-94 *)
