(** rotation_matrix_from_vectors.py:37-64, on plain 2- and 3-vectors; exact reals (so `any(v)` is exact). *)
From Coq Require Import Reals Lra.
From Verif Require Import Vec.
Open Scope R_scope.

Definition mat2 := (vec2 * vec2)%type.              (* rows *)
Definition mat3 := (vec3 * vec3 * vec3)%type.       (* rows *)
(** :38 *)
Definition normalized2 (v : vec2) : vec2 := scal2 (/ norm2 v) v.
Definition normalized3 (v : vec3) : vec3 := scal3 (/ norm3 v) v.
Definition eye2 : mat2 := ((1, 0), (0, 1)).
Definition neg2 (M : mat2) : mat2 := (scal2 (-1) (fst M), scal2 (-1) (snd M)).
Definition eye3 : mat3 := ((1, 0, 0), (0, 1, 0), (0, 0, 1)).
Definition neg3 (M : mat3) : mat3 := (scal3 (-1) (fst (fst M)), scal3 (-1) (snd (fst M)), scal3 (-1) (snd M)).
Definition madd (M N : mat3) : mat3 := (add3 (fst (fst M)) (fst (fst N)), add3 (snd (fst M)) (snd (fst N)), add3 (snd M) (snd N)).
Definition mscal (s : R) (M : mat3) : mat3 := (scal3 s (fst (fst M)), scal3 s (snd (fst M)), scal3 s (snd M)).
Definition col (M : mat3) (j : nat) : vec3 :=
  match M with (((a, b, c), (d, e, f)), (g, h, i)) => match j with O => (a, d, g) | S O => (b, e, h) | _ => (c, f, i) end end.
Definition rowmul (r : vec3) (M : mat3) : vec3 := (dot3 r (col M 0), dot3 r (col M 1), dot3 r (col M 2)).
Definition mmul (M N : mat3) : mat3 := (rowmul (fst (fst M)) N, rowmul (snd (fst M)) N, rowmul (snd M) N).
(** :44-52, :59-64 for dim 2 *)
Definition rotation2 (vec1 vec2_ : vec2) : mat2 :=
  let a := normalized2 vec1 in let b := normalized2 vec2_ in
  let v := det2 a b in
  if Req_EM_T v 0 then (if Rlt_dec (dot2 a b) 0 then neg2 eye2 else eye2)
  else let theta := acos (dot2 a b) in
       let theta := if Rlt_dec v 0 then - theta else theta in
       ((cos theta, - sin theta), (sin theta, cos theta)).
(** :44-45, :53-64 for dim 3 *)
Definition rotation3 (vec1 vec2_ : vec3) : mat3 :=
  let a := normalized3 vec1 in let b := normalized3 vec2_ in
  let v := cross3 a b in
  let c := dot3 a b in
  if Req_EM_T (X v) 0 then
    if Req_EM_T (Y v) 0 then
      if Req_EM_T (Zc v) 0 then (if Rlt_dec c 0 then neg3 eye3 else eye3)
      else let s := norm3 v in let k := ((0, - Zc v, Y v), (Zc v, 0, - X v), (- Y v, X v, 0)) in madd (madd eye3 k) (mscal ((1 - c) / (s * s)) (mmul k k))
    else let s := norm3 v in let k := ((0, - Zc v, Y v), (Zc v, 0, - X v), (- Y v, X v, 0)) in madd (madd eye3 k) (mscal ((1 - c) / (s * s)) (mmul k k))
  else let s := norm3 v in let k := ((0, - Zc v, Y v), (Zc v, 0, - X v), (- Y v, X v, 0)) in madd (madd eye3 k) (mscal ((1 - c) / (s * s)) (mmul k k)).
