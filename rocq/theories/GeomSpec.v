(** Specification vocabulary for mesh geometry over exact reals. *)
From Verif Require Import Vec.
Open Scope R_scope.
Notation tri := (Z * Z * Z)%type.

(** the three corners of a face *)
Definition c0 (t : tri) : Z := fst (fst t).
Definition c1 (t : tri) : Z := snd (fst t).
Definition c2 (t : tri) : Z := snd t.

(** all corner indices of the faces are in 0..n-1 *)
Definition valid (n : Z) (F : list tri) := forall t, In t F -> (0 <= c0 t < n)%Z /\ (0 <= c1 t < n)%Z /\ (0 <= c2 t < n)%Z.

(** Gram determinant of two rows (squared area of their parallelogram) *)
Definition gram (u v : list R) : R := dotl u u * dotl v v - dotl u v * dotl u v.

(** determinant of three columns *)
Definition det3 (a b c : vec3) : R := dot3 a (cross3 b c).

(** oriented normal of a face, length = twice the area *)
Definition fnormal (V : Z -> vec3) (t : tri) : vec3 :=
  cross3 (sub3 (V (c1 t)) (V (c0 t))) (sub3 (V (c2 t)) (V (c0 t))).

(** squared side lengths of a genuine triangle (strict triangle inequalities) *)
Definition triangle_lengths (l_sq : R * R * R) : Prop :=
  0 <= X l_sq /\ 0 <= Y l_sq /\ 0 <= Zc l_sq /\
  let a := sqrt (X l_sq) in let b := sqrt (Y l_sq) in let c := sqrt (Zc l_sq) in
  a < b + c /\ b < c + a /\ c < a + b.
