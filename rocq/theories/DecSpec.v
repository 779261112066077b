(** Specification vocabulary for C11, C12 *)
From Verif Require Import Vec MatModel GeomSpec.

(** B is a right inverse of A on rows 0..n-1 *)
Definition is_inverse (n : nat) (A B : list trip) : Prop :=
  forall i j, (0 <= i < Z.of_nat n)%Z -> matmul n A B i j = if (i =? j)%Z then 1%R else 0%R.


(** the squared side lengths of the face, once for every (face, corner) incident to vertex i *)
Definition corners_at (L : list (tri * (R * R * R))) (i : Z) : list (R * R * R) :=
  map snd (filter (fun p => (c0 (fst p) =? i)%Z) L) ++ map snd (filter (fun p => (c1 (fst p) =? i)%Z) L) ++ map snd (filter (fun p => (c2 (fst p) =? i)%Z) L).
