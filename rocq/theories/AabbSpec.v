(** Vocabulary for C30, C31, C33: what a sound bounding volume hierarchy over numbered elements is. *)
From Coq Require Import Reals Lra ZArith List Permutation.
From Verif Require Import AabbModel.
Import ListNotations.
Open Scope R_scope.

(** the axis-aligned box of centre c and full widths w contains x *)
Definition in_box (dim : nat) (c w x : vec) : Prop :=
  forall j, (j < dim)%nat -> nth j c 0 - nth j w 0 / 2 <= nth j x 0 <= nth j c 0 + nth j w 0 / 2.
(** box (c1,w1) is inside box (c2,w2) *)
Definition box_le (dim : nat) (c1 w1 c2 w2 : vec) : Prop :=
  forall j, (j < dim)%nat -> nth j c2 0 - nth j w2 0 / 2 <= nth j c1 0 - nth j w1 0 / 2 /\ nth j c1 0 + nth j w1 0 / 2 <= nth j c2 0 + nth j w2 0 / 2.
Definition leaf (nd : node) : Prop := nCH nd = (-1, -1)%Z.
(** element e belongs to a leaf below (or at) node j *)
Inductive under (T : list node) : nat -> Z -> Prop :=
| under_leaf j nd : nth_error T j = Some nd -> leaf nd -> under T j (nT nd)
| under_left j nd a b e : nth_error T j = Some nd -> nCH nd = (Z.of_nat a, Z.of_nat b) -> under T a e -> under T j e
| under_right j nd a b e : nth_error T j = Some nd -> nCH nd = (Z.of_nat a, Z.of_nat b) -> under T b e -> under T j e.
Definition is_leafb (nd : node) : bool := (snd (nCH nd) =? -1)%Z.

(** m elements; [vert e] their vertices *)
Record bvh (dim m : nat) (vert : nat -> list vec) (T : list node) : Prop := {
  bvh_size : length T = (2 * m - 1)%nat;
  (* every element is in exactly one leaf *)
  bvh_leaves : Permutation (map nT (filter is_leafb T)) (map Z.of_nat (seq 0 m));
  bvh_root : exists r, nth_error T 0 = Some r /\ nPAR r = (-1)%Z /\ nD r = 1%Z;
  bvh_all : forall e, (e < m)%nat -> under T 0 (Z.of_nat e);
  (* a node is a leaf holding an element, or has two children, later in the array, that point back to it, one level deeper,
     with disjoint element sets *)
  bvh_node : forall j nd, nth_error T j = Some nd ->
    (leaf nd /\ nS nd = (-1)%Z /\ exists e, (e < m)%nat /\ nT nd = Z.of_nat e) \/
    (nT nd = (-1)%Z /\ (0 <= nS nd < Z.of_nat dim)%Z /\
     exists a b na nb, nCH nd = (Z.of_nat a, Z.of_nat b) /\ (j < a)%nat /\ (a < b)%nat /\
       nth_error T a = Some na /\ nth_error T b = Some nb /\ nPAR na = Z.of_nat j /\ nPAR nb = Z.of_nat j /\
       nD na = (nD nd + 1)%Z /\ nD nb = (nD nd + 1)%Z /\ forall e, under T a e -> under T b e -> False);
  (* every node but the root is a child of its parent *)
  bvh_par : forall j nd, nth_error T j = Some nd -> (0 < j)%nat ->
    exists p np, nPAR nd = Z.of_nat p /\ nth_error T p = Some np /\ (fst (nCH np) = Z.of_nat j \/ snd (nCH np) = Z.of_nat j);
  (* every box contains the vertices of the elements below it *)
  bvh_box : forall j nd e v, nth_error T j = Some nd -> under T j (Z.of_nat e) -> In v (vert e) -> in_box dim (nC nd) (nW nd) v
}.
