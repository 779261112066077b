(** What a quadtree (octree) is, in terms of its arrays and of the boxes they describe. *)
From Coq Require Import List Arith ZArith Reals Bool.
From Verif Require Import PyExn QuadModel.
Import ListNotations.

(** Entries of the arrays. *)
Definition depth (T : qtree) (i : nat) : nat := nth i (qD T) 0%nat.
Definition width (T : qtree) (i : nat) : R := nth i (qW T) 0%R.
Definition centre (T : qtree) (i k : nat) : R := nth k (nth i (qC T) []) 0%R.
Definition parent (T : qtree) (i : nat) : Z := nth i (qPAR T) 0%Z.
Definition child (T : qtree) (i q : nat) : Z := nth q (nth i (qCH T) []) 0%Z.
(** A leaf: its row of CH is all -1. *)
Definition leaf (dim : nat) (T : qtree) (i : nat) : Prop := (i < qn T)%nat /\ forall q, (q < 2 ^ dim)%nat -> child T i q = (-1)%Z.

(** The sides of a cell; the closed and the open cell. *)
Definition low (T : qtree) (i k : nat) : R := (centre T i k - width T i / 2)%R.
Definition high (T : qtree) (i k : nat) : R := (centre T i k + width T i / 2)%R.
Definition in_closed (dim : nat) (T : qtree) (i : nat) (x : nat -> R) : Prop := forall k, (k < dim)%nat -> (low T i k <= x k <= high T i k)%R.
Definition in_open (dim : nat) (T : qtree) (i : nat) (x : nat -> R) : Prop := forall k, (k < dim)%nat -> (low T i k < x k < high T i k)%R.

(** Cell j lies on the high side of cell i along axis k: they share a piece of face of positive measure. *)
Definition touches_high (dim : nat) (T : qtree) (i j k : nat) : Prop :=
  high T i k = low T j k /\ forall l, (l < dim)%nat -> l <> k -> (low T i l < high T j l /\ low T j l < high T i l)%R.
(** direction codes: 1 left, 2 right, 3 bottom, 4 top, 5 back, 6 front *)
Definition in_direction (dim : nat) (T : qtree) (i j : nat) (a : Z) : Prop :=
  exists k, (k < dim)%nat /\ ((a = 2 * Z.of_nat k + 2)%Z /\ touches_high dim T i j k \/ (a = 2 * Z.of_nat k + 1)%Z /\ touches_high dim T j i k).

(** The tree with a single cell, and the trees that subdivisions make from it. *)
Definition fresh_root (dim : nat) (c0 : list R) (w0 : R) : qtree :=
  mkQ [c0] [w0] [repeat (-1)%Z (2 ^ dim)] [(-1)%Z] [1%nat] (fun _ _ => 0%Z).
Inductive history (dim : nat) (c0 : list R) (w0 : R) : qtree -> Prop :=
| h_root : history dim c0 w0 (fresh_root dim c0 w0)
| h_step T graded ind T' : history dim c0 w0 T -> subdivide_quad dim graded ind T = Ok T' -> history dim c0 w0 T'.

(** Two adjacent leaves never differ by more than one level. *)
Definition graded_tree (dim : nat) (T : qtree) : Prop :=
  forall i j, leaf dim T i -> leaf dim T j -> qA T i j <> 0%Z -> (depth T i <= depth T j + 1)%nat.
