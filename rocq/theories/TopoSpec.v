(** Model-independent vocabulary for triangle / tetrahedron lists. *)
From Coq Require Import List ZArith Bool.
Import ListNotations.
Open Scope Z_scope.

(** corner [i] (0,1,2) of a triangle, [i] taken modulo 3 *)
Definition corner (t : Z * Z * Z) (i : nat) : Z :=
  let '(a, b, c) := t in
  match Nat.modulo i 3 with 0%nat => a | 1%nat => b | _ => c end.

(** the directed side opposite corner [i], oriented as the triangle *)
Definition side_opp (t : Z * Z * Z) (i : nat) : Z * Z :=
  (corner t (i + 1), corner t (i + 2)).

(** the three directed sides of a triangle a->b->c->a *)
Definition sides (t : Z * Z * Z) : list (Z * Z) :=
  let '(a, b, c) := t in [(a, b); (b, c); (c, a)].
(** all half-edges (directed sides) of a triangle list *)
Definition all_sides (F : list (Z * Z * Z)) : list (Z * Z) := flat_map sides F.

(** same undirected edge *)
Definition same_edge (e f : Z * Z) : Prop :=
  (fst e = fst f /\ snd e = snd f) \/ (fst e = snd f /\ snd e = fst f).
Definition same_edgeb (e f : Z * Z) : bool :=
  ((fst e =? fst f) && (snd e =? snd f)) || ((fst e =? snd f) && (snd e =? fst f)).

(** number of half-edges of [F] lying on the undirected edge [e] *)
Definition incidence (F : list (Z * Z * Z)) (e : Z * Z) : nat :=
  length (filter (same_edgeb e) (all_sides F)).

(** [F] is consistently oriented and edge-manifold: no directed side is used twice *)
Definition oriented_manifold (F : list (Z * Z * Z)) : Prop := NoDup (all_sides F).

(** facets of a tetrahedron as unordered triples *)
Definition facets (t : Z * Z * Z * Z) : list (Z * Z * Z) :=
  let '(a, b, c, d) := t in [(b, c, d); (a, c, d); (a, b, d); (a, b, c)].
Definition all_facets (T : list (Z * Z * Z * Z)) : list (Z * Z * Z) := flat_map facets T.

(** same unordered triple (equal as multisets) *)
Definition perms3 (t : Z * Z * Z) : list (Z * Z * Z) :=
  let '(a, b, c) := t in [(a, b, c); (a, c, b); (b, a, c); (b, c, a); (c, a, b); (c, b, a)].
Definition same_tri (s t : Z * Z * Z) : Prop := In s (perms3 t).
Definition tri_eqb (s t : Z * Z * Z) : bool :=
  let '(a, b, c) := s in let '(a', b', c') := t in (a =? a') && (b =? b') && (c =? c').
Definition same_trib (s t : Z * Z * Z) : bool := existsb (tri_eqb s) (perms3 t).
Definition facet_incidence (T : list (Z * Z * Z * Z)) (f : Z * Z * Z) : nat :=
  length (filter (same_trib f) (all_facets T)).

(** rotation (even permutation) of a triple: same oriented triangle *)
Definition rot_eq (s t : Z * Z * Z) : Prop :=
  let '(a, b, c) := t in s = (a, b, c) \/ s = (b, c, a) \/ s = (c, a, b).
(** positively oriented facets of a tet (a,b,c,d) with the boundary orientation
    (simplicial boundary: +bcd -acd +abd -abc) *)
Definition bdry_facets (t : Z * Z * Z * Z) : list (Z * Z * Z) :=
  let '(a, b, c, d) := t in [(b, c, d); (c, a, d); (a, b, d); (b, a, c)].

(** entry [i] of a row of a (.,3) / (.,4) array *)
Definition row3 {A} (r : A * A * A) (i : nat) : A :=
  match i with 0%nat => fst (fst r) | 1%nat => snd (fst r) | _ => snd r end.
Definition row4 {A} (r : A * A * A * A) (i : nat) : A :=
  match i with 3%nat => snd r | _ => row3 (fst r) i end.
(** reversed directed edge *)
Definition rev_edge (e : Z * Z) : Z * Z := (snd e, fst e).
