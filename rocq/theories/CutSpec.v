(** Specification vocabulary for cut_edges *)
From Coq Require Import List ZArith Relations.
From Verif Require Import TopoSpec CompModel CompSpec.
Import ListNotations.
Open Scope Z_scope.

(** vertex at corner c of face f ([corner] is in TopoSpec.v) *)
Definition corner_at (F : list (Z * Z * Z)) (x : nat * nat) (v : Z) : Prop :=
  (snd x < 3)%nat /\ exists t, nth_error F (fst x) = Some t /\ corner t (snd x) = v.
(** face corners x and y sit at the same vertex v, and their faces share an edge {v,w} that is not to be cut *)
Definition uncut_link (F : list (Z * Z * Z)) (E : list (Z * Z)) (x y : nat * nat) : Prop :=
  exists v w, corner_at F x v /\ corner_at F y v
   /\ (exists c, c <> snd x /\ corner_at F (fst x, c) w) /\ (exists c, c <> snd y /\ corner_at F (fst y, c) w)
   /\ ~ In (v, w) E /\ ~ In (w, v) E.
(** entry of the new face list *)
Definition at_GF (G : list (list Z)) (x : nat * nat) (g : Z) : Prop :=
  exists row, nth_error G (fst x) = Some row /\ nth_error row (snd x) = Some g.
(** scipy: labels are between 0 and the number of components *)
Definition csgraph_range (cc : amat -> list Z) : Prop :=
  forall n l, 0 <= n -> (forall p, In p l -> 0 <= fst p < n /\ 0 <= snd p < n) -> Forall (fun k => 0 <= k < n) (cc (n, l)).
