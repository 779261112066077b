(** Specification vocabulary for contours on a grid *)
From Coq Require Import List Arith Reals Lra Bool.
Import ListNotations.
Open Scope R_scope.

(** grid edges: [Hor i j] joins the nodes (i,j) and (i+1,j), [Ver i j] joins (i,j) and (i,j+1) *)
Inductive gedge := Hor (i j : nat) | Ver (i j : nat).
Definition node1 (e : gedge) : nat * nat := match e with Hor i j => (i, j) | Ver i j => (i, j) end.
Definition node2 (e : gedge) : nat * nat := match e with Hor i j => (i + 1, j)%nat | Ver i j => (i, j + 1)%nat end.
Definition in_grid (nx ny : nat) (e : gedge) : Prop := (fst (node2 e) < nx)%nat /\ (snd (node2 e) < ny)%nat.
Definition at_node (S : nat -> nat -> R) (p : nat * nat) : R := S (fst p) (snd p).
(** one end positive, the other not *)
Definition crossing (S : nat -> nat -> R) (e : gedge) : Prop :=
  (0 < at_node S (node1 e) /\ at_node S (node2 e) <= 0) \/ (0 < at_node S (node2 e) /\ at_node S (node1 e) <= 0).
(** p is the zero of the linear interpolation of S along e (node coordinates) *)
Definition is_zero (S : nat -> nat -> R) (e : gedge) (p : R * R) : Prop :=
  exists t, 0 <= t <= 1 /\ (1 - t) * at_node S (node1 e) + t * at_node S (node2 e) = 0
   /\ fst p = (1 - t) * INR (fst (node1 e)) + t * INR (fst (node2 e)) /\ snd p = (1 - t) * INR (snd (node1 e)) + t * INR (snd (node2 e)).
(** an edge between two cells *)
Definition inner (nx ny : nat) (e : gedge) : Prop :=
  match e with Hor i j => (0 < j /\ j + 1 < ny)%nat | Ver i j => (0 < i /\ i + 1 < nx)%nat end.
Definition gedge_eqb (e f : gedge) : bool :=
  match e, f with Hor i j, Hor k l => Nat.eqb i k && Nat.eqb j l | Ver i j, Ver k l => Nat.eqb i k && Nat.eqb j l | _, _ => false end.
Definition starts (e : gedge) (T : list (gedge * gedge)) : nat := length (filter (fun s => gedge_eqb e (fst s)) T).
Definition ends (e : gedge) (T : list (gedge * gedge)) : nat := length (filter (fun s => gedge_eqb e (snd s)) T).
(** the node n lies on the right of (or on) the directed line from p to q; on the left *)
Definition turn (p q : R * R) (n : nat * nat) : R := (fst q - fst p) * (INR (snd n) - snd p) - (snd q - snd p) * (INR (fst n) - fst p).
(** in- and out-degree of a vertex of a directed graph *)
Definition outdeg (v : nat) (E : list (nat * nat)) : nat := length (filter (fun e => Nat.eqb (fst e) v) E).
Definition indeg (v : nat) (E : list (nat * nat)) : nat := length (filter (fun e => Nat.eqb (snd e) v) E).
(** the four edges of the cell (i,j) *)
Definition cell_edge (i j : nat) (e : gedge) : Prop := e = Hor i j \/ e = Hor i (j + 1) \/ e = Ver i j \/ e = Ver (i + 1) j.
(** [lo], [hi] are the corners of the bounding box of the points *)
Definition box_of (GV : list (R * R)) (lo hi : R * R) : Prop :=
  (forall g, In g GV -> fst lo <= fst g <= fst hi /\ snd lo <= snd g <= snd hi)
  /\ (exists g, In g GV /\ fst lo = fst g) /\ (exists g, In g GV /\ snd lo = snd g)
  /\ (exists g, In g GV /\ fst hi = fst g) /\ (exists g, In g GV /\ snd hi = snd g).
(** node coordinates stretched over the box: node (0,0) at [lo], node (nx-1,ny-1) at [hi] *)
Definition grid_point (nx ny : nat) (lo hi : R * R) (p : R * R) : list R :=
  [fst lo + fst p / (INR nx - 1) * (fst hi - fst lo); snd lo + snd p / (INR ny - 1) * (snd hi - snd lo)].
Definition close_to (eps : R) (p q : R * R) : Prop := Rabs (fst p - fst q) <= eps /\ Rabs (snd p - snd q) <= eps.
