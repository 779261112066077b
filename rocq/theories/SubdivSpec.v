(** Specification vocabulary for C16-C18 *)
From Verif Require Import NumpyModel TopoSpec Vec MatModel.
Open Scope Z_scope.

(** three different corners *)
Definition proper (t : Z * Z * Z) : Prop := let '(a, b, c) := t in a <> b /\ b <> c /\ c <> a.
(** consistently oriented, edge-manifold, proper triangles, no two faces on the same three vertices *)
Definition good_mesh (F : list (Z*Z*Z)) : Prop :=
  oriented_manifold F /\ (forall t, In t F -> proper t)
  /\ (forall s t, In s F -> In t F -> same_tri s t -> s = t).
(** all corners are in 0..n-1 *)
Definition in_range (n : Z) (F : list (Z*Z*Z)) : Prop :=
  forall t, In t F -> let '(a, b, c) := t in 0 <= a < n /\ 0 <= b < n /\ 0 <= c < n.

(** (x,y,z) is a face up to rotation of its corners *)
Definition rot_in (F : list (Z*Z*Z)) (x y z : Z) : Prop := In (x,y,z) F \/ In (z,x,y) F \/ In (y,z,x) F.
(** [v] is an end of an edge used by one half-edge only *)
Definition on_boundary (F : list (Z*Z*Z)) (v : Z) : Prop := exists e, incidence F e = 1%nat /\ (fst e = v \/ snd e = v).
(** directed sides leaving [v]; directed sides on the boundary *)
Definition out_sides (F : list (Z*Z*Z)) (v : Z) : list (Z*Z) := filter (fun s => fst s =? v) (all_sides F).
Definition bdry_sides (F : list (Z*Z*Z)) : list (Z*Z) := filter (fun s => Nat.eqb (incidence F s) 1) (all_sides F).

(** vertex [i] of the point list is p; the corners of t are p, q, r *)
Definition at_ {P} (V : list P) (i : Z) (p : P) : Prop := 0 <= i /\ nth_error V (Z.to_nat i) = Some p.
Definition at3 {P} (V : list P) (t : Z*Z*Z) (p q r : P) : Prop := let '(a,b,c) := t in at_ V a p /\ at_ V b q /\ at_ V c r.
(** rows of the output that hold the four children of face f out of m *)
Definition children (m f : nat) (Fu : list (Z*Z*Z)) (s0 s1 s2 s3 : Z*Z*Z) : Prop :=
  nth_error Fu f = Some s0 /\ nth_error Fu (m + f) = Some s1 /\ nth_error Fu (2 * m + f) = Some s2 /\ nth_error Fu (3 * m + f) = Some s3.

Open Scope R_scope.
(** midpoints of numbers (one coordinate column) and of points of space *)
Definition hmid (a b : R) : R := 1/2 * (a + b).
Definition col (V : list R) (j : Z) : R := nth (Z.to_nat j) V 0.
Definition mid3 (a b : vec3) : vec3 := scal3 (1/2) (add3 a b).
(** twice the area vector of the triangle x y z *)
Definition tri_normal (x y z : vec3) : vec3 := cross3 (sub3 y x) (sub3 z x).
Definition pos3 (V : list vec3) (i : Z) : vec3 := nth (Z.to_nat i) V zero3.
Definition face_area (V : list vec3) (t : Z*Z*Z) : R := let '(a, b, c) := t in norm3 (tri_normal (pos3 V a) (pos3 V b) (pos3 V c)) / 2.
Definition total_area (V : list vec3) (F : list (Z*Z*Z)) : R := sumf (face_area V) F.
(** Loop weight of each neighbour of an interior vertex of valence N (Warren's variant): 3/16 for N = 3, 3/(8N) otherwise *)
Definition loop_weight (N : nat) : R := if Nat.eqb N 3 then 3/16 else 3 / (8 * INR N).
