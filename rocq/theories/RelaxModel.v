(** src/cpp/remesher/tangential_relaxation.cpp: the smoothing stage of remesh_botsch.
    Matrices are functions of their indices, doubles exact reals.  igl::adjacency_list (A), igl::per_vertex_normals (Nrm) and igl::point_mesh_squared_distance (closest: the projections V_projected of all rows of V to the mesh V0,F0) are parameters. *)
From Coq Require Import Reals List Arith Bool.
From Verif Require Import Vec SplitModel.
Import ListNotations.
Open Scope nat_scope.

(** tangential_relaxation.cpp:29-42 *)
Definition closest_point_on_segment (p a b : vec3) : vec3 :=
  let ab := sub3 b a in let denom := dot3 ab ab in
  if Rle_dec denom 0 then a else
  let t := (dot3 (sub3 p a) ab / denom)%R in
  let t := if Rlt_dec t 0 then 0%R else t in
  let t := if Rlt_dec 1 t then 1%R else t in
  add3 a (scal3 t ab).
(** :74-80: the feature neighbours of a vertex, in the order of push_back *)
Definition feat_adj (fe : list (nat * nat)) (v : nat) : list nat :=
  flat_map (fun r => (if Nat.eqb (fst r) v then [snd r] else []) ++ (if Nat.eqb (snd r) v then [fst r] else [])) fe.
(** :88-89, :117-118 *)
Definition is_fixed (feature : list nat) (fe : list (nat * nat)) (i : nat) : bool :=
  let fdeg := length (feat_adj fe i) in existsb (Nat.eqb i) feature || (Nat.leb 1 fdeg && negb (Nat.eqb fdeg 2)).
(** :99-109: q is the average of the neighbours, lambda(i) (I - N N^T) acts on V_i - q *)
Definition tangential (lambda : nat -> R) (A : nat -> list nat) (Nrm : nat -> vec3) (V : nat -> vec3) (i : nat) : vec3 :=
  let q := fold_left (fun q j => add3 q (scal3 (/ INR (length (A i))) (V j))) (A i) zero3 in
  let d := sub3 (V i) q in
  sub3 (V i) (scal3 (lambda i) (sub3 d (scal3 (dot3 (Nrm i) d) (Nrm i)))).
(** :86-110, one row; rows before i have already been overwritten *)
Definition smooth_row (feature : list nat) (fe : list (nat * nat)) lambda A Nrm (V : nat -> vec3) (i : nat) : vec3 :=
  if is_fixed feature fe i then V i else
  if Nat.eqb (length (feat_adj fe i)) 2 then scal3 (/ 2) (add3 (V (nth 0 (feat_adj fe i) 0)) (V (nth 1 (feat_adj fe i) 0)))
  else tangential lambda A Nrm V i.
Definition smooth (n : nat) feature fe lambda A Nrm (V : nat -> vec3) : nat -> vec3 :=
  fold_left (fun V i => set1 V i (smooth_row feature fe lambda A Nrm V i)) (seq 0 n) V.
(** :128-136; the first candidate always beats the initial infinity *)
Definition to_polyline (featV0 : nat -> vec3) (featE0 : list (nat * nat)) (p : vec3) : vec3 :=
  match fold_left (fun best r => let c := closest_point_on_segment p (featV0 (fst r)) (featV0 (snd r)) in let d := dot3 (sub3 p c) (sub3 p c) in
                     match best with Some (bd, _) => if Rlt_dec d bd then Some (d, c) else best | None => Some (d, c) end) featE0 None with
  | Some (_, c) => c | None => p end.
(** :44-144; V_fixed is the V before smoothing *)
Definition tangential_relaxation (closest : (nat -> vec3) -> (nat -> vec3) -> (nat -> nat -> nat) -> nat -> vec3) (n : nat) (feature : list nat) (fe : list (nat * nat))
  (lambda : nat -> R) (A : nat -> list nat) (Nrm : nat -> vec3) (V0 : nat -> vec3) (F0 : nat -> nat -> nat) (featV0 : nat -> vec3) (featE0 : list (nat * nat)) (project : bool) (V : nat -> vec3) : nat -> vec3 :=
  let W := smooth n feature fe lambda A Nrm V in
  let V_projected := closest W V0 F0 in
  fun i => if negb (Nat.ltb i n) then V i else
           if is_fixed feature fe i then V i else
           if Nat.eqb (length (feat_adj fe i)) 2 then (if project && negb (Nat.eqb (length featE0) 0) then to_polyline featV0 featE0 (W i) else W i)
           else V_projected i.
