(** src/cpp/remesher/remesh_botsch.cpp: the loop over the four stages.
    The libigl functions used by the stages are the fields of [igl]: unique_edge_map (tables: number of unique edges and the tables), decimate, flip_edge, adjacency_list, per_vertex_normals, point_mesh_squared_distance.  Arrays are functions with separate sizes, doubles exact reals. *)
From Coq Require Import Reals List Arith Bool.
From Verif Require Import Vec SplitModel FlipModel RelaxModel CollapseModel.
Import ListNotations.
Open Scope nat_scope.

Record igl := {
  unique_edge_map : (nat -> nat -> nat) -> nat -> nat * edges;
  decimate : (dmesh -> nat -> option (option R * vec3)) -> (nat -> vec3) -> (nat -> nat -> nat) -> nat -> nat -> dresult;
  flip_edge : (nat -> nat -> nat) -> edges -> nat -> nat -> (nat -> nat -> nat) * edges;
  adjacency_list : (nat -> nat -> nat) -> nat -> nat -> list nat;
  per_vertex_normals : (nat -> vec3) -> (nat -> nat -> nat) -> nat -> nat -> vec3;
  point_mesh_distance : nat -> nat -> (nat -> vec3) -> (nat -> vec3) -> (nat -> nat -> nat) -> nat -> vec3 }.
Record mesh := { vn : nat; fm : nat; mV : nat -> vec3; mF : nat -> nat -> nat; mhigh : nat -> R; mlow : nat -> R; mfeature : list nat; mfe : list (nat * nat) }.
(** remesh_botsch.cpp:29-40, one iteration; V0, F0, m0 are the reference mesh (the current mesh unless [project]), featV0 and featE0 the feature curves of the input *)
Definition iteration (g : igl) (cf uf : nat) (project : bool) (V0 : nat -> vec3) (F0 : nat -> nat -> nat) (m0 : nat) (featV0 : nat -> vec3) (featE0 : list (nat * nat)) (x : mesh) : option mesh :=
  let t := unique_edge_map g (mF x) (fm x) in
  let s := split_edges_until_bound (vn x) (fm x) (fst t) {| V := mV x; F := mF x; high := mhigh x; low := mlow x; ed := snd t |} (mfeature x) (mfe x) in
  let st := sst s in
  let cb := cost_and_placement cf (sm s) (mfeature x) (sfe s) (high st) (low st) (adjacency_list g (F st) (sm s)) in
  let r := decimate g cb (V st) (F st) (sn s) (sm s) in
  bindo (collapse_edges uf (sn s) r (mfeature x) (sfe s) (high st) (low st)) (fun o =>
  let t2 := unique_edge_map g (oF o) (om o) in
  let F2 := fF (equalize_valences (flip_edge g) (om o) (oV o) (ofeature o) (ofe o) (fst t2) (oF o) (snd t2)) in
  let R0 := if project then V0 else oV o in let G0 := if project then F0 else F2 in let k0 := if project then m0 else om o in
  let V3 := tangential_relaxation (point_mesh_distance g (on_ o) k0) (on_ o) (ofeature o) (ofe o) (fun _ => 1%R) (adjacency_list g F2 (om o)) (per_vertex_normals g (oV o) F2 (om o)) R0 G0 featV0 featE0 project (oV o) in
  Some {| vn := on_ o; fm := om o; mV := V3; mF := F2; mhigh := ohigh o; mlow := olow o; mfeature := ofeature o; mfe := ofe o |}).
Fixpoint iterations (k : nat) (f : mesh -> option mesh) (x : mesh) : option mesh := match k with O => Some x | S j => bindo (f x) (iterations j f) end.
(** remesh_botsch.cpp:14-41 and :94-99 with the target length h *)
Definition remesh (g : igl) (cf uf : nat) (V : nat -> vec3) (F : nat -> nat -> nat) (n m : nat) (h : R) (iters : nat) (feature : list nat) (fe : list (nat * nat)) (project : bool) : option mesh :=
  iterations iters (iteration g cf uf project V F m V fe)
    {| vn := n; fm := m; mV := V; mF := F; mhigh := fun _ => (1.4 * h)%R; mlow := fun _ => (0.7 * h)%R; mfeature := feature; mfe := fe |}.
