(** src/cpp/remesher/equalize_valences.cpp: the edge-flipping stage of remesh_botsch.
    Arrays are functions, doubles exact reals, int overflow is not modelled; the edge tables are those of SplitModel.  igl::flip_edge is the parameter [flip] (faces, tables, number of faces, unique edge). *)
From Coq Require Import Reals List Arith Bool ZArith.
From Verif Require Import Vec SplitModel.
Import ListNotations.
Open Scope nat_scope.

(** equalize_valences.cpp:60-64 *)
Definition bump (val : nat -> Z) (v : nat) (d : Z) : nat -> Z := set1 val v (val v + d)%Z.
Definition face_counts (F : nat -> nat -> nat) (m : nat) : nat -> Z :=
  fold_left (fun val j => bump (bump (bump val (F j 0) 1) (F j 1) 1) (F j 2) 1) (seq 0 m) (fun _ => 0%Z).
(** igl::adjacency_list(E,A), :54: the lists are only searched, so their order and repetitions do not matter and are not modelled *)
Definition neighbours (F : nat -> nat -> nat) (m v : nat) : list nat :=
  flat_map (fun f => flat_map (fun c => let x := F f ((c + 1) mod 3) in let y := F f ((c + 2) mod 3) in (if Nat.eqb x v then [y] else []) ++ (if Nat.eqb y v then [x] else [])) [0; 1; 2]) (seq 0 m).
(** Eigen's normalize(): zero vectors stay zero *)
Definition normalize (v : vec3) : vec3 := if Rlt_dec 0 (dot3 v v) then scal3 (/ norm3 v) v else v.
(** :112-118 *)
Definition heron (a b c : R) : R := let s := ((a + b + c) / 2)%R in (s * (s - a) * (s - b) * (s - c))%R.
Definition lt_b (x y : R) : bool := if Rlt_dec x y then true else false.
Definition zero_b (x : R) : bool := if Req_EM_T x 0 then true else false.
(** :111-175; p1..p4 are the positions of v1..v4 *)
Definition bad_shape (p1 p2 p3 p4 : vec3) : bool :=
  let d p q := norm3 (sub3 p q) in
  let area_1 := heron (d p1 p3) (d p1 p4) (d p4 p3) in let area_2 := heron (d p2 p3) (d p2 p4) (d p4 p3) in
  let v21 := sub3 p2 p1 in let v31 := sub3 p3 p1 in let v41 := sub3 p4 p1 in let v24 := sub3 p2 p4 in let v34 := sub3 p3 p4 in let v43 := sub3 p4 p3 in let v23 := sub3 p2 p3 in
  let normf10 := normalize (cross3 v21 v31) in let normf11 := normalize (cross3 v41 v31) in let normf12 := normalize (cross3 v24 v34) in
  let normf20 := normalize (cross3 v41 v21) in let normf21 := normalize (cross3 v43 v23) in let normf22 := normalize (cross3 v41 v31) in
  lt_b (dot3 normf10 normf11) (norm3 normf11 / 2) || lt_b (dot3 normf10 normf12) (norm3 normf12 / 2)
  || lt_b (dot3 normf20 normf21) (norm3 normf21 / 2) || lt_b (dot3 normf20 normf22) (norm3 normf22 / 2)
  || zero_b area_1 || zero_b area_2.
Record fstate := { fF : nat -> nat -> nat; fE : edges; fval : nat -> Z; fadj : nat -> list nat }.
Section Equalize.
  Variable flip : (nat -> nat -> nat) -> edges -> nat -> nat -> (nat -> nat -> nat) * edges.
  Variables (m : nat) (V : nat -> vec3) (feature : list nat) (fe : list (nat * nat)).
  (** :95-202 flip_edge_adjacency; std::remove_if(begin,begin,..) (:195-196) works on an empty range, so the old neighbours stay in A *)
  Definition flip_edge_adjacency (st : fstate) (uei : nat) : fstate :=
    let F := fF st in let e := fE st in
    let f1 := slot e uei 0 mod m in let f2 := slot e uei 1 mod m in let c1 := slot e uei 0 / m in let c2 := slot e uei 1 / m in
    let v1 := F f1 ((c1 + 1) mod 3) in let v2 := F f1 ((c1 + 2) mod 3) in let v4 := F f1 c1 in let v3 := F f2 c2 in
    let bad := bad_shape (V v1) (V v2) (V v3) (V v4) || existsb (Nat.eqb v4) (fadj st v3) || negb (Nat.eqb (size e uei) 2) in
    if bad then st else
      let r := flip F e m uei in
      {| fF := fst r; fE := snd r;
         fval := bump (bump (bump (bump (fval st) v1 (-1)) v2 (-1)) v3 1) v4 1;
         fadj := let A := set1 (fadj st) v3 (fadj st v3 ++ [v4]) in set1 A v4 (A v4 ++ [v3]) |}.
  (** :205-246 *)
  Definition equalize_one (st : fstate) (i : nat) : fstate :=
    let F := fF st in let e := fE st in
    if negb (Nat.eqb (size e i) 2) then st else
    let f1 := slot e i 0 mod m in let f2 := slot e i 1 mod m in let c1 := slot e i 0 / m in let c2 := slot e i 1 / m in
    let a := F f1 ((c1 + 1) mod 3) in let b := F f1 ((c1 + 2) mod 3) in let c := F f1 c1 in let d := F f2 c2 in
    let isf v := existsb (Nat.eqb v) feature in
    let is_feature_edge := existsb (same_edge (a, b)) fe || (isf a || isf b || isf c || isf d) in
    if is_feature_edge then st else
    let val := fval st in
    let deviation_pre := (Z.abs (val a - 6) + Z.abs (val b - 6) + Z.abs (val c - 6) + Z.abs (val d - 6))%Z in
    let deviation_post := (Z.abs (val a - 1 - 6) + Z.abs (val b - 6 - 1) + Z.abs (val c - 6 + 1) + Z.abs (val d - 6 + 1))%Z in
    if (deviation_post <? deviation_pre)%Z then flip_edge_adjacency st i else st.
  (** :35-246; k is the number of unique edges, e what igl::unique_edge_map makes of F *)
  Definition equalize_valences (k : nat) (F : nat -> nat -> nat) (e : edges) : fstate :=
    fold_left equalize_one (seq 0 k) {| fF := F; fE := e; fval := face_counts F m; fadj := neighbours F m |}.
End Equalize.
(** igl::flip_edge, as far as the faces go: the faces v4 v1 v2 and v3 v2 v1 at the edge v1 v2 become v1 v3 v4 and v2 v4 v3; the tables follow (libigl is not part of /repo; used as a witness that the contract in FlipProofs can be met) *)
Definition igl_flip (F : nat -> nat -> nat) (e : edges) (m uei : nat) : (nat -> nat -> nat) * edges :=
  let h1 := slot e uei 0 in let h2 := slot e uei 1 in
  let f1 := h1 mod m in let f2 := h2 mod m in let c1 := h1 / m in let c2 := h2 / m in
  let v1 := F f1 ((c1 + 1) mod 3) in let v2 := F f1 ((c1 + 2) mod 3) in let v4 := F f1 c1 in let v3 := F f2 c2 in
  let e_24 := f1 + ((c1 + 1) mod 3) * m in let e_41 := f1 + ((c1 + 2) mod 3) * m in let e_13 := f2 + ((c2 + 1) mod 3) * m in let e_32 := f2 + ((c2 + 2) mod 3) * m in
  let F' f c := if Nat.eqb f f1 then nth c [v1; v3; v4] 0 else if Nat.eqb f f2 then nth c [v2; v4; v3] 0 else F f c in
  let mv h := if Nat.eqb h e_24 then f2 + 2 * m else if Nat.eqb h e_41 then f1 + 1 * m else if Nat.eqb h e_13 then f1 + 2 * m else if Nat.eqb h e_32 then f2 + 1 * m else h in
  (F', {| uE := set1 (uE e) uei (v3, v4);
          EMAP := set1 (set1 (set1 (set1 (set1 (set1 (EMAP e) (f1 + 0 * m) uei) (f1 + 1 * m) (EMAP e e_41)) (f1 + 2 * m) (EMAP e e_13)) (f2 + 0 * m) uei) (f2 + 1 * m) (EMAP e e_32)) (f2 + 2 * m) (EMAP e e_24);
          slot := fun u j => if Nat.eqb u uei then nth j [f1; f2] 0 else mv (slot e u j);
          size := size e |}).
