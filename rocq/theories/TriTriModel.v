(** triangle_triangle_distance.py:46-181.  Exact reals; edge_edge_distance is the model of EdgeEdgeModel.
    mindd starts at |S0-T0|^2 + 10 (:56), so the first pair of edges always replaces it. *)
From Coq Require Import List Arith Bool Reals.
From Verif Require Import Vec EdgeEdgeModel.
Import ListNotations.
Open Scope R_scope.

Record tri := mkTri { v0 : vec3; v1 : vec3; v2 : vec3 }.
(** S[i], T[j]; Sv[i], Tv[j] (:47-50) *)
Definition vx (S : tri) (i : nat) : vec3 := match i with O => v0 S | 1%nat => v1 S | _ => v2 S end.
Definition ev (S : tri) (i : nat) : vec3 := sub3 (vx S ((i + 1) mod 3)) (vx S i).
(** :64 the closest points of edge i of S and edge j of T *)
Definition ee (S T : tri) (i j : nat) : vec3 * vec3 :=
  let r := edge_edge_distance (vx S i) (add3 (vx S i) (ev S i)) (vx T j) (add3 (vx T j) (ev T j)) in (snd (fst r), snd r).
(** :58-91 the loop over pairs of edges; inl: the function returns, inr: (mindd, shown_disjoint) *)
Fixpoint edge_loop (S T : tri) (pairs : list (nat * nat)) (mindd : R) (shown : bool) : R + R * bool :=
  match pairs with
  | [] => inr (mindd, shown)
  | (i, j) :: rest =>
    let P := fst (ee S T i j) in let Q := snd (ee S T i j) in
    let V := sub3 Q P in let dd := dot3 V V in
    if Rle_dec dd mindd then
      let a := dot3 (sub3 (vx S ((i + 2) mod 3)) P) V in                              (* :77-78 *)
      let b := dot3 (sub3 (vx T ((j + 2) mod 3)) Q) V in                              (* :79-80 *)
      if Rle_dec a 0 then (if Rge_dec b 0 then inl (sqrt dd)                          (* :81-84 *)
        else edge_loop S T rest dd (if Rgt_dec (dd - (if Rlt_dec a 0 then 0 else a) + (if Rgt_dec b 0 then 0 else b)) 0 then true else shown))
      else edge_loop S T rest dd (if Rgt_dec (dd - (if Rlt_dec a 0 then 0 else a) + (if Rgt_dec b 0 then 0 else b)) 0 then true else shown)   (* :85-91 *)
    else edge_loop S T rest mindd shown
  end.
Definition pairs9 : list (nat * nat) := [(0,0);(0,1);(0,2);(1,0);(1,1);(1,2);(2,0);(2,1);(2,2)]%nat.
Definition thr : R := / 1000000000000000.
(** :94-136 with (S,T), :138-174 with (T,S): the normal of the first triangle, the closest vertex of the second if all three are strictly
    on one side, and the distance if it projects strictly inside.  Result: the value returned, if any, and whether [shown_disjoint] was set. *)
Definition nearest (x0 x1 x2 : R) : nat :=
  let p := if Rlt_dec x0 x1 then 0%nat else 1%nat in if Rlt_dec x2 (if Rlt_dec x0 x1 then x0 else x1) then 2%nat else p.
Definition face_point (x0 x1 x2 : R) : option nat :=
  if Rgt_dec x0 0 then (if Rgt_dec x1 0 then (if Rgt_dec x2 0 then Some (nearest x0 x1 x2) else None) else None)            (* :101-107 *)
  else if Rlt_dec x0 0 then (if Rlt_dec x1 0 then (if Rlt_dec x2 0 then Some (nearest (- x0) (- x1) (- x2)) else None) else None) else None.   (* :108-114 *)
Definition nrm (S : tri) : vec3 := cross3 (ev S 0) (ev S 1).
Definition face_test (S T : tri) : option R * bool :=
  let n := nrm S in let nn := dot3 n n in
  if Rgt_dec nn thr then
    let h j := dot3 n (sub3 (v0 S) (vx T j)) in
    match face_point (h 0%nat) (h 1%nat) (h 2%nat) with
    | None => (None, false)
    | Some p =>
      let ins i := dot3 (sub3 (vx T p) (vx S i)) (cross3 n (ev S i)) in
      if Rgt_dec (ins 0%nat) 0 then if Rgt_dec (ins 1%nat) 0 then if Rgt_dec (ins 2%nat) 0 then
        (Some (norm3 (sub3 (add3 (vx T p) (scal3 (h p / nn) n)) (vx T p))), true)
      else (None, true) else (None, true) else (None, true)
    end
  else (None, false).
Definition triangle_triangle_distance (S T : tri) : R :=
  match edge_loop S T pairs9 (dot3 (sub3 (v0 S) (v0 T)) (sub3 (v0 S) (v0 T)) + 10) false with
  | inl r => r
  | inr (mindd, sh) =>
    match face_test S T with
    | (Some r, _) => r
    | (None, sh1) => match face_test T S with
      | (Some r, _) => r
      | (None, sh2) => if sh || sh1 || sh2 then sqrt mindd else 0                       (* :176-181 *)
      end
    end
  end.
