(** src/cpp/remesher/split_edges.cpp and split_edges_until_bound.cpp: the splitting stage of remesh_botsch.
    Eigen matrices and std::vectors are functions of their indices, updated in place; their sizes are separate numbers.  int overflow is not modelled, doubles are exact reals.
    The matrix E of split_edges (the directed edges) is written but only read inside assert(), and assert() itself is compiled out: both are left out.
    uE2E[u] is the pair of slots [slot u 0], [slot u 1] and the size [size u]; slot u 1 of a one-element vector stands for the memory behind it (split_edges.cpp:53-59 reads and writes it). *)
From Coq Require Import Reals List Arith Bool.
From Verif Require Import Vec.
Import ListNotations.
Open Scope nat_scope.

Definition set1 {A} (a : nat -> A) (i : nat) (v : A) : nat -> A := fun j => if Nat.eqb j i then v else a j.
Definition set2 {A} (a : nat -> nat -> A) (i c : nat) (v : A) : nat -> nat -> A := fun j d => if Nat.eqb j i && Nat.eqb d c then v else a j d.
Definition mid3 (p q : vec3) : vec3 := scal3 (/ 2) (add3 p q).

(** the output of igl::unique_edge_map (without E) *)
Record edges := { uE : nat -> nat * nat; EMAP : nat -> nat; slot : nat -> nat -> nat; size : nat -> nat }.
Record state := { V : nat -> vec3; F : nat -> nat -> nat; high : nat -> R; low : nat -> R; ed : edges }.

(** split_edges.cpp:44-60: half-edge numbers f + c*m become f + c*(m+2s) *)
Definition shift (m s h : nat) : nat := if 2 * m <=? h then h + 4 * s else if m <=? h then h + 2 * s else h.
Definition relayout (m s k : nat) (e : edges) : edges :=
  let H := m + 2 * s in
  {| uE := uE e;
     slot := fun u j => if u <? k then shift m s (slot e u j) else 0;                       (* :44-60, :78-81 *)
     size := fun u => if u <? k then size e u else 2;
     EMAP := fun h => if (h mod H <? m) && (h / H <? 3) then EMAP e (h mod H + h / H * m) else 0 |}.   (* :85-102 *)

(** the body of the loop :105-313 for the i-th edge; n, m, k are the sizes before the splits and H the number of faces after them *)
Definition split_one (n m k H : nat) (i uei : nat) (st : state) : state :=
  let e := ed st in let F := F st in
  let e0 := slot e uei 0 in let e1 := slot e uei 1 in                                        (* :118-119 *)
  let f0 := e0 mod H in let f1 := e1 mod H in let c0 := e0 / H in let c1 := e1 / H in        (* :121-124 *)
  let e2 := f1 + ((c1 + 1) mod 3) * H in let e3 := f1 + ((c1 + 2) mod 3) * H in              (* :127-130 *)
  let e4 := f0 + ((c0 + 1) mod 3) * H in let e5 := f0 + ((c0 + 2) mod 3) * H in
  let ue2 := EMAP e e2 in let ue3 := EMAP e e3 in let ue4 := EMAP e e4 in let ue5 := EMAP e e5 in   (* :132-135 *)
  let v1 := F f0 ((c0 + 1) mod 3) in let v2 := F f0 ((c0 + 2) mod 3) in let v4 := F f0 c0 in let v3 := F f1 c1 in     (* :142-145 *)
  let w := n + i in let fm := m + 2 * i in let fn := m + 2 * i + 1 in
  let F1 := set2 (set2 (set2 F f0 c0 v4) f0 ((c0 + 1) mod 3) v1) f0 ((c0 + 2) mod 3) w in    (* :185-187 *)
  let F2 := set2 (set2 (set2 F1 f1 c1 v3) f1 ((c1 + 1) mod 3) w) f1 ((c1 + 2) mod 3) v1 in   (* :189-191 *)
  let F3 := set2 (set2 (set2 F2 fm 0 v2) fm 1 w) fm 2 v3 in                                  (* :193-195 *)
  let F4 := set2 (set2 (set2 F3 fn 0 v2) fn 1 v4) fn 2 w in                                  (* :197-199 *)
  let u0 := k + 3 * i in
  let uE1 := set1 (set1 (set1 (set1 (uE e) uei (w, v1)) u0 (w, v3)) (u0 + 1) (w, v4)) (u0 + 2) (w, v2) in    (* :204-214 *)
  let s1 := set2 (set2 (slot e) uei 0 e0) uei 1 e1 in                                        (* :223-224 *)
  let s2 := set2 (set2 s1 u0 0 (f1 + ((c1 + 2) mod 3) * H)) u0 1 (fm + 0 * H) in             (* :227-228 *)
  let s3 := set2 (set2 s2 (u0 + 1) 0 (f0 + ((c0 + 1) mod 3) * H)) (u0 + 1) 1 (fn + 0 * H) in (* :231-232 *)
  let s4 := set2 (set2 s3 (u0 + 2) 0 (fm + 2 * H)) (u0 + 2) 1 (fn + 1 * H) in                (* :234-235 *)
  let replace (s : nat -> nat -> nat) (u old new : nat) := if Nat.eqb (s u 0) old then set2 s u 0 new else set2 s u 1 new in   (* :238-264 *)
  let s5 := replace s4 ue2 e2 (f1 + ((c1 + 1) mod 3) * H) in
  let s6 := replace s5 ue3 e3 (fm + 1 * H) in
  let s7 := replace s6 ue4 e4 (fn + 2 * H) in
  let s8 := replace s7 ue5 e5 (f0 + ((c0 + 2) mod 3) * H) in
  let M1 := set1 (set1 (set1 (EMAP e) (f0 + (c0 mod 3) * H) uei) (f0 + ((c0 + 1) mod 3) * H) (u0 + 1)) (f0 + ((c0 + 2) mod 3) * H) ue5 in     (* :298-300 *)
  let M2 := set1 (set1 (set1 M1 (f1 + (c1 mod 3) * H) uei) (f1 + ((c1 + 1) mod 3) * H) ue2) (f1 + ((c1 + 2) mod 3) * H) u0 in                 (* :302-304 *)
  let M3 := set1 (set1 (set1 M2 (fm + 0 * H) u0) (fm + 1 * H) ue3) (fm + 2 * H) (u0 + 2) in                                                 (* :306-308 *)
  let M4 := set1 (set1 (set1 M3 (fn + 0 * H) (u0 + 1)) (fn + 1 * H) (u0 + 2)) (fn + 2 * H) ue4 in                                           (* :310-312 *)
  {| V := set1 (V st) w (mid3 (V st v1) (V st v2));                                          (* :178-180 *)
     high := set1 (high st) w ((high st v1 + high st v2) / 2)%R; low := set1 (low st) w ((low st v1 + low st v2) / 2)%R;
     F := F4; ed := {| uE := uE1; EMAP := M4; slot := s8; size := size e |} |}.

Definition split_edges (n m k : nat) (es : list nat) (st : state) : state :=
  let s := length es in let H := m + 2 * s in
  fold_left (fun st p => split_one n m k H (fst p) (snd p) st) (combine (seq 0 s) es)
    {| V := V st; F := F st; high := high st; low := low st; ed := relayout m s k (ed st) |}.

(** split_edges_until_bound.cpp:34-39: unordered pairs *)
Definition same_edge (a b : nat * nat) : bool := (Nat.eqb (fst a) (fst b) && Nat.eqb (snd a) (snd b)) || (Nat.eqb (fst a) (snd b) && Nat.eqb (snd a) (fst b)).
(** :63-66 the row of an edge in feature_edges: the last one wins *)
Fixpoint feature_row (fe : list (nat * nat)) (a : nat * nat) : option nat :=
  match fe with
  | [] => None
  | b :: r => match feature_row r a with Some j => Some (S j) | None => if same_edge a b then Some 0 else None end
  end.
Definition has {A} (o : option A) : bool := match o with Some _ => true | None => false end.
(** :74-85 *)
Definition to_split (feature : list nat) (fe : list (nat * nat)) (st : state) (u : nat) : bool :=
  let a := fst (uE (ed st) u) in let b := snd (uE (ed st) u) in
  let isf v := existsb (Nat.eqb v) feature in
  let blocked := (isf a || isf b) && negb (has (feature_row fe (a, b))) in
  negb blocked && Nat.eqb (size (ed st) u) 2 &&
  (if Rlt_dec ((high st a + high st b) / 2) (norm3 (sub3 (V st a) (V st b))) then true else false).
Fixpoint set_row (l : list (nat * nat)) (j : nat) (x : nat * nat) : list (nat * nat) :=
  match l, j with [], _ => [] | _ :: r, O => x :: r | y :: r, S j => y :: set_row r j x end.
(** :93-126; [old] is the table of the unsplit edges *)
Definition split_features (n : nat) (old : nat -> nat * nat) (es : list nat) (fe0 : list (nat * nat)) : list (nat * nat) :=
  fold_left (fun fe p => match feature_row fe0 (old (snd p)) with
                         | None => fe
                         | Some row => set_row fe row (fst (old (snd p)), n + fst p) ++ [(n + fst p, snd (old (snd p)))]
                         end) (combine (seq 0 (length es)) es) fe0.
(** :42-131: the loop runs once (:128); n, m, k are the numbers of vertices, faces and unique edges, and [ed st] is what igl::unique_edge_map made of F *)
Record stage := { sn : nat; sm : nat; sst : state; sfe : list (nat * nat) }.
Definition split_edges_until_bound (n m k : nat) (st : state) (feature : list nat) (fe : list (nat * nat)) : stage :=
  let es := filter (to_split feature fe st) (seq 0 k) in
  match es with
  | [] => {| sn := n; sm := m; sst := st; sfe := fe |}
  | _ => {| sn := n + length es; sm := m + 2 * length es; sst := split_edges n m k es st; sfe := split_features n (uE (ed st)) es fe |}
  end.
