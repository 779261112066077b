(** The voxel grid that swept_volume contours: src/cpp/swept_volume/sparse_continuation.cpp:11-609 (the overload with scalar times, which swept_volume.cpp:358 calls).
    A point p0 + (eps/2) h of the grid is the integer vector h (line 138: corner i of the voxel pi is p0 + eps pi + (eps/2) d with d a sum of signed axes).
    First the grid for a list of queue entries, each with a flag that says whether line 498 finds correspondence = -1; then the values of the vertices.  What is not modelled: the times and
    intervals, which decide what the scalar function is asked, and the choice of the next entry: the answers and the order are arbitrary.  A double other than nan and infinities is a rational
    and the code only compares the answers, so rationals are exact here. *)
From Coq Require Import ZArith QArith List Bool.
Import ListNotations.
Open Scope Z_scope.

Definition vec := (Z * Z * Z)%type.
Definition add (a b : vec) : vec := let '(x, y, z) := a in let '(u, v, w) := b in (x + u, y + v, z + w).
Definition opp (a : vec) : vec := let '(x, y, z) := a in (- x, - y, - z).
Definition sub (a b : vec) : vec := add a (opp b).
Definition veqb (a b : vec) : bool := let '(x, y, z) := a in let '(u, v, w) := b in (x =? u) && (y =? v) && (z =? w).
(** :120 *)
Definition bx : vec := (1, 0, 0).
Definition by_ : vec := (0, 1, 0).
Definition bz : vec := (0, 0, -1).
(** :121-135 *)
Definition neighbors : list vec :=
  [bx; opp bx; by_; opp by_; bz; opp bz;
   sub by_ bz; add (opp by_) bz; add bx by_; sub (opp bx) by_; add by_ bz; sub (opp by_) bz; sub by_ bx; add (opp by_) bx; sub bx bz; add (opp bx) bz; add bx bz; sub (opp bx) bz;
   add (add (opp bx) by_) bz; sub (sub bx by_) bz; add (add bx by_) bz; sub (sub (opp bx) by_) bz; sub (add bx by_) bz; add (sub (opp bx) by_) bz; sub (add (opp bx) by_) bz; add (sub bx by_) bz;
   sub bx bx; sub bx bx; sub bx bx; sub bx bx].
(** :138-141: the corners from the centre, in half edges *)
Definition corners : list vec :=
  [add (add bx by_) bz; sub (add bx by_) bz; sub (add (opp bx) by_) bz; add (add (opp bx) by_) bz; add (sub bx by_) bz; sub (sub bx by_) bz; sub (sub (opp bx) by_) bz; add (sub (opp bx) by_) bz].
Definition corner (pi : vec) (i : nat) : vec := add (add pi pi) (nth i corners (0, 0, 0)).
(** :156-183: the bits that are set *)
Definition zv : list (list nat) :=
  [[0; 1; 4; 5]; [2; 3; 6; 7]; [0; 1; 2; 3]; [4; 5; 6; 7]; [0; 3; 4; 7]; [1; 2; 5; 6]; [1; 2]; [4; 7]; [0; 1]; [6; 7]; [0; 3]; [5; 6]; [2; 3]; [4; 5]; [1; 5]; [3; 7]; [0; 4]; [2; 6];
   [3]; [5]; [0]; [6]; [1]; [7]; [2]; [4]; [0; 1; 2; 3]; [0; 1; 2; 3]; [4; 5; 6; 7]; [4; 5; 6; 7]]%nat.
(** :184-193; None is -1 *)
Notation o := (@None nat).
Definition zvv : list (list (option nat)) :=
  let s := @Some nat in
  [[s 0; s 1; s 4; s 5]; [s 3; s 2; s 7; s 6]; [s 0; s 1; s 2; s 3];
   [s 4; s 5; s 6; s 7]; [s 0; s 3; s 4; s 7]; [s 1; s 2; s 5; s 6];
   [o; o; s 1; s 2]; [o; o; s 4; s 7]; [o; o; s 0; s 1]; [o; o; s 7; s 6];
   [o; o; s 0; s 3]; [o; o; s 5; s 6]; [o; o; s 2; s 3]; [o; o; s 5; s 4];
   [o; o; s 1; s 5]; [o; o; s 3; s 7]; [o; o; s 0; s 4]; [o; o; s 2; s 6];
   [o; o; o; s 3]; [o; o; o; s 5]; [o; o; o; s 0]; [o; o; o; s 6];
   [o; o; o; s 1]; [o; o; o; s 7]; [o; o; o; s 2]; [o; o; o; s 4];
   [s 0; s 1; s 2; s 3]; [s 0; s 1; s 2; s 3]; [s 4; s 5; s 6; s 7]; [s 4; s 5; s 6; s 7]]%nat.
(** the hash table and CI_vector (lines 525-526): the voxels in the order of their numbers, with their cubes; and CV_vector *)
Record grid := { cells : list (vec * list Z); verts : list vec }.
(** :201, 385, 499: visited.find *)
Fixpoint find (cs : list (vec * list Z)) (key : vec) : option (list Z) :=
  match cs with [] => None | (k, c) :: r => if veqb k key then Some c else find r key end.
Definition set {A} (c : list A) (i : nat) (v : A) : list A := firstn i c ++ v :: skipn (S i) c.
(** :205: n % 2 == 0 ? n + 1 : n - 1 *)
Definition partner (n : nat) : nat := if Nat.even n then (n + 1)%nat else (n - 1)%nat.
(** :203-207, 389-391: one visited neighbor; entry -1 of the partner's row would be an access out of bounds *)
Definition take (n : nat) (c : list Z) (cube : list Z) : list Z :=
  fold_left (fun cube i => match nth i (nth n zvv []) None with
    | Some k => set cube k (match nth i (nth (partner n) zvv []) None with Some j => nth j c (-1) | None => -1 end) | None => cube end) (seq 0 4) cube.
(** :197-209: the corners that visited neighbors know, and the mask (lines 384-388) *)
Definition known (pi : vec) (cs : list (vec * list Z)) : list Z * list nat :=
  fold_left (fun s n => match find cs (add pi (nth n neighbors (0, 0, 0))) with Some c => (take n c (fst s), snd s ++ nth n zv []) | None => s end) (seq 0 30) (repeat (-1) 8, []).
(** :500-523: one corner *)
Definition put (pi : vec) (mask : list nat) (s : list Z * list vec) (i : nat) : list Z * list vec :=
  if existsb (Nat.eqb i) mask then s else (set (fst s) i (Z.of_nat (length (snd s))), snd s ++ [corner pi i]).
(** :101-527: one queue entry, without lines 213-227 *)
Definition visit (g : grid) (e : vec * bool) : grid :=
  let '(pi, reaches) := e in
  let '(cube, mask) := known pi (cells g) in
  match find (cells g) pi with
  | Some _ => g
  | None => if reaches then let '(cube, vs) := fold_left (put pi mask) (seq 0 8) (cube, verts g) in {| cells := cells g ++ [(pi, cube)]; verts := vs |} else g
  end.
(** :100-560, for the entries that lines 213-227 do not skip *)
Definition continuation (entries : list (vec * bool)) : grid := fold_left visit entries {| cells := []; verts := [] |}.

(** ** the values *)
(** the grid, and CS_vector *)
Record state := { grd : grid; scalars : list Q }.
(** an entry of the queue: the voxel, whether its correspondence is -1, and what scalarFunc returns at the corners (:250, :341) *)
Definition job := (vec * bool * (nat -> Q))%type.
(** std::min *)
Definition qmin (a b : Q) : Q := if Qle_bool a b then a else b.
(** :434-440: the pairs (zvv[n][i], number of that vertex) of the visited neighbors, in the order of the loops *)
Definition links (pi : vec) (cs : list (vec * list Z)) : list (nat * Z) :=
  flat_map (fun n => match find cs (add pi (nth n neighbors (0, 0, 0))) with None => []
    | Some c => flat_map (fun i => match nth i (nth n zvv []) None with None => [] | Some k => [(k, match nth i (nth (partner n) zvv []) None with Some j => nth j c (-1) | None => -1 end)] end) (seq 0 4) end) (seq 0 30).
(** :441-443 *)
Definition lower (s : list Q * list Q) (l : nat * Z) : list Q * list Q :=
  let m := qmin (nth (Z.to_nat (snd l)) (snd s) 0%Q) (nth (fst l) (fst s) 0%Q) in (set (fst s) (fst l) m, set (snd s) (Z.to_nat (snd l)) m).
(** :213-227: all corners known, with values that are not positive *)
Definition inside (cube : list Z) (cs : list Q) : bool := forallb (fun k => negb (nth k cube (-1) =? -1) && Qle_bool (nth (Z.to_nat (nth k cube (-1))) cs 0%Q) 0) (seq 0 8).
Definition work (s : state) (j : job) : state :=
  let '(pi, first, ans) := j in let '(cube, mask) := known pi (cells (grd s)) in
  if inside cube (scalars s) then s
  else let '(scal, cs) := fold_left lower (links pi (cells (grd s))) (map ans (seq 0 8), scalars s) in
    {| grd := visit (grd s) (pi, first);
       (* :514-521 *)
       scalars := match find (cells (grd s)) pi with
         | None => if first then cs ++ map (fun i => nth i scal 0%Q) (filter (fun i => negb (existsb (Nat.eqb i) mask)) (seq 0 8)) else cs | Some _ => cs end |}.
Definition run (jobs : list job) : state := fold_left work jobs {| grd := {| cells := []; verts := [] |}; scalars := [] |}.
