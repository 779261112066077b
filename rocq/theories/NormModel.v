(** per_face_normals.py:38-61, per_vertex_normals.py:36-54, dihedral_angles.py:46-66.  Exact reals; a row of
    NaN (0/0) is [None].  V is total on indices as in GeomModel.v. *)
From Coq Require Import Reals.
From Verif Require Import NumpyModel TopoModel.
From Verif Require Import PyExn Vec MatModel GeomModel WindModel.
Open Scope R_scope.

(** N / tile(norm(N)): a zero vector becomes NaN *)
Definition normalize3 (n : vec3) : option vec3 := if Req_EM_T (norm3 n) 0 then None else Some (unit3 n).
Definition normalize2 (n : vec2) : option vec2 := if Req_EM_T (norm2 n) 0 then None else Some (scal2 (/ norm2 n) n).
(** per_face_normals.py:50-61, dim 3 / dim 2 *)
Definition per_face_normals3 (V : Z -> vec3) (F : list tri) (unit_norm : bool) : list (option vec3) :=
  map (fun t => if unit_norm then normalize3 (face_normal3 V t) else Some (face_normal3 V t)) F.
Definition per_face_normals2 (V : Z -> vec2) (F : list (Z * Z)) (unit_norm : bool) : list (option vec2) :=
  map (fun t => if unit_norm then normalize2 (face_normal2 V t) else Some (face_normal2 V t)) F.

(** one row of csr_matrix @ dense with NaN rows: the stored entries (weight, row) of that row *)
Fixpoint wsum3 (l : list (R * option vec3)) : option vec3 :=
  match l with
  | [] => Some zero3
  | (w, None) :: _ => None
  | (w, Some n) :: r => match wsum3 r with None => None | Some s => Some (add3 (scal3 w n) s) end
  end.
Fixpoint wsum2 (l : list (R * option vec2)) : option vec2 :=
  match l with
  | [] => Some (0, 0)
  | (w, None) :: _ => None
  | (w, Some n) :: r => match wsum2 r with None => None | Some s => Some (add2 (scal2 w n) s) end
  end.
Definition obind {A B} (x : option A) (f : A -> option B) : option B := match x with Some a => f a | None => None end.
(** :45 I, one block per column of F: the vertex of every stored entry together with area and normal of its face *)
Definition entries3 (V : Z -> vec3) (F : list tri) : list (Z * (R * option vec3)) :=
  let fs := combine F (per_face_normals3 V F true) in
  let area t := doublearea (fun j => row_of3 (V j)) t in
  map (fun p => (c0 (fst p), (area (fst p), snd p))) fs ++ map (fun p => (c1 (fst p), (area (fst p), snd p))) fs ++ map (fun p => (c2 (fst p), (area (fst p), snd p))) fs.
Definition entries2 (V : Z -> vec2) (F : list (Z * Z)) : list (Z * (R * option vec2)) :=
  let fs := combine F (per_face_normals2 V F true) in
  let area t := doublearea_edge (fun j => row_of2 (V j)) t in
  map (fun p => (fst (fst p), (area (fst p), snd p))) fs ++ map (fun p => (snd (fst p), (area (fst p), snd p))) fs.
(** :48-54; the csr constructor rejects indices outside 0..n-1 *)
Definition per_vertex_normals3 (V : Z -> vec3) (n : nat) (F : list tri) : res (list (option vec3)) :=
  let en := entries3 V F in
  if forallb (fun e => (0 <=? fst e)%Z && (fst e <? Z.of_nat n)%Z) en then
    Ok (map (fun v => obind (wsum3 (map snd (filter (fun e => (fst e =? Z.of_nat v)%Z) en))) normalize3) (seq 0 n))
  else Err ValueError.
Definition per_vertex_normals2 (V : Z -> vec2) (n : nat) (F : list (Z * Z)) : res (list (option vec2)) :=
  let en := entries2 V F in
  if forallb (fun e => (0 <=? fst e)%Z && (fst e <? Z.of_nat n)%Z) en then
    Ok (map (fun v => obind (wsum2 (map snd (filter (fun e => (fst e =? Z.of_nat v)%Z) en))) normalize2) (seq 0 n))
  else Err ValueError.

(** dihedral_angles.py:59-64, one half-edge: normals of the face and of its neighbour *)
Definition crease (n1 n2 : option vec3) : option R :=
  match n1, n2 with Some a, Some b => Some (atan2 (norm3 (cross3 a b)) (dot3 a b)) | _, _ => None end.
(** :49-66; NaN is None *)
Definition dihedral_angles (V : Z -> vec3) (F : list tri) : res (list (option R * option R * option R)) :=
  let N := per_face_normals3 V F true in
  match triangle_triangle_adjacency F with
  | None => Err AssertionError
  | Some (TT, _) =>
    let ang (n1 : option vec3) (nb : Z) := if (nb <? 0)%Z then None else crease n1 (nth (Z.to_nat nb) N None) in
    Ok (map (fun p => let '(n1, (a, b, c)) := p in (ang n1 a, ang n1 b, ang n1 c)) (combine N TT))
  end.
