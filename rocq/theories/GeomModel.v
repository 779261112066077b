(** Models of the per-element geometry functions.  Vertex positions are total
    functions of the index (index range checks on V are not modelled; the sparse
    matrix constructors still check the shape).  Arithmetic is exact. *)
From Verif Require Import PyExn Vec MatModel.
From Verif Require Export GeomSpec.
Open Scope R_scope.


(** one row of an (m,3) real array *)
Definition r3 := (R * R * R)%type.

(** halfedge_lengths_squared.py:50-53, one face: squared lengths of the sides
    opposite corners 0,1,2 (halfedges order: (F1,F2),(F2,F0),(F0,F1)) *)
Definition sqlen (a b : list R) : R := dotl (subl a b) (subl a b).
Definition lsq_face (V : Z -> list R) (t : tri) : r3 :=
  (sqlen (V (c2 t)) (V (c1 t)), sqlen (V (c0 t)) (V (c2 t)), sqlen (V (c1 t)) (V (c0 t))).

(** doublearea_intrinsic.py:37-45, one face *)
Definition dblA (l_sq : r3) : R :=
  let a := sqrt (X l_sq) in let b := sqrt (Y l_sq) in let c := sqrt (Zc l_sq) in
  let arg := (a+(b+c)) * (c-(a-b)) * (c+(a-b)) * (a+(b-c)) in
  0.5 * sqrt (Rmax arg 0).

(** doublearea.py:51-58, simplex_size 3 *)
Definition doublearea_signed2 (V : Z -> vec2) (t : tri) : R :=
  let r := sub2 (V (c0 t)) (V (c2 t)) in
  let s := sub2 (V (c1 t)) (V (c2 t)) in
  fst r * snd s - snd r * fst s.
Definition doublearea (V : Z -> list R) (t : tri) : R := dblA (lsq_face V t).
(** doublearea.py:45-48, simplex_size 2 *)
Definition doublearea_edge (V : Z -> list R) (e : Z * Z) : R := 2 * sqrt (sqlen (V (snd e)) (V (fst e))).

(** volume.py:39-44, one tet *)
Definition volume (V : Z -> vec3) (t : Z * Z * Z * Z) : R :=
  let '(ia, ib, ic, id) := t in
  let a := V ia in let b := V ib in let c := V ic in let d := V id in
  - dot3 (sub3 a d) (cross3 (sub3 b c) (sub3 c d)) / 6.

(** cotangent_weights_intrinsic.py:40-44, one face *)
Definition cotw (l_sq : r3) : r3 :=
  let a := X l_sq in let b := Y l_sq in let c := Zc l_sq in
  let A := dblA l_sq in
  (0.25 * (b + c - a) / A, 0.25 * (c + a - b) / A, 0.25 * (a + b - c) / A).

(** An (m,3) index array together with an (m,3) real array *)
Definition faces_lsq := list (tri * r3).

(** cotangent_laplacian_intrinsic.py:41-49 *)
Definition cotangent_laplacian_intrinsic (L : faces_lsq) (n : Z) : res (list trip) :=
  let blk (r c : tri -> Z) (v : r3 -> R) := map (fun p => (r (fst p), c (fst p), v (cotw (snd p)))) L in
  csr n n (
    blk c0 c1 (fun C => - Zc C) ++ blk c1 c0 (fun C => - Zc C) ++
    blk c1 c2 (fun C => - X C) ++ blk c2 c1 (fun C => - X C) ++
    blk c2 c0 (fun C => - Y C) ++ blk c0 c2 (fun C => - Y C) ++
    blk c0 c0 (fun C => Y C + Zc C) ++ blk c1 c1 (fun C => Zc C + X C) ++ blk c2 c2 (fun C => X C + Y C)).
(** cotangent_laplacian.py:29-30 *)
Definition with_lsq (V : Z -> list R) (F : list tri) : faces_lsq := map (fun t => (t, lsq_face V t)) F.
Definition cotangent_laplacian (V : Z -> list R) (n : Z) (F : list tri) : res (list trip) :=
  cotangent_laplacian_intrinsic (with_lsq V F) n.

(** massmatrix_intrinsic.py:69-113, voronoi quads of one face *)
Definition cosines (l_sq : r3) : r3 :=
  let l0 := sqrt (X l_sq) in let l1 := sqrt (Y l_sq) in let l2 := sqrt (Zc l_sq) in
  ((Zc l_sq + Y l_sq - X l_sq) / (2 * l2 * l1),
   (X l_sq + Zc l_sq - Y l_sq) / (2 * l0 * l2),
   (Y l_sq + X l_sq - Zc l_sq) / (2 * l1 * l0)).
Definition voronoi_quads (l_sq : r3) : r3 :=
  let l0 := sqrt (X l_sq) in let l1 := sqrt (Y l_sq) in let l2 := sqrt (Zc l_sq) in
  let cs := cosines l_sq in
  let A := dblA l_sq in
  let b0 := X cs * l0 in let b1 := Y cs * l1 in let b2 := Zc cs * l2 in
  let s := b0 + b1 + b2 in
  let p0 := b0 / s * 0.5 * A in let p1 := b1 / s * 0.5 * A in let p2 := b2 / s * 0.5 * A in
  let q := ((p1 + p2) * 0.5, (p0 + p2) * 0.5, (p0 + p1) * 0.5) in
  let q := if Rlt_dec (X cs) 0 then (0.25 * A, 0.125 * A, 0.125 * A) else q in
  let q := if Rlt_dec (Y cs) 0 then (0.125 * A, 0.25 * A, 0.125 * A) else q in
  if Rlt_dec (Zc cs) 0 then (0.125 * A, 0.125 * A, 0.25 * A) else q.

(** massmatrix_intrinsic.py:54-159 *)
Inductive mass_type := Voronoi | Barycentric | Full | OtherType.
Definition massmatrix_intrinsic (L : faces_lsq) (n : Z) (ty : mass_type) : res (list trip) :=
  let blk (r c : tri -> Z) (v : r3 -> R) := map (fun p => (r (fst p), c (fst p), v (snd p))) L in
  match ty with
  | Voronoi => csr n n (blk c0 c0 (fun l => X (voronoi_quads l)) ++ blk c1 c1 (fun l => Y (voronoi_quads l))
                        ++ blk c2 c2 (fun l => Zc (voronoi_quads l)))              (* :122-124 *)
  | Barycentric => csr n n (blk c0 c0 (fun l => dblA l / 6) ++ blk c1 c1 (fun l => dblA l / 6)
                            ++ blk c2 c2 (fun l => dblA l / 6))                    (* :133-135 *)
  | Full =>                                                                        (* :139-146 *)
    let o := fun l => dblA l / 24 in let d := fun l => dblA l / 12 in
    csr n n (blk c0 c1 o ++ blk c1 c0 o ++ blk c1 c2 o ++ blk c2 c1 o ++ blk c2 c0 o ++ blk c0 c2 o
             ++ blk c0 c0 d ++ blk c1 c1 d ++ blk c2 c2 d)
  | OtherType => Err AssertionError                                                (* :155 *)
  end.
(** massmatrix.py:61-64 *)
Definition massmatrix (V : Z -> list R) (n : Z) (F : list tri) (ty : mass_type) : res (list trip) :=
  massmatrix_intrinsic (with_lsq V F) n ty.
(** massmatrix.py:54-59 (polyline) *)
Definition edge_length (V : Z -> list R) (e : Z * Z) : R := sqrt (sqlen (V (snd e)) (V (fst e))).
Definition massmatrix_polyline (V : Z -> list R) (n : Z) (E : list (Z * Z)) : res (list trip) :=
  csr n n (map (fun e => (fst e, fst e, edge_length V e / 2)) E ++ map (fun e => (snd e, snd e, edge_length V e / 2)) E).

(** grad.py:72-85, one face *)
Definition eperp (u v : vec3) (A : R) : vec3 := scal3 (norm3 v / (A * norm3 (cross3 u v))) (cross3 u v).
Definition face_eperps (V : Z -> vec3) (t : tri) : vec3 * vec3 :=   (* eperp02, eperp10 *)
  let v21 := sub3 (V (c2 t)) (V (c1 t)) in
  let v02 := sub3 (V (c0 t)) (V (c2 t)) in
  let v10 := sub3 (V (c1 t)) (V (c0 t)) in
  let n := cross3 v21 v02 in
  let A := norm3 n in
  let u := scal3 (/ A) n in
  (eperp u v02 A, eperp u v10 A).
(** grad.py:87-103, dim 3, simplex size 3 *)
Definition grad3 (V : Z -> vec3) (n : Z) (F : list tri) : res (list trip) :=
  let m := Z.of_nat (length F) in
  let fs := combine (map Z.of_nat (seq 0 (length F))) F in
  let blk (off : Z) (c : tri -> Z) (v : vec3 * vec3 -> R) :=
    map (fun p => (off + fst p, c (snd p), v (face_eperps V (snd p)))%Z) fs in
  let comp (off : Z) (co : vec3 -> R) :=
    blk off c1 (fun e => co (fst e)) ++ blk off c0 (fun e => - co (fst e)) ++
    blk off c2 (fun e => co (snd e)) ++ blk off c0 (fun e => - co (snd e)) in
  csr (3 * m) n (comp 0%Z X ++ comp m Y ++ comp (2 * m)%Z Zc).
(** grad.py:61-62, 105-106, dim 2: pad with zero, keep the first 2m rows *)
Definition grad2 (V : Z -> vec2) (n : Z) (F : list tri) : res (list trip) :=
  do G <- grad3 (fun i => (fst (V i), snd (V i), 0)) n F;
  Ok (filter (fun t => (trow t <? 2 * Z.of_nat (length F))%Z) G).
(** grad.py:49-57, polyline *)
Definition grad_polyline (V : Z -> list R) (n : Z) (E : list (Z * Z)) : res (list trip) :=
  let es := combine (map Z.of_nat (seq 0 (length E))) E in
  csr (Z.of_nat (length E)) n
    (map (fun p => (fst p, fst (snd p), - (1 / edge_length V (snd p)))) es ++
     map (fun p => (fst p, snd (snd p), 1 / edge_length V (snd p))) es).

(** barycentric_coordinates.py:59-91 (dim 2), one query *)
Definition bary2 (p v1 v2 v3 : vec2) : r3 :=
  let da (a b c : vec2) := let r := sub2 a c in let s := sub2 b c in fst r * snd s - snd r * fst s in
  (da p v2 v3 / da v1 v2 v3, da v1 p v3 / da v1 v2 v3, da v1 v2 p / da v1 v2 v3).
(** barycentric_coordinates.py:98-110 (dim 3), one query *)
Definition bary3 (p v1 v2 v3 : vec3) : r3 :=
  let u := sub3 v2 v1 in let v := sub3 v3 v1 in let N := cross3 u v in let w := sub3 p v1 in
  let n2 := dot3 N N in
  let gamma := dot3 (cross3 u w) N / n2 in
  let beta := dot3 (cross3 w v) N / n2 in
  (1 - beta - gamma, beta, gamma).

(** per_face_normals.py:40-58, one face *)
Definition face_normal2 (V : Z -> vec2) (e : Z * Z) : vec2 :=
  let d := sub2 (V (snd e)) (V (fst e)) in (snd d, - fst d).
Definition face_normal3 (V : Z -> vec3) (t : tri) : vec3 :=
  cross3 (sub3 (V (c1 t)) (V (c0 t))) (sub3 (V (c2 t)) (V (c0 t))).
Definition unit3 (n : vec3) : vec3 := scal3 (/ norm3 n) n.
