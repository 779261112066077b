(** Models of the discrete exterior calculus operators dec_*.py *)
From Verif Require Import NumpyModel PyExn TopoModel Vec MatModel GeomModel.
Open Scope Z_scope.

(** dec_d0.py:39-53 with E given *)
Definition dec_d0_E (E : list edge) (n : Z) : res (list trip) :=
  let es := combine (map Z.of_nat (seq 0 (length E))) E in
  csr (Z.of_nat (length E)) n
    (map (fun p => (fst p, fst (snd p), 1%R)) es ++ map (fun p => (fst p, snd (snd p), (-1)%R)) es).
(** default arguments (:41-45): n = max(F)+1, E from halfedge_edge_map.  A failing
    halfedge_edge_map (assertion) gives AssertionError. *)
Definition max_index (F : list (Z * Z * Z)) : Z :=
  fold_right Z.max (-1) (map (fun t => Z.max (c0 t) (Z.max (c1 t) (c2 t))) F).
Definition dec_d0 (F : list (Z * Z * Z)) : res (list trip) :=
  match halfedge_edge_map F with
  | None => Err AssertionError
  | Some (E, _, _) => dec_d0_E E (max_index F + 1)
  end.

(** dec_d1.py:40-53 *)
Definition dec_d1_E (nF : nat) (e2h : list ((Z * Z) * (Z * Z))) : res (list trip) :=
  let es := combine (map Z.of_nat (seq 0 (length e2h))) e2h in
  csr (Z.of_nat nF) (Z.of_nat (length e2h))
    (map (fun p => (fst (fst (snd p)), fst p, 1%R)) es ++
     map (fun p => (fst (snd (snd p)), fst p, (-1)%R)) (filter (fun p => 0 <=? fst (snd (snd p))) es)).
Definition dec_d1 (F : list (Z * Z * Z)) : res (list trip) :=
  match halfedge_edge_map F with
  | None => Err AssertionError
  | Some (_, _, e2h) => dec_d1_E (length F) e2h
  end.

(** dec_h0_intrinsic.py:39-45, dec_h0inv_intrinsic.py:40-46.  [np.nan_to_num(1/x)] only
    differs from 1/x at x = 0 (a huge finite number), which is outside the stated claims. *)
Definition corner_diag (L : faces_lsq) (v : r3 -> R) : list trip :=
  map (fun p => (c0 (fst p), c0 (fst p), v (snd p))) L ++ map (fun p => (c1 (fst p), c1 (fst p), v (snd p))) L
  ++ map (fun p => (c2 (fst p), c2 (fst p), v (snd p))) L.
Definition dec_h0_intrinsic (L : faces_lsq) (n : Z) : res (list trip) :=
  csr n n (corner_diag L (fun l => (0.5 / 3 * dblA l)%R)).
Definition dec_h0inv_intrinsic (L : faces_lsq) (n : Z) : res (list trip) :=
  csr n n (corner_diag L (fun l => (1 / (0.5 / 3 * dblA l))%R)).

(** diagonal matrix ([sp.sparse.diags]) *)
Definition diags (d : list R) : list trip :=
  map (fun p => (fst p, fst p, snd p)) (combine (map Z.of_nat (seq 0 (length d))) d).

(** dec_h1_intrinsic.py:47-54: diagonal values *)
Definition cot_at (L : faces_lsq) (h : Z * Z) : R :=
  match nth_error L (Z.to_nat (fst h)) with
  | None => 0%R   (* unreachable for the output of halfedge_edge_map *)
  | Some (_, l) => match snd h with 0 => X (cotw l) | 1 => Y (cotw l) | _ => Zc (cotw l) end
  end.
Definition h1_diag (L : faces_lsq) (e2h : list ((Z * Z) * (Z * Z))) : list R :=
  map (fun p => if 0 <=? fst (snd p) then (cot_at L (fst p) + cot_at L (snd p))%R else cot_at L (fst p)) e2h.
Definition dec_h1_intrinsic (L : faces_lsq) : res (list trip) :=
  match halfedge_edge_map (map fst L) with
  | None => Err AssertionError
  | Some (_, _, e2h) => Ok (diags (h1_diag L e2h))
  end.
(** dec_h1inv_intrinsic.py:48-55 *)
Definition dec_h1inv_intrinsic (L : faces_lsq) : res (list trip) :=
  match halfedge_edge_map (map fst L) with
  | None => Err AssertionError
  | Some (_, _, e2h) => Ok (diags (map (fun d => 1 / d)%R (h1_diag L e2h)))
  end.
(** dec_h2_intrinsic.py:33-34, dec_h2inv_intrinsic.py:34-36 *)
Definition dec_h2_intrinsic (L : faces_lsq) : list trip := diags (map (fun p => 0.5 * dblA (snd p))%R L).
Definition dec_h2inv_intrinsic (L : faces_lsq) : list trip := diags (map (fun p => 1 / (0.5 * dblA (snd p)))%R L).
