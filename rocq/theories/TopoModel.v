(** Model of the combinatorial mesh functions. [None] is a raised exception
    (AssertionError / IndexError). *)
From Verif Require Import NumpyModel.
Open Scope Z_scope.

Notation edge := (Z * Z)%type.
Notation tri := (Z * Z * Z)%type.
Notation tet := (Z * Z * Z * Z)%type.

(** ** halfedges.py:36-42.  Row f of the output holds the three half-edges
    [(F1,F2), (F2,F0), (F0,F1)].  The assertion [F.shape[1]==3] is carried by the type. *)
Definition he_row (t : tri) : edge * edge * edge :=
  let '(a, b, c) := t in ((b, c), (c, a), (a, b)).
Definition halfedges (F : list tri) : option (list (edge * edge * edge)) :=
  match F with
  | [] => None (* line 36 assert F.shape[0] > 0 *)
  | _ => Some (map he_row F)
  end.

(** ** halffaces.py:38-45. *)
Definition hf_row (t : tet) : tri * tri * tri * tri :=
  let '(a, b, c, d) := t in ((b, c, d), (d, c, a), (d, a, b), (b, a, c)).
Definition halffaces (T : list tet) : option (list (tri * tri * tri * tri)) :=
  match T with
  | [] => None
  | _ => Some (map hf_row T)
  end.

(** [np.concatenate([he[:,0,:],he[:,1,:],he[:,2,:]])], edges.py:52 (same text in
    halfedge_edge_map.py:55 and triangle_triangle_adjacency.py:44) *)
Definition flat_he (he : list (edge * edge * edge)) : list edge :=
  map (fun r => fst (fst r)) he ++ map (fun r => snd (fst r)) he ++ map snd he.
(** faces.py:52 *)
Definition flat_hf (hf : list (tri * tri * tri * tri)) : list tri :=
  map (fun r => fst (fst (fst r))) hf ++ map (fun r => snd (fst (fst r))) hf
  ++ map (fun r => snd (fst r)) hf ++ map snd hf.

(** [np.sort(., axis=1)] on rows of length 2 and 3 *)
Definition sort2 (e : edge) : edge :=
  let '(a, b) := e in if b <? a then (b, a) else (a, b).
Definition sort3 (t : tri) : tri :=
  let '(a, b, c) := t in
  let '(a, b) := sort2 (a, b) in
  let '(b, c) := sort2 (b, c) in
  let '(a, b) := sort2 (a, b) in (a, b, c).

(** The common text of edges.py:53-75 and faces.py:53-75, for rows of type [H]
    with row sort [canon].  Output: (E, boundary, interior, nonmanifold indices). *)
Section Uniq.
  Context {H : Type} `{Ord H}.
  Variable canon : H -> H.
  Definition uniq_rows (flat : list H)
    : option (list H * list nat * list nat * list nat) :=
    let sorted := map canon flat in                               (* :53 *)
    let unique := np_unique sorted in                             (* :54 *)
    let indices := np_unique_index sorted in
    let counts := np_unique_counts sorted in
    match gather flat (mask indices (map (fun c => Nat.eqb c 1) counts)) with  (* :60 *)
    | None => None
    | Some bdry =>
      let interior := mask unique (map (fun c => Nat.ltb 1 c) counts) in (* :62 *)
      let E := bdry ++ interior in                                (* :63 *)
      if Nat.eqb (length E) (length unique)                       (* :64 assert *)
      then Some (E, seq 0 (length bdry),                          (* :69 *)
                 np_where (map (fun c => Nat.ltb 1 c) counts),    (* :71 *)
                 np_where (map (fun c => Nat.ltb 2 c) counts))    (* :74 *)
      else None
    end.
End Uniq.

(** ** edges.py:47-77 *)
Definition edges (F : list tri) : option (list edge * list nat * list nat * list nat) :=
  match halfedges F with
  | None => None
  | Some he => uniq_rows sort2 (flat_he he)
  end.
(** ** faces.py:47-77 *)
Definition faces (T : list tet) : option (list tri * list nat * list nat * list nat) :=
  match halffaces T with
  | None => None
  | Some hf => uniq_rows sort3 (flat_hf hf)
  end.

(** ** boundary_edges.py:27-28, boundary_faces.py:27-28 *)
Definition boundary_edges (F : list tri) : option (list edge) :=
  match edges F with
  | None => None
  | Some (E, b, _, _) => gather E b
  end.
Definition boundary_faces (T : list tet) : option (list tri) :=
  match faces T with
  | None => None
  | Some (F, b, _, _) => gather F b
  end.

(** ** boundary_vertices.py:29 *)
Definition boundary_vertices (F : list tri) : option (list Z) :=
  match boundary_edges F with
  | None => None
  | Some be => Some (np_unique (flat_map (fun e => [fst e; snd e]) be))
  end.

(** ** non_manifold_edges.py:33-42 ([reshape(-1,2)] lists the half-edges face by face) *)
Definition non_manifold_edges (F : list tri) : option (list edge) :=
  match halfedges F with
  | None => None
  | Some he =>
    let s := map sort2 (flat_map (fun r => [fst (fst r); snd (fst r); snd r]) he) in
    Some (mask (np_unique s) (map (fun c => Nat.ltb 2 c) (np_unique_counts s)))
  end.

(** ** array_correspondence.py:44-73 (rows of a 2D array with axis=0, entries of a 1D array
    with axis None; axis=1 is the same on the transposed arrays).
    [None]: IndexError from [mapB[imap]] when B is empty and A is not. *)
Section Corr.
  Context {A : Type} `{Ord A}.
  Definition imap_entry (nuB : nat) (i : nat) : Z :=               (* :69-70 *)
    if Nat.leb nuB i then -1 else Z.of_nat i.
  (** python indexing [mapB[i]] with [i = -1] meaning the last entry *)
  Definition py_nth (l : list nat) (i : Z) : option nat :=
    if i <? 0 then nth_error l (Z.to_nat (Z.of_nat (length l) + i)) else nth_error l (Z.to_nat i).
  Fixpoint opt_map {X Y} (f : X -> option Y) (l : list X) : option (list Y) :=
    match l with
    | [] => Some []
    | x :: r => match f x, opt_map f r with Some y, Some ys => Some (y :: ys) | _, _ => None end
    end.
  Definition array_correspondence (a b : list A) : option (list Z) :=
    let uB := np_unique b in                                        (* :61 *)
    let mapB := np_unique_index b in
    let cat := uB ++ a in                                           (* :64 *)
    let idx := np_unique_index cat in
    let inv := np_unique_inverse cat in
    match gather idx (skipn (length uB) inv) with                   (* :69 *)
    | None => None
    | Some im =>
      let imap := map (imap_entry (length uB)) im in
      opt_map (fun i => match py_nth mapB i with                    (* :71 *)
                        | None => None (* IndexError *)
                        | Some q => Some (if i <? 0 then -1 else Z.of_nat q)
                        end) imap
    end.
End Corr.

(** ** halfedge_edge_map.py:50-109 *)
(** :75-76 *)
Definition unflat (m : Z) (k : Z) : Z * Z := (k mod m, k / m).

Definition flip (e : edge) : edge := (snd e, fst e).

(** 2D integer array [he_to_E] of shape (m,3) as a total function; numpy index
    normalisation and range check *)
Definition norm_index (n i : Z) : option Z :=
  if (0 <=? i) && (i <? n) then Some i
  else if (- n <=? i) && (i <? 0) then Some (i + n) else None.
Definition table := Z -> Z -> Z.
Definition tset (t : table) (r c v : Z) : table :=
  fun r' c' => if (r' =? r) && (c' =? c) then v else t r' c'.
Fixpoint scatter (m : Z) (t : table) (w : list (Z * Z * Z)) : option table :=
  match w with
  | [] => Some t
  | (r, c, v) :: w' =>
    match norm_index m r, norm_index 3 c with
    | Some r', Some c' => scatter m (tset t r' c' v) w'
    | _, _ => None
    end
  end.
Definition all_cells (m : nat) : list (Z * Z) :=
  flat_map (fun r => [(Z.of_nat r, 0); (Z.of_nat r, 1); (Z.of_nat r, 2)]) (seq 0 m).

(** :54-72 : returns (flat half-edges, E, indices of boundary rows, indices of interior rows) *)
Definition hem_edges (F : list tri) : option (list edge * list edge * list nat * list nat) :=
  match halfedges F with
  | None => None
  | Some he =>
    let flat := flat_he he in
    let sorted := map sort2 flat in
    let indices := np_unique_index sorted in
    let counts := np_unique_counts sorted in
    let bi := mask indices (map (fun c => Nat.eqb c 1) counts) in
    let ii := mask indices (map (fun c => Nat.ltb 1 c) counts) in
    match gather flat bi, gather flat ii with
    | Some b, Some i =>
      if Nat.eqb (length (b ++ i)) (length (np_unique sorted)) then Some (flat, b ++ i, bi, ii) else None
    | _, _ => None
    end
  end.

(** assume_manifold=True (:77-85, :97-107).  Output (E, he_to_E, E_to_he). *)
Definition halfedge_edge_map (F : list tri)
  : option (list edge * table * list ((Z * Z) * (Z * Z))) :=
  match hem_edges F with
  | None => None
  | Some (flat, E, bi, ii) =>
    let m := Z.of_nat (length F) in
    let intE := skipn (length bi) E in
    match array_correspondence intE flat, array_correspondence intE (map flip flat) with
    | Some c0, Some c1 =>
      let e2h := map (fun k => (unflat m (Z.of_nat k), (-1, -1))) bi     (* :80 *)
                 ++ map (fun p => (unflat m (fst p), unflat m (snd p))) (combine c0 c1) in (* :82-85 *)
      let writes := filter (fun w => 0 <=? fst (fst w))                  (* :99-103 *)
        (flat_map (fun p => let '(e, (h0, h1)) := p in
                   [(fst h0, snd h0, Z.of_nat e); (fst h1, snd h1, Z.of_nat e)])
                  (combine (seq 0 (length e2h)) e2h)) in
      match scatter m (fun _ _ => -1) writes with
      | None => None
      | Some h2e =>
        if existsb (fun p => h2e (fst p) (snd p) =? -1) (all_cells (length F))  (* :107 *)
        then None else Some (E, h2e, e2h)
      end
    | _, _ => None
    end
  end.

(** assume_manifold=False (:87-94, :105-107).  [np.nonzero] of the match mask. *)
Definition edge_eqb (a b : edge) : bool := (fst a =? fst b) && (snd a =? snd b).
Definition halfedge_edge_map_nm (F : list tri)
  : option (list edge * table * list (list (Z * Z))) :=
  match hem_edges F with
  | None => None
  | Some (flat, E, bi, ii) =>
    let m := Z.of_nat (length F) in
    let e2h := map (fun k => [unflat m (Z.of_nat k)]) bi                 (* :88-90 *)
      ++ map (fun e => map (fun k => unflat m (Z.of_nat k))
               (np_where (map (fun h => edge_eqb e h || edge_eqb (flip e) h) flat)))
             (skipn (length bi) E) in                                    (* :91-94 *)
    let writes := flat_map (fun p => let '(e, hs) := p in map (fun h => (fst h, snd h, Z.of_nat e)) hs)
                           (combine (seq 0 (length e2h)) e2h) in         (* :105-106 *)
    match scatter m (fun _ _ => -1) writes with
    | None => None
    | Some h2e =>
      if existsb (fun p => h2e (fst p) (snd p) =? -1) (all_cells (length F))
      then None else Some (E, h2e, e2h)
    end
  end.

(** ** triangle_triangle_adjacency.py:39-51.  The Fortran-order reshape of a flat
    array of length 3m puts entry [k] at row [k mod m], column [k / m]. Output TT, TTi
    as lists of rows. *)
Definition triangle_triangle_adjacency (F : list tri)
  : option (list (Z * Z * Z) * list (Z * Z * Z)) :=
  match halfedges F with
  | None => None
  | Some he =>
    let m := length F in
    let flat := flat_he he in
    match array_correspondence flat (map flip flat) with
    | None => None
    | Some mp =>
      let mz := Z.of_nat m in
      let tt := map (fun k => if k <? 0 then -1 else k mod mz) mp in
      let tti := map (fun k => if k <? 0 then -1 else k / mz) mp in
      let reshapeF (l : list Z) :=
        map (fun r => (nth r l 0, nth (r + m) l 0, nth (r + 2 * m) l 0)) (seq 0 m) in
      Some (reshapeF tt, reshapeF tti)
    end
  end.
