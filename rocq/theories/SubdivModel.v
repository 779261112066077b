(** subdivide.py, edge_indices.py, regular_circle_polyline.py *)
From Verif Require Import NumpyModel PyExn TopoModel Vec MatModel.
Open Scope Z_scope.

(** V[i] with numpy's negative index wrap-around; IndexError = None *)
Definition getZ {P} (V : list P) (i : Z) : option P :=
  match norm_index (Z.of_nat (length V)) i with
  | Some k => nth_error V (Z.to_nat k)
  | None => None
  end.
Fixpoint mapO {A B} (f : A -> option B) (l : list A) : option (list B) :=
  match l with
  | [] => Some []
  | x :: r => match f x, mapO f r with Some y, Some ys => Some (y :: ys) | _, _ => None end
  end.
(** rows with their position *)
Definition enum {A} (l : list A) : list (Z * A) := combine (map Z.of_nat (seq 0 (length l))) l.

(** np.max(F) of a non-empty index array (subdivide.py:279) *)
Definition max_index (F : list tri) : Z :=
  fold_right Z.max (-1) (map (fun t => let '(a, b, c) := t in Z.max a (Z.max b c)) F).

(** subdivide.py:152-156.  np.block of three rows of four length-m arrays, transposed: four
    consecutive blocks of m faces. *)
Definition upsample_faces (n : Z) (F : list tri) (h2e : table) : list tri :=
  map (fun p => let '(f, (a, b, c)) := p in (a, n + h2e f 2, n + h2e f 1)) (enum F) ++
  map (fun p => let '(f, (a, b, c)) := p in (n + h2e f 2, b, n + h2e f 0)) (enum F) ++
  map (fun p => let '(f, (a, b, c)) := p in (n + h2e f 1, n + h2e f 0, c)) (enum F) ++
  map (fun p => let '(f, (a, b, c)) := p in (n + h2e f 1, n + h2e f 2, n + h2e f 0)) (enum F).

Section Points.
  (** rows of V; [mid a b] is 0.5*(a+b) *)
  Context {P : Type} (mid : P -> P -> P).

  (** subdivide.py:162-163, 110-111 *)
  Definition append_mids (V : list P) (E : list edge) : option (list P) :=
    match mapO (fun e => match getZ V (fst e), getZ V (snd e) with Some x, Some y => Some (mid x y) | _, _ => None end) E with
    | Some Vnew => Some (V ++ Vnew)
    | None => None
    end.

  (** subdivide.py:137-190 with V given; also returns E (used for the matrix) *)
  Definition upsample_triangle_mesh (V : list P) (F : list tri) : res (list P * list tri * list edge) :=
    match F with
    | [] => Err AssertionError                                            (* :142 *)
    | _ =>
      match halfedge_edge_map F with
      | None => Err AssertionError
      | Some (E, h2e, _) =>
        if Nat.leb (length V) 1 then Err AssertionError                   (* :161 *)
        else do Vu <- lift IndexError (append_mids V E);
             Ok (Vu, upsample_faces (Z.of_nat (length V)) F h2e, E)
      end
    end.

  (** subdivide.py:92-134 *)
  Definition upsample_polyline (V : list P) (E : list edge) : res (list P * list edge) :=
    if Nat.leb (length V) 1 then Err AssertionError else                  (* :95 *)
    match E with
    | [] => Err AssertionError                                            (* :97 *)
    | _ =>
      let n := Z.of_nat (length V) in
      do Vu <- lift IndexError (append_mids V E);
      Ok (Vu, map (fun p => (fst (snd p), n + fst p)) (enum E) ++ map (fun p => (n + fst p, snd (snd p))) (enum E))
    end.

  (** subdivide.py:47-67, method='upsample', triangles *)
  Fixpoint subdivide_upsample (iters : nat) (V : list P) (F : list tri) : res (list P * list tri) :=
    match iters with
    | O => Ok (V, F)
    | S k => do (Vu, Fu, _) <- upsample_triangle_mesh V F; subdivide_upsample k Vu Fu
    end.
  Fixpoint subdivide_polyline (iters : nat) (V : list P) (E : list edge) : res (list P * list edge) :=
    match iters with
    | O => Ok (V, E)
    | S k => do (Vu, Eu) <- upsample_polyline V E; subdivide_polyline k Vu Eu
    end.
End Points.

(** subdivide.py:113-130, 165-183: the (n+e, n) matrix *)
Definition upsample_matrix (n : Z) (E : list edge) : res (list trip) :=
  csr (n + Z.of_nat (length E)) n
    (map (fun i => (Z.of_nat i, Z.of_nat i, 1%R)) (seq 0 (Z.to_nat n)) ++
     map (fun p => (n + fst p, fst (snd p), 0.5%R)) (enum E) ++
     map (fun p => (n + fst p, snd (snd p), 0.5%R)) (enum E)).
(** subdivide.py:50-56: the accumulated matrix as its entry function (rows x the original columns) *)
Fixpoint subdivide_matrix (iters : nat) (n : nat) (F : list tri) (S : Z -> Z -> R) : res (nat * (Z -> Z -> R)) :=
  match iters with
  | O => Ok (n, S)
  | Datatypes.S k =>
    match F with [] => Err AssertionError | _ =>
    match halfedge_edge_map F with
    | None => Err AssertionError
    | Some (E, h2e, _) =>
      do St <- upsample_matrix (Z.of_nat n) E;
      subdivide_matrix k (n + length E) (upsample_faces (Z.of_nat n) F h2e)
        (fun i j => sumn n (fun l => (entry St i (Z.of_nat l) * S (Z.of_nat l) j)%R))
    end end
  end.

(** edge_indices.py:40-45.  np.linspace(a,b,k,dtype=int) with unit step (k = b-a+1); a negative
    count raises ValueError *)
Definition linspace_int (a : Z) (k : Z) : res (list Z) :=
  if k <? 0 then Err ValueError else Ok (map (fun i => a + Z.of_nat i) (seq 0 (Z.to_nat k))).
(** np.reshape(x,(-1,2),order='F') *)
Definition reshape2F (l : list Z) : res (list (Z * Z)) :=
  if Nat.even (length l) then
    let k := Nat.div2 (length l) in Ok (combine (firstn k l) (skipn k l))
  else Err ValueError.
Definition edge_indices (n : Z) (closed : bool) : res (list (Z * Z)) :=
  if closed then
    do a <- linspace_int 0 n; do b <- linspace_int 1 (n - 1); reshape2F (a ++ b ++ [0])
  else
    do a <- linspace_int 0 (n - 1); do b <- linspace_int 1 (n - 1); reshape2F (a ++ b).

(** regular_circle_polyline.py:33-45 *)
Definition regular_circle_polyline (n : Z) : res (list (R * R) * list (Z * Z)) :=
  if n <? 3 then Err AssertionError else
  let phi i := (INR i * (2 * PI / (IZR n - 1)))%R in           (* np.linspace(0, 2 pi, n) *)
  Ok (map (fun i => (cos (phi i), sin (phi i))) (seq 0 (Z.to_nat n)),
      combine (map Z.of_nat (seq 0 (Z.to_nat n))) (map Z.of_nat (seq 1 (Z.to_nat n - 1)) ++ [0])).

(** ** Loop subdivision, subdivide.py:192-275 *)
(** half-edge (f,i) as its directed side, halfedges.py:34-38; the corner F[f,i] opposite to it *)
Definition he_at (F : list tri) (h : Z * Z) : edge :=
  match nth_error F (Z.to_nat (fst h)) with
  | Some (a, b, c) => match snd h with 0 => (b, c) | 1 => (c, a) | _ => (a, b) end
  | None => (0, 0)      (* not reached for the output of halfedge_edge_map *)
  end.
Definition corner_at (F : list tri) (h : Z * Z) : Z :=
  match nth_error F (Z.to_nat (fst h)) with
  | Some (a, b, c) => match snd h with 0 => a | 1 => b | _ => c end
  | None => 0
  end.
(** :205-207 *)
Definition is_bdry (p : (Z * Z) * (Z * Z)) : bool := (fst (snd p) =? -1) || (snd (snd p) =? -1).
Definition bdry_he (e2h : list ((Z * Z) * (Z * Z))) : list (Z * Z) := map fst (filter is_bdry e2h).
Definition int_he (e2h : list ((Z * Z) * (Z * Z))) : list (Z * Z) :=
  map fst (filter (fun p => negb (is_bdry p)) e2h) ++ map snd (filter (fun p => negb (is_bdry p)) e2h).
(** :208-209 iV_mask[v]: not an end of a boundary edge *)
Definition iV_mask (E : list edge) (e2h : list ((Z * Z) * (Z * Z))) (v : Z) : bool :=
  negb (existsb (fun p => is_bdry (snd p) && ((fst (fst p) =? v) || (snd (fst p) =? v))) (combine E e2h)).
(** :210 *)
Definition int_tail_he (F : list tri) (E : list edge) (e2h : list ((Z * Z) * (Z * Z))) : list (Z * Z) :=
  filter (fun h => iV_mask E e2h (fst (he_at F h))) (all_cells (length F)).
(** :213 np.bincount(E.ravel()) *)
Definition n_adj (E : list edge) (v : Z) : nat :=
  length (filter (fun e : edge => fst e =? v) E) + length (filter (fun e : edge => snd e =? v) E).
(** :215; nan below valence 3 *)
Definition beta (k : nat) : R := if Nat.eqb k 3 then (3 / 16)%R else ((3 / 8) / INR k)%R.
(** :217-264; V given with n rows.  NaN entries (an interior vertex of valence < 3) are reported as
    the pseudo-exception NotANumber. *)
Definition loop_matrix (n : Z) (F : list tri) : res (list trip * list tri) :=
  match F with
  | [] => Err AssertionError
  | _ =>
    match halfedge_edge_map F with
    | None => Err AssertionError
    | Some (E, h2e, e2h) =>
      let he := he_at F in
      let B := bdry_he e2h in let I := int_he e2h in let T := int_tail_he F E e2h in
      if existsb (fun h => Nat.ltb (n_adj E (fst (he h))) 3) T then Err NotANumber else
      let Fu := upsample_faces (max_index F + 1) F h2e in  (* :200: V=None, so n is max(F)+1 there *)
      do M <- csr (n + Z.of_nat (length E)) n
        (map (fun h => (n + h2e (fst h) (snd h), fst (he h), 0.5%R)) B ++
         map (fun h => (n + h2e (fst h) (snd h), snd (he h), 0.5%R)) B ++
         map (fun h => (fst (he h), fst (he h), 0.75%R)) B ++
         map (fun h => (fst (he h), snd (he h), 0.125%R)) B ++
         map (fun h => (snd (he h), fst (he h), 0.125%R)) B ++
         map (fun h => (n + h2e (fst h) (snd h), fst (he h), 0.375%R)) I ++
         map (fun h => (n + h2e (fst h) (snd h), corner_at F h, 0.125%R)) I ++
         map (fun h => (fst (he h), fst (he h), (1 / INR (n_adj E (fst (he h))) - beta (n_adj E (fst (he h))))%R)) T ++
         map (fun h => (fst (he h), snd (he h), beta (n_adj E (fst (he h))))) T);
      Ok (M, Fu)
    end
  end.
