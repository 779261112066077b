(** subdivide_quad.py, initialize_quadtree.py, in_quadtree.py, quadtree_children.py, quadtree_boundary.py.
    Exact reals.  [dim] is the number of columns of C (2: quadtree, 3: octree). *)
From Coq Require Import List Arith ZArith Reals Bool Lia.
From Verif Require Import PyExn LoopsModel.
Import ListNotations.
Open Scope Z_scope.

(** The arrays of the tree.  Depths are natural numbers (they start at 1 and grow); the sparse matrix A
    is given by its entries (its shape is n x n with n the number of cells). *)
Record qtree := mkQ { qC : list (list R); qW : list R; qCH : list (list Z); qPAR : list Z; qD : list nat; qA : nat -> nat -> Z }.
Definition qn (T : qtree) : nat := length (qC T).

(** lookup tables subdivide_quad.py:73-114 (0-based children) *)
Definition lookup_a : list (list Z) :=
  [[1;1;3;7;5]; [2;0;2;4;6]; [3;2;3;6;7]; [4;0;1;4;5]; [5;4;5;6;7]; [6;0;1;2;3]].
Definition lookup_b : list (Z * Z * Z) :=
  [(1,0,1); (1,2,3); (1,4,5); (1,6,7); (2,1,0); (2,3,2); (2,5,4); (2,7,6); (3,0,2); (3,1,3); (3,4,6); (3,5,7);
   (4,2,0); (4,3,1); (4,6,4); (4,7,5); (5,2,6); (5,3,7); (5,0,4); (5,1,5); (6,6,2); (6,7,3); (6,4,0); (6,5,1)].
(** square_mat :174-184 *)
Definition square2 : list (list Z) := [[0;2;4;0]; [1;0;0;4]; [3;0;0;2]; [0;3;1;0]].
Definition sq_entry (m : list (list Z)) (i j : nat) : Z := nth j (nth i m []) 0.
Definition square_mat (dim : nat) (i j : nat) : Z :=
  if Nat.eqb dim 3 then
    match Nat.ltb i 4, Nat.ltb j 4 with
    | true, true => sq_entry square2 i j
    | true, false => if Nat.eqb i (j - 4) then 6 else 0
    | false, true => if Nat.eqb (i - 4) j then 5 else 0
    | false, false => sq_entry square2 (i - 4) (j - 4)
    end
  else sq_entry square2 i j.
(** transpose_orientation :264-275, one entry *)
Definition flip_dir (x : Z) : Z :=
  if x =? 1 then 2 else if x =? 2 then 1 else if x =? 3 then 4 else if x =? 4 then 3 else if x =? 5 then 6 else if x =? 6 then 5 else x.

(** offsets of the children centres :134-158: -1/+1 per axis *)
Definition offsets (dim : nat) : list (list R) :=
  (if Nat.eqb dim 2 then [[-1;-1]; [1;-1]; [-1;1]; [1;1]]
   else [[-1;-1;-1]; [1;-1;-1]; [-1;1;-1]; [1;1;-1]; [-1;-1;1]; [1;-1;1]; [-1;1;1]; [1;1;1]])%R.
Definition move (c : list R) (w : R) (o : list R) : list R := map (fun p => fst p + 0.25 * w * snd p)%R (combine c o).

(** climbing to the ancestor at depth d+1 :230-236.  Recursion on the depth, which the assertion makes decrease. *)
Fixpoint climb (PAR : list Z) (D : list nat) (d : nat) (n_ind : Z) (n_depth : nat) (n_par : Z) {struct n_depth} : res (Z * Z) :=
  if Nat.ltb (d + 1) n_depth then
    match n_depth with
    | O => Err AssertionError
    | S depth' =>
      do D' <- lift IndexError (nth_error D (Z.to_nat n_par));
      if Nat.eqb n_depth (D' + 1) then                                                 (* :233 *)
        do P' <- lift IndexError (nth_error PAR (Z.to_nat n_par));
        climb PAR D d n_par depth' P'
      else Err AssertionError
    end
  else Ok (n_ind, n_par).
(** np.nonzero(row == x)[0] *)
Definition positions (x : Z) (row : list Z) : list nat := filter (fun q => nth q row (x - 1) =? x) (seq 0 (length row)).

(** the columns of rect_mat that get [where] in row [nb] :206-244 *)
Definition new_neighbors (dim : nat) (T : qtree) (d nb : nat) (wh : Z) : res (list Z) :=
  do nd <- lift IndexError (nth_error (qD T) nb);
  if Nat.leb nd d then                                                                  (* :207-213 *)
    match filter (fun r => nth 0 r 0 =? wh) lookup_a with
    | [r] => Ok (firstn (2 ^ (dim - 1)) (skipn 1 r))
    | _ => Err ValueError
    end
  else                                                                                  (* :215-243 *)
    do np <- lift IndexError (nth_error (qPAR T) nb);
    do r <- climb (qPAR T) (qD T) d (Z.of_nat nb) nd np;
    let '(n_ind, n_par) := r in
    do row <- lift IndexError (nth_error (qCH T) (Z.to_nat n_par));
    do Dp <- lift IndexError (nth_error (qD T) (Z.to_nat n_par));
    if Nat.eqb d Dp then                                                                (* :239 *)
      match positions n_ind row with
      | [q] => Ok (map snd (filter (fun e => (fst (fst e) =? wh) && (snd (fst e) =? Z.of_nat q)) lookup_b))
      | _ => Err ValueError
      end
    else Err AssertionError.

Fixpoint mapE {A B} (f : A -> res B) (l : list A) : res (list B) :=
  match l with [] => Ok [] | x :: r => do y <- f x; do ys <- mapE f r; Ok (y :: ys) end.
Fixpoint foldE {A B} (f : A -> B -> res A) (l : list B) (a : A) : res A :=
  match l with [] => Ok a | x :: r => do a' <- f a x; foldE f r a' end.

(** rows with a non-zero entry in column ind *)
Definition col_nonzero (T : qtree) (ind : nat) : list nat := filter (fun r => negb (qA T r ind =? 0)) (seq 0 (qn T)).
(** rect_mat as (row, column, value) entries that add up *)
Definition rect_at (tr : list (nat * Z * Z)) (r q : nat) : Z :=
  fold_right (fun e s => (if Nat.eqb (fst (fst e)) r && (snd (fst e) =? Z.of_nat q) then snd e else 0) + s) 0 tr.

(** one subdivision without the grading recursion :118-248 *)
Definition split_quad (dim ind : nat) (T : qtree) : res qtree :=
  do row <- lift IndexError (nth_error (qCH T) ind);
  do ch1 <- lift IndexError (nth_error row 1);
  if ch1 =? -1 then                                                                     (* :118 *)
    let ncp := (2 ^ dim)%nat in
    do w <- lift IndexError (nth_error (qW T) ind);
    do c <- lift IndexError (nth_error (qC T) ind);
    do d <- lift IndexError (nth_error (qD T) ind);
    let n := qn T in
    let nbs := col_nonzero T ind in                                                     (* :188 *)
    if Nat.eqb (length nbs) 1 then Err IndexError                                       (* :190, where_neighbors[i] of a 0-d array *)
    else
      do rects <- mapE (fun nb => do cols <- new_neighbors dim T d nb (qA T nb ind); Ok (map (fun q => (nb, q, qA T nb ind)) cols)) nbs;
      let tr := concat rects in
      Ok (mkQ (qC T ++ map (move c w) (offsets dim))
              (qW T ++ repeat (0.5 * w)%R ncp)
              (set_nth (qCH T) ind (map (fun k => Z.of_nat (n + k)) (seq 0 ncp)) ++ repeat (repeat (-1) ncp) ncp)
              (qPAR T ++ repeat (Z.of_nat ind) ncp)
              (qD T ++ repeat (d + 1)%nat ncp)
              (fun i j =>                                                               (* :245-248 *)
                 match Nat.ltb i n, Nat.ltb j n with
                 | true, true => qA T i j
                 | true, false => rect_at tr i (j - n)
                 | false, true => flip_dir (rect_at tr j (i - n))
                 | false, false => square_mat dim (i - n) (j - n)
                 end))
  else Err AssertionError.

Definition is_leaf (T : qtree) (i : nat) : bool := match nth_error (qCH T) i with Some (_ :: x :: _) => x =? -1 | _ => false end.   (* CH[i,1]==-1 *)
(** subdivide_quad.py:251-260.  Fuel bounds the recursion, whose depth decreases. *)
Fixpoint subdivide_fuel (fuel : nat) (dim : nat) (graded : bool) (ind : nat) (T : qtree) : res qtree :=
  match fuel with
  | O => Err OutOfFuel
  | S fuel' =>
    do T2 <- split_quad dim ind T;
    if graded then
      do d <- lift IndexError (nth_error (qD T) ind);
      foldE (fun T nb => if is_leaf T nb && Nat.ltb (nth nb (qD T) 0%nat) d then subdivide_fuel fuel' dim true nb T else Ok T) (col_nonzero T2 ind) T2
    else Ok T2
  end.
Definition subdivide_quad (dim : nat) (graded : bool) (ind : nat) (T : qtree) : res qtree :=
  subdivide_fuel (S (nth ind (qD T) 0%nat)) dim graded ind T.

(** is_in_quad (initialize_quadtree.py:90-97, in_quadtree.py:87-94) for one point *)
Definition in_cell (p c : list R) (w : R) : bool :=
  forallb (fun pc => (if Rle_dec (snd pc - w * 0.5) (fst pc) then true else false) && (if Rle_dec (fst pc) (snd pc + w * 0.5) then true else false))%R (combine p c).

(** initialize_quadtree.py:57-70 given the corners *)
Definition maxR (l : list R) : R := match l with [] => 0%R | x :: r => fold_left Rmax r x end.
Definition root_tree (dim : nat) (vmin vmax : list R) : qtree :=
  mkQ [map (fun p => (fst p + snd p) / 2.0)%R (combine vmin vmax)] [maxR (map (fun p => snd p - fst p)%R (combine vmin vmax))]
      [repeat (-1) (2 ^ dim)] [-1] [1%nat] (fun _ _ => 0).
(** np.amin(P,axis=0), np.amax(P,axis=0) *)
Definition col_fold (f : R -> R -> R) (P : list (list R)) : res (list R) :=
  match P with [] => Err ValueError | p :: r => Ok (fold_left (fun a b => map (fun x => f (fst x) (snd x)) (combine a b)) r p) end.
(** :73-84 *)
Fixpoint init_loop (fuel : nat) (dim : nat) (P : list (list R)) (max_depth min_depth : Z) (graded : bool) (quad_ind : nat) (T : qtree) : res qtree :=
  match fuel with
  | O => Err OutOfFuel
  | S fuel' =>
    if Nat.leb (qn T) quad_ind then Ok T
    else
      let d := Z.of_nat (nth quad_ind (qD T) 0%nat) in
      let c := nth quad_ind (qC T) [] in let w := nth quad_ind (qW T) 0%R in
      if ((d <? min_depth) || existsb (fun p => in_cell p c w) P) && (d <? max_depth) && is_leaf T quad_ind then
        do T2 <- subdivide_quad dim graded quad_ind T;
        init_loop fuel' dim P max_depth min_depth graded (S quad_ind) T2
      else init_loop fuel' dim P max_depth min_depth graded (S quad_ind) T
  end.
Definition initialize_quadtree (fuel dim : nat) (P : list (list R)) (max_depth min_depth : Z) (graded : bool) (vmin vmax : option (list R)) : res qtree :=
  do vmin' <- match vmin with Some v => Ok v | None => col_fold Rmin P end;
  do vmax' <- match vmax with Some v => Ok v | None => col_fold Rmax P end;
  init_loop fuel dim P max_depth min_depth graded 0 (root_tree dim vmin' vmax').

(** in_quadtree.py:48-77 *)
Fixpoint in_loop (fuel dim : nat) (p : list R) (T : qtree) (queue : list nat) (others : list nat) : res (Z * list nat) :=
  match fuel with
  | O => Err OutOfFuel
  | S fuel' =>
    match queue with
    | [] => Ok (-1, others)
    | q :: queue' =>
      if in_cell p (nth q (qC T) []) (nth q (qW T) 0%R) then
        if is_leaf T q then Ok (Z.of_nat q, others ++ [q])
        else in_loop fuel' dim p T (queue' ++ map Z.to_nat (firstn (2 ^ dim) (nth q (qCH T) []))) (others ++ [q])
      else in_loop fuel' dim p T queue' others
    end
  end.
Definition in_quadtree (fuel dim : nat) (p : list R) (T : qtree) : res (Z * list nat) := in_loop fuel dim p T [0%nat] [].

(** quadtree_children.py:44 *)
Definition quadtree_children (T : qtree) : list nat := filter (fun i => nth 0 (nth i (qCH T) []) 0 <? 0) (seq 0 (length (qCH T))).
(** quadtree_boundary.py:56-73: (children_boundary, other_boundary) *)
Definition no_neighbor (T : qtree) (i : nat) : bool :=
  existsb (fun a => forallb (fun j => negb (qA T i j =? a)) (seq 0 (qn T))) [1; 2; 3; 4].
Definition quadtree_boundary (T : qtree) : list nat * list nat :=
  let other := filter (no_neighbor T) (seq 0 (qn T)) in
  (filter (fun i => nth 0 (nth i (qCH T) []) 0 =? -1) other, other).
