(** initialize_aabbtree.py, traverse_aabbtree.py, squared_distance.py (Python paths), unsigned_distance.py,
    approximate_hausdorff_distance.py (Python path), minimum_distance.py.
    Simplifications: exact reals; the parallel arrays C, W, CH, PAR, D, tri_indices, split_dir (and tri_index_list), which always have
    the same number of rows, are one list of records; np.argsort is a parameter. *)
From Coq Require Import Reals Lra ZArith List Bool.
From Verif Require Import NumpyModel PyExn Vec GeomModel LoopsModel SubdivModel SqDistModel.
Import ListNotations.
Open Scope R_scope.

Definition vec := list R.
Fixpoint map2 (f : R -> R -> R) (a b : vec) : vec :=
  match a, b with x :: a', y :: b' => f x y :: map2 f a' b' | _, _ => [] end.

Record node := { nC : vec; nW : vec; nCH : Z * Z; nPAR : Z; nD : Z; nT : Z; nS : Z }.

(** np.amax / np.amin over axis 0; ValueError on no rows *)
Definition amax0 (rows : list vec) : option vec := match rows with [] => None | r :: rs => Some (fold_left (map2 Rmax) rs r) end.
Definition amin0 (rows : list vec) : option vec := match rows with [] => None | r :: rs => Some (fold_left (map2 Rmin) rs r) end.
(** :66-71, the row of one element *)
Definition vmax_el (dim : nat) (el : list vec) : vec := fold_left (fun acc v => map2 Rmax v acc) el (repeat (-10000) dim).
Definition vmin_el (dim : nat) (el : list vec) : vec := fold_left (fun acc v => map2 Rmin v acc) el (repeat 10000 dim).
(** np.argmax: first index of the largest entry *)
Fixpoint argmax_from (best : nat) (bv : R) (i : nat) (l : vec) : nat :=
  match l with [] => best | x :: r => if Rlt_dec bv x then argmax_from i x (S i) r else argmax_from best bv (S i) r end.
Definition argmax (l : vec) : nat := match l with [] => O | x :: r => argmax_from O x 1%nat r end.

Section Build.
  Variable argsort : list R -> list nat.
  Variable vminB vmaxB : list vec.       (* vmin_big, vmax_big *)

  Definition center (mx mn : vec) : vec := map (fun x => 0.5 * x) (map2 Rplus mx mn).
  Definition width (mx mn : vec) : vec := map2 Rminus mx mn.
  (** :107-180 subdivide_box: the two new cells (with their index lists) and the split direction *)
  Definition split_box (tris : list nat) : res (Z * (vec * vec * list nat) * (vec * vec * list nat)) :=
    let n := length tris in
    do vmin <- lift IndexError (mapO (nth_error vminB) tris);                     (* :113 *)
    do vmax <- lift IndexError (mapO (nth_error vmaxB) tris);                     (* :114 *)
    do mx <- lift ValueError (amax0 vmax); do mn <- lift ValueError (amin0 vmin);
    let best_dim := argmax (map2 Rminus mx mn) in                                 (* :117-118 *)
    do key <- lift IndexError (mapO (fun r => nth_error r best_dim) vmax);        (* :120 *)
    let sorted := argsort key in                                                  (* :121 *)
    let left := firstn (n / 2) sorted in let right := firstn (n - n / 2) (skipn (n / 2) sorted) in   (* :122-123 *)
    do lmax <- lift IndexError (mapO (nth_error vmax) left); do lmin <- lift IndexError (mapO (nth_error vmin) left);
    do vmax_l <- lift ValueError (amax0 lmax); do vmin_l <- lift ValueError (amin0 lmin);            (* :132-133 *)
    do rmax <- lift IndexError (mapO (nth_error vmax) right); do rmin <- lift IndexError (mapO (nth_error vmin) right);
    do vmax_r <- lift ValueError (amax0 rmax); do vmin_r <- lift ValueError (amin0 rmin);            (* :137-138 *)
    do tl <- lift IndexError (mapO (nth_error tris) left);                        (* :172-174 *)
    do tr <- lift IndexError (mapO (nth_error tris) right);                       (* :175-177 *)
    Ok (Z.of_nat best_dim, (center vmax_l vmin_l, width vmax_l vmin_l, tl), (center vmax_r vmin_r, width vmax_r vmin_r, tr)).

  (** :83-102 the loop; each node carries its entry of tri_index_list.  Fuel is a modelling device: OutOfFuel is proved unreachable. *)
  Fixpoint build (fuel box_ind : nat) (T : list (node * list nat)) : res (list (node * list nat)) :=
    match nth_error T box_ind with
    | None => Ok T                                                                (* :85-86 *)
    | Some (nd, tris) =>
      match fuel with
      | O => Err OutOfFuel
      | S fuel' =>
        if negb (snd (nCH nd) =? -1)%Z then Err AssertionError else               (* :87-88 *)
        match tris with
        | [] => Err AssertionError                                                (* :97 *)
        | [e] =>                                                                  (* :101-102 *)
          build fuel' (S box_ind) (set_nth T box_ind ({| nC := nC nd; nW := nW nd; nCH := nCH nd; nPAR := nPAR nd; nD := nD nd; nT := Z.of_nat e; nS := nS nd |}, tris))
        | _ =>                                                                    (* :98-100 *)
          do (bd, (cl, wl, tl), (cr, wr, tr)) <- split_box tris;
          let nb := Z.of_nat (length T) in
          let child c w := {| nC := c; nW := w; nCH := (-1, -1)%Z; nPAR := Z.of_nat box_ind; nD := (nD nd + 1)%Z; nT := (-1)%Z; nS := (-1)%Z |} in
          build fuel' (S box_ind)
            (set_nth T box_ind ({| nC := nC nd; nW := nW nd; nCH := (nb, nb + 1)%Z; nPAR := nPAR nd; nD := nD nd; nT := nT nd; nS := bd |}, tris)
             ++ [(child cl wl, tl); (child cr wr, tr)])
        end
      end
    end.
End Build.

(** :50-104 without vmin/vmax arguments; F = None is [map (fun i => [i]) (0..n-1)] (:51) *)
Definition elements (V : list vec) (F : list (list Z)) : option (list (list vec)) := mapO (fun f => mapO (getZ V) f) F.
Definition initialize_aabbtree (argsort : list R -> list nat) (fuel : nat) (dim : nat) (V : list vec) (F : list (list Z)) : res (list node) :=
  do vmin <- lift ValueError (amin0 V); do vmax <- lift ValueError (amax0 V);     (* :57-60 *)
  do els <- lift IndexError (elements V F);
  let root := {| nC := map (fun x => x / 2) (map2 Rplus vmin vmax); nW := map2 Rminus vmax vmin; nCH := (-1, -1)%Z; nPAR := (-1)%Z; nD := 1%Z; nT := (-1)%Z; nS := (-1)%Z |} in
  do T <- build argsort (map (vmin_el dim) els) (map (vmax_el dim) els) fuel 0 [(root, seq 0 (length F))];
  Ok (map fst T).
Definition point_elements (V : list vec) : list (list Z) := map (fun i => [Z.of_nat i]) (seq 0 (length V)).

(** ** squared_distance.py *)
(** :20-25; np.linalg.norm = sqrt of the sum of squares *)
Definition sdBox (p c w : vec) : R :=
  let q := map2 (fun a b => a - 0.5 * b) (map Rabs (map2 Rminus p c)) w in
  sqrt (fold_right Rplus 0 (map (fun x => Rmax x 0 * Rmax x 0) q)) +
  match q with [] => 0 | x :: r => Rmin (fold_left Rmax r x) 0 end.
Definition sign (x : R) : R := if Rlt_dec x 0 then -1 else if Rgt_dec x 0 then 1 else 0.
(** [None] is np.inf *)
Definition lt_best (x : R) (b : option R) : bool := match b with None => true | Some y => if Rlt_dec x y then true else false end.

(** squared_distance_to_element.py:43-88 for rows of any dimension *)
Definition v3_of (v : vec) : option vec3 := match v with [x; y; z] => Some (x, y, z) | _ => None end.
Definition v2_of (v : vec) : option vec2 := match v with [x; y] => Some (x, y) | _ => None end.
Definition squared_distance_to_element (p : vec) (el : list vec) : res (R * list R) :=
  match el with
  | [v] => let '(d, l) := sqd_point p v in Ok (d, [l])
  | [a; b] =>
    match v2_of p, v2_of a, v2_of b with
    | Some p2, Some a2, Some b2 => let '(d, (x, y)) := sqd_segment2 p2 a2 b2 in Ok (d, [x; y])
    | _, _, _ =>
      match v3_of p, v3_of a, v3_of b with
      | Some p3, Some a3, Some b3 => let '(d, (x, y)) := sqd_segment3 p3 a3 b3 in Ok (d, [x; y])
      | _, _, _ => Err ValueError   (* simplification: other dimensions are not modelled *)
      end
    end
  | [a; b; c] =>
    match v3_of p, v3_of a, v3_of b, v3_of c with
    | Some p3, Some a3, Some b3, Some c3 => let '(d, (x, y, z)) := sqd_triangle p3 a3 b3 c3 in Ok (d, [x; y; z])
    | _, _, _, _ => Err AssertionError   (* :79 *)
    end
  | _ => Err UnboundLocalError            (* :89 *)
  end.

(** the traversal state: current_best_guess, current_best_element, current_best_lmb *)
Definition tstate := (option R * Z * list R)%type.
Section Traverse.
  Variable T : list node.
  Variable eldist : Z -> res (R * list R).
  Variable p : vec.
  (** traverse_aabbtree.py:101-113 with closest_point_traversal (squared_distance.py:26-63) *)
  Fixpoint traverse (fuel : nat) (queue : list Z) (st : tstate) : res tstate :=
    match queue with
    | [] => Ok st
    | q :: queue' =>
      match fuel with
      | O => Err OutOfFuel
      | S fuel' =>
        do nd <- lift IndexError (getZ T q);
        let '(best, bi, bl) := st in
        if (snd (nCH nd) =? -1)%Z then
          do (d, lmb) <- eldist (nT nd);                                   (* :33 *)
          traverse fuel' queue' (if lt_best d best then (Some d, nT nd, lmb) else st)   (* :41-46 *)
        else
          let s := sdBox p (nC nd) (nW nd) in
          let sq := sign s * (s * s) in                                     (* :38-39 *)
          if lt_best sq best then
            do a <- lift IndexError (getZ p (nS nd)); do b <- lift IndexError (getZ (nC nd) (nS nd));
            let '(l, r) := nCH nd in
            traverse fuel' (if Rlt_dec (a - b) 0 then l :: r :: queue' else r :: l :: queue') st   (* :49-63 *)
          else traverse fuel' queue' st
      end
    end.
End Traverse.
(** F[i,:] as the list of its vertices *)
Definition el_at (els : list (list vec)) (i : Z) : option (list vec) := getZ els i.
(** :183-201 for one query *)
Definition squared_distance_aabb (argsort : list R -> list nat) (fuel dim : nat) (p : vec) (V : list vec) (F : list (list Z)) : res (R * Z * list R) :=
  do T <- initialize_aabbtree argsort fuel dim V F;
  do els <- lift IndexError (elements V F);
  do st <- traverse T (fun i => do el <- lift IndexError (getZ els i); squared_distance_to_element p el) p fuel [0%Z] (None, (-1)%Z, []);
  match st with
  | (Some d, i, l) => Ok (d, i, l)
  | (None, i, l) => Err UnboundLocalError          (* :201: current_best_lmb was never set *)
  end.
(** :205-217 for one query *)
Fixpoint brute (eldist : Z -> res (R * list R)) (i : Z) (k : nat) (st : tstate) : res tstate :=
  match k with
  | O => Ok st
  | S k' => do (d, l) <- eldist i; brute eldist (i + 1)%Z k' (if lt_best d (fst (fst st)) then (Some d, i, l) else st)
  end.
Definition squared_distance_brute (p : vec) (V : list vec) (F : list (list Z)) : res tstate :=
  do els <- lift IndexError (elements V F);
  brute (fun i => do el <- lift IndexError (getZ els i); squared_distance_to_element p el) 0 (length F) (None, (-1)%Z, []).
(** unsigned_distance.py:44-49, one query, Python path *)
Definition unsigned_distance (argsort : list R -> list nat) (fuel dim : nat) (p : vec) (V : list vec) (F : list (list Z)) : res (R * Z * list R) :=
  do (d, i, l) <- squared_distance_aabb argsort fuel dim p V F; Ok (sqrt d, i, l).

(** ** approximate_hausdorff_distance.py, Python path *)
(** :197-222 *)
Fixpoint ptb_sum (p c w : vec) : R :=
  match p, c, w with
  | x :: p', y :: c', z :: w' =>
    (if Rlt_dec x (y - 0.5 * z) then (x - y + 0.5 * z) * (x - y + 0.5 * z)
     else if Rgt_dec x (y + 0.5 * z) then (x - y - 0.5 * z) * (x - y - 0.5 * z) else 0) + ptb_sum p' c' w'
  | _, _, _ => 0
  end.
Definition point_to_box_distance (p c w : vec) : R := sqrt (ptb_sum p c w).
Section Haus.
  Variable T : list node.
  Variable eldist : Z -> res (R * list R).
  Variable p : vec.
  (** :96-128; the queue is a stack: its head is the end of the Python list *)
  Fixpoint hloop (fuel : nat) (hd : R) (queue : list Z) (best : option R) : res (option R) :=
    match queue with
    | [] => Ok best
    | q :: queue' =>
      if match best with None => true | Some b => if Rgt_dec b hd then true else false end then
        match fuel with
        | O => Err OutOfFuel
        | S fuel' =>
          do nd <- lift IndexError (getZ T q);
          if (snd (nCH nd) =? -1)%Z then
            do (d2, _) <- eldist (nT nd);
            let d := sqrt d2 in
            hloop fuel' hd queue' (if lt_best d best then Some d else best)
          else
            let d := point_to_box_distance p (nC nd) (nW nd) in
            hloop fuel' hd (if lt_best d best then snd (nCH nd) :: fst (nCH nd) :: queue' else queue') best
        end
      else Ok best
    end.
End Haus.
(** :91-132 (and :138-162) *)
Fixpoint one_sided (T : list node) (els : list (list vec)) (fuel : nat) (ps : list vec) (hd : R) : res R :=
  match ps with
  | [] => Ok hd
  | p :: r =>
    do b <- hloop T (fun i => do el <- lift IndexError (getZ els i); squared_distance_to_element p el) p fuel hd [0%Z] None;
    do hd' <- match b with None => Err NotANumber (* hd = inf: proved unreachable *) | Some b => Ok (if Rgt_dec b hd then b else hd) end;
    one_sided T els fuel r hd'
  end.
Definition approximate_hausdorff_distance (argsort : list R -> list nat) (fuel dim : nat) (V1 : list vec) (F1 : list (list Z)) (V2 : list vec) (F2 : list (list Z)) : res R :=
  do T1 <- initialize_aabbtree argsort fuel dim V1 F1; do T2 <- initialize_aabbtree argsort fuel dim V2 F2;
  do E1 <- lift IndexError (elements V1 F1); do E2 <- lift IndexError (elements V2 F2);
  do h <- one_sided T2 E2 fuel V1 0; one_sided T1 E1 fuel V2 h.

(** ** minimum_distance.py; triangle_triangle_distance is the parameter [tt] on the two vertex lists *)
(** :70 *)
Definition box_gap (c1 w1 c2 w2 : vec) : option R :=
  match map2 Rminus (map Rabs (map2 Rminus c1 c2)) (map (fun x => x / 2) (map2 Rplus w1 w2)) with
  | [] => None | x :: r => Some (fold_left Rmax r x)
  end.
Section MinDist.
  Variables T1 T2 : list node.
  Variable tt : Z -> Z -> res R.
  (** :47-99; the queue is a stack whose head is the end of the Python list *)
  Fixpoint mloop (fuel : nat) (queue : list (Z * Z)) (best : option R) : res (option R) :=
    match queue with
    | [] => Ok best
    | (q1, q2) :: queue' =>
      match fuel with
      | O => Err OutOfFuel
      | S fuel' =>
        do n1 <- lift IndexError (getZ T1 q1); do n2 <- lift IndexError (getZ T2 q2);
        let leaf1 := (snd (nCH n1) =? -1)%Z in let leaf2 := (snd (nCH n2) =? -1)%Z in
        if leaf1 && leaf2 then
          do d <- tt (nT n1) (nT n2);
          mloop fuel' queue' (if lt_best d best then Some d else best)
        else
          do d <- lift ValueError (box_gap (nC n1) (nW n1) (nC n2) (nW n2));
          if lt_best d best then
            let '(a1, b1) := nCH n1 in let '(a2, b2) := nCH n2 in
            mloop fuel' ((if negb leaf1 && leaf2 then [(b1, q2); (a1, q2)] else []) ++
                         (if negb leaf2 && leaf1 then [(q1, b2); (q1, a2)] else []) ++
                         (if negb leaf1 && negb leaf2 then [(b1, b2); (a1, b2); (b1, a2); (a1, a2)] else []) ++ queue') best
          else mloop fuel' queue' best
      end
    end.
End MinDist.
Definition minimum_distance (argsort : list R -> list nat) (tt : list vec -> list vec -> R) (fuel dim : nat) (V1 : list vec) (F1 : list (list Z)) (V2 : list vec) (F2 : list (list Z)) : res (option R) :=
  do T1 <- initialize_aabbtree argsort fuel dim V1 F1; do T2 <- initialize_aabbtree argsort fuel dim V2 F2;
  do E1 <- lift IndexError (elements V1 F1); do E2 <- lift IndexError (elements V2 F2);
  mloop T1 T2 (fun i j => do a <- lift IndexError (getZ E1 i); do b <- lift IndexError (getZ E2 j); Ok (tt a b)) fuel [(0, 0)%Z] None.

(** ** traverse_aabbtree.py with its own default add_to_queue (:93-98), for any traversal function with state *)
Section DefTrav.
  Context {S : Type}.
  Variable visit : S -> Z -> node -> bool -> S * bool.
  (** the default add_to_queue calls itself with two arguments instead of three (:97), once per column of CH (there are 2): TypeError *)
  Definition default_add_to_queue (queue : list Z) (T : list node) (parent : Z) : res (list Z) := Err TypeError.
  Fixpoint traverse_default (T : list node) (fuel : nat) (queue : list Z) (st : S) : res S :=
    match queue with
    | [] => Ok st
    | q :: queue' =>
      match fuel with
      | O => Err OutOfFuel
      | Datatypes.S fuel' =>
        do nd <- lift IndexError (getZ T q);
        let is_leaf := (snd (nCH nd) =? -1)%Z in
        let '(st', go) := visit st q nd is_leaf in
        if go && negb is_leaf then do queue'' <- default_add_to_queue queue' T q; traverse_default T fuel' queue'' st'
        else traverse_default T fuel' queue' st'
      end
    end.
End DefTrav.
