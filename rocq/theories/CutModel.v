(** cut_edges.py:45-104 *)
From Verif Require Import NumpyModel PyExn LoopsModel TopoModel CompModel RelabelModel.
Open Scope Z_scope.

(** sparse matrices of ones, as the list of their (row, column) pairs with repetition *)
Notation pmat := (list (Z * Z)) (only parsing).
Definition pcsr (rows cols : Z) (l : pmat) : res pmat :=
  if forallb (fun p => (0 <=? fst p) && (fst p <? rows) && (0 <=? snd p) && (snd p <? cols)) l then Ok l else Err ValueError.
(** matrix product, transpose, entrywise product *)
Definition pmul (A B : pmat) : pmat := flat_map (fun p => flat_map (fun q => if snd p =? fst q then [(fst p, snd q)] else []) B) A.
Definition ptr (A : pmat) : pmat := map (fun p => (snd p, fst p)) A.
Definition phad (A B : pmat) : pmat := flat_map (fun p => flat_map (fun q => if (fst p =? fst q) && (snd p =? snd q) then [p] else []) B) A.

Definition range (n : nat) : list Z := map Z.of_nat (seq 0 n).
(** column c of np.arange(3m).reshape(-1,3,order='F') :65,:80 *)
Definition fcol (m c : nat) : list Z := map Z.of_nat (seq (c * m) m).
(** F.flatten(order='F') :94 *)
Definition flattenF (F : list tri) : list Z := map (fun t => fst (fst t)) F ++ map (fun t => snd (fst t)) F ++ map snd F.
(** F.ravel() *)
Definition ravel3 (F : list tri) : list Z := flat_map (fun t => [fst (fst t); snd (fst t); snd t]) F.
(** I.ravel() for I = np.arange(3m).reshape(m,3,order='F') *)
Definition ravelI (m : nat) : list Z := flat_map (fun f => [Z.of_nat f; Z.of_nat (m + f); Z.of_nat (2 * m + f)]) (seq 0 m).

(** a[idx] = vals (later entries win); range checked *)
Fixpoint scatter_vals {A} (a : list A) (idx : list Z) (vals : list A) : res (list A) :=
  match idx, vals with
  | i :: idx', v :: vals' =>
    if (0 <=? i) && (i <? Z.of_nat (length a)) then scatter_vals (set_nth a (Z.to_nat i) v) idx' vals' else Err IndexError
  | _, _ => Ok a
  end.
Definition take1 {A} (l : list A) (i : Z) : res A :=
  if 0 <=? i then lift IndexError (nth_error l (Z.to_nat i)) else Err IndexError.
Fixpoint mapR {A B} (f : A -> res B) (l : list A) : res (list B) :=
  match l with [] => Ok [] | x :: r => do y <- f x; do ys <- mapR f r; Ok (y :: ys) end.

(** the corner graph A :53-92 *)
Definition cut_graph (F : list tri) (E : list edge) : res pmat :=
  let m := length F in
  let M := Z.of_nat (3 * m) in
  do mx <- np_max (ravel3 F);                                                                 (* :47 *)
  let n := mx + 1 in
  do he <- lift AssertionError (halfedges F);                                                 (* :53 *)
  let sorted := map sort2 (flat_he he) in                                                     (* :54-55 *)
  let unique_he := np_unique sorted in                                                        (* :56 *)
  let inv := map Z.of_nat (np_unique_inverse sorted) in
  let U := Z.of_nat (length unique_he) in
  do corr <- lift IndexError (array_correspondence (map sort2 unique_he) (map sort2 E));      (* :66-69 *)
  let nc := map Z.of_nat (np_where (map (fun q => q <? 0) corr)) in
  do noncut <- pcsr U U (combine nc nc);                                                      (* :70-74 *)
  do HE <- pcsr U M (combine inv (range (3 * m)));                                            (* :75-79 *)
  let c0 := fcol m 0 in let c1 := fcol m 1 in let c2 := fcol m 2 in
  do VE <- pcsr M M (combine (c0 ++ c1 ++ c2 ++ c0 ++ c1 ++ c2) (c1 ++ c2 ++ c0 ++ c2 ++ c0 ++ c1));   (* :81-86 *)
  do VV <- pcsr M n (combine (ravelI m) (ravel3 F));                                          (* :87-90 *)
  Ok (phad (pmul (pmul VE (pmul (pmul (ptr HE) noncut) HE)) (ptr VE)) (pmul VV (ptr VV))).    (* :91-92 *)

(** [cc] is scipy's connected_components (labels).  The unused unique_he_to_F (:58-63) is omitted. *)
Definition cut_edges (cc : amat -> list Z) (F : list tri) (E : list edge) : res (list (list Z) * list Z) :=
  match F with
  | [] => Err AssertionError                                                                  (* :45 *)
  | _ =>
    match E with
    | [] => Err TypeError                                                                     (* :48-49 F.size[0] *)
    | _ =>
      let m := length F in
      do A <- cut_graph F E;
      let I0 := flattenF F in                                                                 (* :94 *)
      let labels := cc (Z.of_nat (3 * m), A) in                                               (* :96 *)
      do VV <- scatter_vals (repeat 0 (3 * m)) labels labels;                                 (* :95,:97 *)
      do I1 <- scatter_vals I0 labels I0;                                                     (* :98 *)
      do FF <- mapR (fun f => mapR (take1 labels) [Z.of_nat f; Z.of_nat (m + f); Z.of_nat (2 * m + f)]) (seq 0 m);   (* :99 *)
      do r <- remove_unreferenced (Some VV) FF;                                               (* :100 *)
      let '(W, _, IM, _) := r in
      let w := match W with Some l => Z.of_nat (length l) | None => 0 end in
      do I2 <- (if Nat.eqb (length IM) (length I1) then Ok (mask I1 (map (fun x => (x <? w) && (0 <=? x)) IM)) else Err IndexError);   (* :101 *)
      do G <- mapR (mapR (take1 IM)) FF;                                                      (* :102 *)
      Ok (G, I2)
    end
  end.
