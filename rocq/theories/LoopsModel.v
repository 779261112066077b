(** Model of boundary_loops.py *)
From Verif Require Import NumpyModel PyExn TopoModel.
Open Scope Z_scope.

Fixpoint set_nth {A} (l : list A) (k : nat) (x : A) : list A :=
  match l, k with
  | [], _ => []
  | _ :: r, O => x :: r
  | y :: r, S k' => y :: set_nth r k' x
  end.

(** [np.where((bE[:,col] == head) & unseen)[0]] (:56,57,65) *)
Definition where_unseen (bE : list edge) (unseen : list bool) (col : edge -> Z) (head : Z) : list nat :=
  np_where (map (fun p => (col (fst p) =? head) && snd p) (combine bE unseen)).

(** boundary_loops.py:52-71, the inner while loop; [acc] is loop_vertices.  Fuel is a
    modelling device: [OutOfFuel] is not a Python outcome and is proved unreachable. *)
Fixpoint inner (fuel : nat) (allow : bool) (bE : list edge) (start : Z)
  (unseen : list bool) (acc : list Z) (head : Z) : res (list Z * list bool) :=
  if head =? start then Ok (acc, unseen) else
  match fuel with
  | O => Err OutOfFuel
  | S fuel' =>
    let acc := acc ++ [head] in                                              (* :53 *)
    let '(cb, nh) :=
      if allow then                                                          (* :55 *)
        let b0 := where_unseen bE unseen fst head in
        let b1 := where_unseen bE unseen snd head in
        if Nat.ltb (length b1) (length b0) then (b0, @snd Z Z) else (b1, @fst Z Z)  (* :58-63 *)
      else (where_unseen bE unseen fst head, @snd Z Z) in                    (* :65-66 *)
    match cb with
    | [b] =>                                                                 (* :67 assert *)
      match nth_error bE b with
      | None => Err IndexError
      | Some e => inner fuel' allow bE start (set_nth unseen b false) acc (nh e)  (* :69-71 *)
      end
    | _ => Err AssertionError
    end
  end.

(** index of the first [true] ([np.argmax(unseen)]), [None] when [np.any(unseen)] is false *)
Fixpoint first_true (l : list bool) : option nat :=
  match l with
  | [] => None
  | true :: _ => Some O
  | false :: r => option_map S (first_true r)
  end.

(** :42-73 *)
Fixpoint outer (fuel : nat) (allow : bool) (bE : list edge) (unseen : list bool) (loops : list (list Z))
  : res (list (list Z)) :=
  match first_true unseen with
  | None => Ok loops
  | Some b =>
    match fuel with
    | O => Err OutOfFuel
    | S fuel' =>
      match nth_error bE b with
      | None => Err IndexError
      | Some e =>
        do (loop, unseen') <- inner (S (length bE)) allow bE (fst e) (set_nth unseen b false) [fst e] (snd e);
        outer fuel' allow bE unseen' (loops ++ [loop])
      end
    end
  end.

(** :30-76 *)
Definition boundary_loops (f : list tri) (allow : bool) : res (list (list Z)) :=
  match non_manifold_edges f with
  | None => Err AssertionError                                               (* :30 *)
  | Some (_ :: _) => Err AssertionError                                      (* :34 *)
  | Some [] =>
    match boundary_edges f with
    | None => Err AssertionError
    | Some bE =>
      do loops <- outer (length bE) allow bE (repeat true (length bE)) [];
      if Nat.eqb (fold_right plus O (map (@length Z) loops)) (length bE)     (* :75 *)
      then Ok loops else Err AssertionError
    end
  end.
