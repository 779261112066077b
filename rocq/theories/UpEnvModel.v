(** upper_envelope.py:43-50 and src/cpp/upper_envelope.cpp:13-517 (called through binding_upper_envelope.cpp).
    Arrays are lists of rows. FT and LT are kept with their spare zero rows and the separate counter idxF, as in the code, because the code reads
    and writes by these counters; an access outside an array (undefined behaviour, or an Eigen assertion) is IndexError. VT and DT keep only their used
    rows, with their capacity as a number. Simplifications: exact reals; indices are naturals; the edge table uE2V (:445-452) is the list of the vertices
    created so far in the pass; igl::sort/sortrows are the sorts below; igl::volume is the signed volume; maxCoeff returns the first largest entry;
    remove_unused_material2 (:146-186) computes a mask and discards it (:184 has no assignment), so it changes nothing and is left out. *)
From Coq Require Import Reals Lra ZArith List Bool.
From Verif Require Import Vec PyExn NumpyModel.
Import ListNotations.
Open Scope R_scope.

Notation tet := (list nat).
Definition thr : R := / 100000.                                   (* material_threshold, :390 *)
Definition get {A} (l : list A) (i : nat) : res A := lift IndexError (nth_error l i).
Definition rows {A} (l : list A) (t : list nat) : res (list A) := fold_right (fun i r => do x <- get l i; do xs <- r; Ok (x :: xs)) (Ok []) t.  (* igl::slice *)

(** first largest entry of a row *)
Fixpoint argmax_from (best : R) (bi i : nat) (l : list R) : nat :=
  match l with [] => bi | x :: r => if Rlt_dec best x then argmax_from x i (S i) r else argmax_from best bi (S i) r end.
Definition argmax (l : list R) : nat := match l with [] => 0%nat | x :: r => argmax_from x 0 1 r end.
Definition one_hot (k i : nat) : list bool := map (Nat.eqb i) (seq 0 k).
(** :121-144 remove_material_quick on a row of LT that is all true *)
Definition quick (k : nat) (D : list (list R)) (t : tet) : res (list bool) :=
  do ds <- rows D t;
  if Nat.eqb k 1 then Ok (repeat true k)                          (* :124 *)
  else match map argmax ds with
       | i :: r => if forallb (Nat.eqb i) r then Ok (one_hot k i) else Ok (repeat true k)
       | [] => Err IndexError
       end.

Record state := { sV : list vec3; sD : list (list R); capV : nat; sF : list tet; sL : list (list bool); idxF : nat }.

Definition contains (t : tet) (e : nat * nat) : bool := existsb (Nat.eqb (fst e)) t && existsb (Nat.eqb (snd e)) t.     (* :194-196 *)
Definition keep_op (t : tet) (e : nat * nat) : list nat := filter (fun v => negb (Nat.eqb v (fst e) || Nat.eqb v (snd e))) t.
Definition split_2_edge (t : tet) (e : nat * nat) (vid : nat) : list tet :=                                             (* :223-233 *)
  let op := keep_op t e in [[fst e; vid; nth 0 op 0%nat; nth 1 op 0%nat]; [snd e; vid; nth 0 op 0%nat; nth 1 op 0%nat]].
Definition split_2_edge_array (t : tet) (evs : list ((nat * nat) * nat)) : list tet :=                                  (* :235-266 *)
  fold_left (fun ts ev => flat_map (fun c => if contains c (fst ev) then split_2_edge c (fst ev) (snd ev) else [c]) ts) evs [t].

Definition sorted_edge (a b : nat) : nat * nat := if Nat.leb a b then (a, b) else (b, a).
Definition tet_edges (t : tet) : list (nat * nat) :=                                                                    (* :275-282 *)
  match t with [a; b; c; d] => [sorted_edge a b; sorted_edge a c; sorted_edge a d; sorted_edge b c; sorted_edge b d; sorted_edge c d] | _ => [] end.
Definition edge_le (e f : nat * nat) : bool := Nat.ltb (fst e) (fst f) || (Nat.eqb (fst e) (fst f) && Nat.leb (snd e) (snd f)).
Fixpoint insert (e : nat * nat) (l : list (nat * nat)) : list (nat * nat) :=
  match l with [] => [e] | f :: r => if edge_le e f then e :: l else f :: insert e r end.
Definition sortrows (l : list (nat * nat)) : list (nat * nat) := fold_right insert [] l.
(** :288-292: strictly of opposite signs and both further than the threshold from zero *)
Definition crosses (d1 d2 : R) : bool :=
  (if Rlt_dec d1 0 then (if Rlt_dec 0 d2 then true else false) else if Rlt_dec 0 d1 then (if Rlt_dec d2 0 then true else false) else false)
  && negb (if Rle_dec (Rabs (d1 - 0)) thr then true else false) && negb (if Rle_dec (Rabs (d2 - 0)) thr then true else false).
Definition edge_eqb (e f : nat * nat) : bool := Nat.eqb (fst e) (fst f) && Nat.eqb (snd e) (snd f).
Definition lookup (tab : list ((nat * nat) * nat)) (e : nat * nat) : option nat := option_map snd (find (fun x => edge_eqb e (fst x)) tab).
Definition lerp3 (mu : R) (p q : vec3) : vec3 := add3 p (scal3 mu (sub3 q p)).
Fixpoint lerpl (mu : R) (p q : list R) : list R := match p, q with x :: p', y :: q' => ((1 - mu) * x + mu * y) :: lerpl mu p' q' | _, _ => [] end.
(** :308-339: the vertices of the crossing edges, new ones appended *)
Fixpoint make_vertices (inD : list R) (es : list (nat * nat)) (st : state) (tab : list ((nat * nat) * nat)) : res (list nat * state * list ((nat * nat) * nat)) :=
  match es with
  | [] => Ok ([], st, tab)
  | e :: r =>
      match lookup tab e with
      | Some v => do (vs, st', tab') <- make_vertices inD r st tab; Ok (v :: vs, st', tab')
      | None =>
          do p1 <- get (sV st) (fst e); do p2 <- get (sV st) (snd e); do d1 <- get inD (fst e); do d2 <- get inD (snd e);
          do a1 <- get (sD st) (fst e); do a2 <- get (sD st) (snd e);
          let mu := (0 - d1) / (d2 - d1) in
          let v := List.length (sV st) in
          if Nat.ltb v (capV st) then
            do (vs, st', tab') <- make_vertices inD r {| sV := sV st ++ [lerp3 mu p1 p2]; sD := sD st ++ [lerpl mu a1 a2]; capV := capV st; sF := sF st; sL := sL st; idxF := idxF st |} ((e, v) :: tab);
            Ok (v :: vs, st', tab')
          else Err IndexError
      end
  end.
Definition volume_of (V : list vec3) (t : tet) : res R :=
  do ps <- rows V t;
  match ps with [a; b; c; d] => Ok (dot3 (sub3 b a) (cross3 (sub3 c a) (sub3 d a)) / 6) | _ => Err IndexError end.
Definition reorient (V : list vec3) (t : tet) : res tet :=                                                             (* :348-355 *)
  do v <- volume_of V t;
  match t with [a; b; c; d] => Ok (if Rlt_dec v 0 then [a; b; d; c] else t) | _ => Ok t end.
Fixpoint mapE {A B} (f : A -> res B) (l : list A) : res (list B) := match l with [] => Ok [] | x :: r => do y <- f x; do ys <- mapE f r; Ok (y :: ys) end.
Fixpoint set_at {A} (l : list A) (i : nat) (x : A) : list A := match l, i with [], _ => [] | _ :: r, O => x :: r | y :: r, S j => y :: set_at r j x end.
Definition put_block {A} (l : list A) (i : nat) (b : list A) : res (list A) :=                                          (* block write *)
  if Nat.leb (i + List.length b) (List.length l) then Ok (firstn i l ++ b ++ skipn (i + List.length b) l) else Err IndexError.
Definition all_sgn (ge : bool) (l : list R) : bool := forallb (fun d => if ge then (if Rle_dec 0 d then true else false) else (if Rle_dec d 0 then true else false)) l.
(** :191-374 propogate_split_func *)
Definition propagate (inD : list R) (tetid : nat) (st : state) (tab : list ((nat * nat) * nat)) : res (state * list ((nat * nat) * nat)) :=
  do t <- get (sF st) tetid;
  do ds <- rows inD t;
  if all_sgn true ds || all_sgn false ds then Ok (st, tab)                                                              (* :273 *)
  else
    let es := sortrows (filter (fun e => crosses (nth (fst e) inD 0) (nth (snd e) inD 0)) (tet_edges t)) in
    match es with
    | [] => Ok (st, tab)                                                                                                (* :299 *)
    | _ =>
      do (vids, st1, tab1) <- make_vertices inD es st tab;
      do ts <- mapE (reorient (sV st1)) (split_2_edge_array t (combine es vids));
      do l <- get (sL st1) tetid;
      let f0 := set_at (sF st1) tetid (hd [] ts) in                                                                     (* :357 *)
      do f1 <- put_block f0 (idxF st1) (tl ts);                                                                         (* :358 *)
      do l1 <- put_block (sL st1) (idxF st1) (repeat l (List.length (tl ts)));                                          (* :361 *)
      Ok ({| sV := sV st1; sD := sD st1; capV := capV st1; sF := f1; sL := l1; idxF := (idxF st1 + List.length (tl ts))%nat |}, tab1)
    end.
Definition zero_tet : tet := [0; 0; 0; 0]%nat.
(** :457-475 *)
Definition grow (nV nF k : nat) (st : state) : state :=
  {| sV := sV st; sD := sD st; capV := if Nat.ltb (capV st) (List.length (sV st) + 10 + 1) then (capV st + nV)%nat else capV st;
     sF := if Nat.ltb (List.length (sF st)) (idxF st + 10 + 1) then sF st ++ repeat zero_tet nF else sF st;
     sL := if Nat.ltb (List.length (sF st)) (idxF st + 10 + 1) then sL st ++ repeat (repeat false k) nF else sL st; idxF := idxF st |}.
Fixpoint split_pass (nV nF k : nat) (inD : list R) (is : list nat) (st : state) (tab : list ((nat * nat) * nat)) : res state :=      (* :456-478 *)
  match is with
  | [] => Ok st
  | i :: r => do (st', tab') <- propagate inD i (grow nV nF k st) tab; split_pass nV nF k inD r st' tab'
  end.
Definition has (l : list bool) (i : nat) : bool := nth i l false.
(** :433-481; the edge list of FT.block(0,0,Fsize,4) needs Fsize rows *)
Fixpoint pair_passes (nV nF k mid : nat) (LLT : list bool) (js : list nat) (st : state) : res state :=
  match js with
  | [] => Ok st
  | j :: r =>
      if has LLT mid && has LLT j then
        if Nat.leb (idxF st) (List.length (sF st)) then
          do st' <- split_pass nV nF k (map (fun d => nth mid d 0 - nth j d 0) (sD st)) (seq 0 (idxF st)) st [];
          pair_passes nV nF k mid LLT r st'
        else Err IndexError
      else pair_passes nV nF k mid LLT r st
  end.
(** :71-97 one row of carve_out_material *)
Definition carved (k mid : nat) (D : list (list R)) (t : tet) : res bool :=
  do ds <- rows D t;
  let Is := map argmax ds in
  if forallb (Nat.eqb mid) Is then Ok true
  else Ok (forallb (fun j => Nat.eqb j mid || forallb (fun d => if Rle_dec (nth j d 0 - nth mid d 0) 0 then true else if Rlt_dec (Rabs (nth j d 0 - nth mid d 0)) thr then true else false) ds) (seq 0 k)).
Definition select {A} (mask : list bool) (l : list A) : list A := map snd (filter (fun p => fst p) (combine mask l)).
Fixpoint first_zero (l : list tet) (i : nat) : option nat :=
  match l with [] => None | t :: r => if forallb (fun v => Nat.eqb v 0) t then Some i else first_zero r (S i) end.
(** :64-109 carve_out_material: only rows below idxF - 1 are looked at *)
Definition carve (k mid : nat) (st : state) : res (state * list tet) :=
  do ct <- mapE (fun i => do t <- get (sF st) i; carved k mid (sD st) t) (seq 0 (idxF st - 1));
  let ct := ct ++ repeat false (List.length (sF st) - (idxF st - 1)) in
  let nct := map negb ct in
  let f := select nct (sF st) in
  Ok ({| sV := sV st; sD := sD st; capV := capV st; sF := f; sL := select nct (sL st);
         idxF := match first_zero f 0 with Some i => i | None => idxF st end |}, select ct (sF st)).
(** :429-508: CFTarray and CLTarray hold a zero row first (idxCFT = 1) *)
Fixpoint materials (nV nF k : nat) (mids : list nat) (st : state) (cf : list tet) (cl : list (list bool)) : res (state * list tet * list (list bool)) :=
  match mids with
  | [] => Ok (st, cf, cl)
  | mid :: r =>
      let sel := filter (fun l => has l mid) (sL st) in
      let LLT := map (fun j => existsb (fun l => has l j) sel) (seq 0 k) in                                             (* :432 *)
      do st1 <- pair_passes nV nF k mid LLT (seq (S mid) (k - S mid)) st;
      do (st2, c) <- carve k mid st1;
      materials nV nF k r st2 (cf ++ c) (cl ++ repeat (one_hot k mid) (List.length c))
  end.
(** :379-517 *)
Definition upper_envelope (V : list vec3) (T : list tet) (D : list (list R)) (k : nat) : res (list vec3 * list tet * list (list bool)) :=
  do l0 <- mapE (quick k D) T;
  if Nat.eqb (List.length T) 0 && negb (Nat.eqb k 0) then Err OutOfFuel else                                             (* :491-497: without tets the doubling of zero rows never ends *)
  do (st, cf, cl) <- materials (List.length V) (List.length T) k (seq 0 k) {| sV := V; sD := D; capV := List.length V; sF := T; sL := l0; idxF := List.length T |} [zero_tet] [repeat false k];
  Ok (sV st, firstn (List.length cf - 1) cf, firstn (List.length cl - 1) cl).                                            (* :510-512 *)
