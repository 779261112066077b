(** reach_for_the_spheres.py:865-990, the planar remesher (_line_bdry, _remesh_line, _split_line, _collapse_line, _relaxation_line).
    Exact reals; vertices are pairs, edges pairs of indices.  Parameters: [argsort] (np.argsort) and [closest2] (squared_distance: the edge and the two barycentric coordinates of the closest point).
    The index arrays of F are taken to be in range (squared_distance has already rejected others).  NaN is None. *)
From Coq Require Import Reals Lra ZArith List Bool.
From Verif Require Import PyExn NumpyModel LoopsModel RelabelModel.
Import ListNotations.
Open Scope R_scope.

Notation pt2 := (R * R)%type.
Notation edge2 := (Z * Z)%type.
Definition pv (V : list pt2) (i : Z) : pt2 := nth (Z.to_nat i) V (0, 0).
Definition sub2 (p q : pt2) : pt2 := (fst p - fst q, snd p - snd q).
Definition norm2 (p : pt2) : R := sqrt (fst p * fst p + snd p * snd p).
Definition elen (V : list pt2) (e : edge2) : R := norm2 (sub2 (pv V (snd e)) (pv V (fst e))).
Definition mid2 (p q : pt2) : pt2 := (/ 2 * (fst p + fst q), / 2 * (snd p + snd q)).

(** :865-869 *)
Definition line_bdry (F : list edge2) : list Z :=
  np_unique (filter (fun v => negb (existsb (Z.eqb v) (map snd F))) (map fst F) ++ filter (fun v => negb (existsb (Z.eqb v) (map fst F))) (map snd F)).

(** :886-904 *)
Definition too_long (V : list pt2) (high : R) (e : edge2) : bool := if Rlt_dec high (elen V e) then true else false.                      (* :894-895 *)
Fixpoint relinked (V : list pt2) (high : R) (n : Z) (F : list edge2) : list edge2 :=                                                      (* :902 *)
  match F with
  | [] => []
  | e :: r => if too_long V high e then (fst e, n) :: relinked V high (n + 1)%Z r else e :: relinked V high n r
  end.
Fixpoint second_halves (V : list pt2) (high : R) (n : Z) (F : list edge2) : list edge2 :=                                                  (* :898-901 *)
  match F with
  | [] => []
  | e :: r => if too_long V high e then (n, snd e) :: second_halves V high (n + 1)%Z r else second_halves V high n r
  end.
Definition split_line (V : list pt2) (F : list edge2) (high : R) : list pt2 * list edge2 :=
  let n := Z.of_nat (List.length V) in
  (V ++ map (fun e => mid2 (pv V (fst e)) (pv V (snd e))) (filter (too_long V high) F),                                                   (* :897 *)
   relinked V high n F ++ second_halves V high n F).

(** is_feature = full(False); is_feature[feature] = True (:908-909, :942-943, :949-950), with Python's negative indices *)
Definition mark (n : nat) (feature : list Z) : res (Z -> bool) :=
  if forallb (fun f => (- Z.of_nat n <=? f)%Z && (f <? Z.of_nat n)%Z) feature
  then Ok (fun v => existsb (fun f => Z.eqb (if (f <? 0)%Z then (f + Z.of_nat n)%Z else f) v) feature) else Err IndexError.
(** I[feature] *)
Definition py_get (I : list Z) (f : Z) : res Z :=
  let n := Z.of_nat (List.length I) in
  if (- n <=? f)%Z && (f <? n)%Z then Ok (nth (Z.to_nat (if (f <? 0)%Z then (f + n)%Z else f)) I 0%Z) else Err IndexError.
Fixpoint mapR {A B} (f : A -> res B) (l : list A) : res (list B) := match l with [] => Ok [] | x :: r => do y <- f x; do ys <- mapR f r; Ok (y :: ys) end.
Definition upd {A} (l : list A) (i : Z) (x : A) : list A := set_nth l (Z.to_nat i) x.
(** :914-925 *)
Fixpoint find_short (V : list pt2) (F : list edge2) (isf : Z -> bool) (low : R) (a : list nat) : option nat :=
  match a with
  | [] => None
  | i :: r => let e := nth i F (0, 0)%Z in
              if Rlt_dec (elen V e) low then if negb (isf (fst e)) || negb (isf (snd e)) then Some i else find_short V F isf low r else None
  end.
Fixpoint delete_nth {A} (l : list A) (i : nat) : list A := match l, i with [], _ => [] | _ :: r, O => r | x :: r, S i => x :: delete_nth r i end.
Definition redirect (remove keep : Z) (e : edge2) : edge2 := ((if Z.eqb (fst e) remove then keep else fst e), (if Z.eqb (snd e) remove then keep else snd e)).
Definition as_edge (r : list Z) : edge2 := (nth 0 r 0%Z, nth 1 r 0%Z).
(** one pass of the loop :911-943; None when no edge is collapsed *)
Definition collapse_round (argsort : list R -> list nat) (low : R) (V : list pt2) (F : list edge2) (feature : list Z) : res (option (list pt2 * list edge2 * list Z)) :=
  do isf <- mark (List.length V) feature;
  match find_short V F isf low (argsort (map (elen V) F)) with                                                                              (* :912-923 *)
  | None => Ok None
  | Some c =>
      let a := fst (nth c F (0, 0)%Z) in let b := snd (nth c F (0, 0)%Z) in
      let '(remove, keep, V1) :=
        if negb (isf a) && negb (isf b) then (b, a, upd V a (mid2 (pv V b) (pv V a)))                                                        (* :924-928 *)
        else if isf a then (b, a, V) else (a, b, V) in                                                                                       (* :929-934 *)
      if existsb (Z.eqb remove) feature then Err AssertionError else if isf remove then Err AssertionError else                              (* :935-936 *)
      do (V2, F2, IM, _) <- remove_unreferenced (Some V1) (map (fun e => [fst e; snd e]) (delete_nth (map (redirect remove keep) F) c));      (* :937-940 *)
      do feature' <- mapR (py_get IM) feature;                                                                                                (* :941 *)
      Ok (Some (match V2 with Some v => v | None => [] end, map as_edge F2, feature'))
  end.
Fixpoint collapse_line (fuel : nat) (argsort : list R -> list nat) (low : R) (V : list pt2) (F : list edge2) (feature : list Z) : res (list pt2 * list edge2 * list Z) :=
  match fuel with
  | O => Err OutOfFuel
  | S fuel' => do r <- collapse_round argsort low V F feature;
               match r with None => Ok (V, F, feature) | Some (V', F', feature') => collapse_line fuel' argsort low V' F' feature' end
  end.

(** :948-990 *)
Definition last_with (key : edge2 -> Z) (v : Z) (F : list edge2) : option edge2 := fold_left (fun acc e => if Z.eqb (key e) v then Some e else acc) F None.   (* A[idx] = vals: the last one wins *)
(** :952-953, :796-799: the unit normal times the length *)
Definition edge_normal (V : list pt2) (e : edge2) : option pt2 :=
  let l := elen V e in let d := sub2 (pv V (snd e)) (pv V (fst e)) in
  if Req_EM_T l 0 then None else Some (snd d / l * l, - (fst d / l) * l).
Definition opt_add (p q : option pt2) : option pt2 := match p, q with Some p, Some q => Some (fst p + fst q, snd p + snd q) | _, _ => None end.
Definition contribution (V : list pt2) (key : edge2 -> Z) (F : list edge2) (v : Z) : option pt2 := match last_with key v F with None => Some (0, 0) | Some e => edge_normal V e end.
Definition vertex_normal (V : list pt2) (F : list edge2) (v : Z) : option pt2 :=                                                             (* :954-957 *)
  match opt_add (contribution V fst F v) (contribution V snd F v) with
  | None => None
  | Some n => if Req_EM_T (norm2 n) 0 then None else Some (fst n / norm2 n, snd n / norm2 n)
  end.
Definition relaxed (N q p : pt2) : pt2 :=                                                                                                    (* :970-972 *)
  let d := sub2 p q in
  (fst p - ((1 - fst N * fst N) * fst d + (0 - fst N * snd N) * snd d), snd p - ((0 - snd N * fst N) * fst d + (1 - snd N * snd N) * snd d)).
Definition relax_at (isf : Z -> bool) (Vi : list pt2) (F : list edge2) (V : list pt2) (i : Z) : list pt2 :=                                   (* :963-972 *)
  if isf i then V else
  match vertex_normal Vi F i, last_with fst i F, last_with snd i F with
  | Some N, Some out, Some inn => upd V i (relaxed N (mid2 (pv V (snd out)) (pv V (fst inn))) (pv V i))
  | _, _, _ => V
  end.
Definition project_line (closest2 : list pt2 -> list edge2 -> pt2 -> nat * (R * R)) (V0 : list pt2) (F0 : list edge2) (p : pt2) : pt2 :=      (* :974-975 *)
  let '(i, (b0, b1)) := closest2 V0 F0 p in let e := nth i F0 (0, 0)%Z in
  let a := pv V0 (fst e) in let b := pv V0 (snd e) in (fst a * b0 + fst b * b1, snd a * b0 + snd b * b1).
Definition relaxation_line closest2 (V : list pt2) (F : list edge2) (feature : list Z) (V0 : list pt2) (F0 : list edge2) : res (list pt2) :=
  do isf <- mark (List.length V) feature;
  Ok (map (project_line closest2 V0 F0) (fold_left (relax_at isf V F) (map Z.of_nat (seq 0 (List.length V))) V)).

(** :872-883; the constants 1.4 and 0.7 *)
Fixpoint remesh_rounds (i : nat) argsort closest2 (project : bool) (high low : R) (V0 : list pt2) (F0 : list edge2) (V : list pt2) (F : list edge2) (feature : list Z) : res (list pt2 * list edge2 * list Z) :=
  match i with
  | O => Ok (V, F, feature)
  | S i' =>
      let '(V1, F1) := split_line V F high in                                                                                                (* :878 *)
      do (V2, F2, f2) <- collapse_line (S (List.length F1)) argsort low V1 F1 feature;                                                       (* :879 *)
      let '(V0', F0') := if project then (V0, F0) else (V2, F2) in                                                                           (* :880-881 *)
      do V3 <- relaxation_line closest2 V2 F2 f2 V0' F0';                                                                                    (* :882 *)
      remesh_rounds i' argsort closest2 project high low V0' F0' V3 F2 f2
  end.
Definition remesh_line (i : nat) argsort closest2 (project : bool) (h : R) (V : list pt2) (F : list edge2) (feature : list Z) : res (list pt2 * list edge2) :=
  do (V', F', _) <- remesh_rounds i argsort closest2 project (7 / 5 * h) (7 / 10 * h) V F V F (np_unique (feature ++ line_bdry F));
  Ok (V', F').
