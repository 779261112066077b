(** reach_for_the_spheres.py:24-208 and :344-781 (one iteration of the flow and the loop around it).
    Exact reals; V, U are lists of rows, F a list of rows of indices.  Parameters of the model: [closest] (squared_distance, :601, C++), [mass3] (massmatrix_intrinsic
    of the clipped lengths, :812-814), [splu] and [garbage] as in SolveModel (spsolve at :664 is the same exact solve), [singular] (the NaN / doublearea==0 / non-manifold test :669-679),
    [remesh] (the remeshing stage :726-774, whose 2D parts are in RfsLineModel), [sample] (_sample_sdf with its random generator, :707), [choice] (rng.choice), [nn] (the distances of the k-d tree query).
    inf is None.  The state is the one after the defaults of :545-585 have been filled in. *)
From Coq Require Import Reals Lra ZArith List Bool.
From Verif Require Import PyExn NumpyModel TopoModel MatModel SolveModel.
Import ListNotations.
Open Scope R_scope.

Notation row := (list R).
Record env := {
  closest : list row -> list (list nat) -> row -> R * nat * row;
  mass3 : list row -> list (list nat) -> list R;
  splu : solver_t; garbage : matrix;
  singular : list row -> list (list nat) -> bool;
  remesh : list row -> list (list nat) -> R -> list nat -> list nat -> res (list row * list (list nat));
  sdf : list row -> row;
  sample : list row -> list (list nat) -> list row -> nat -> list row;
  choice : nat -> nat -> nat -> list nat;
  nn : list row -> row }.
Record opts := { max_iter : Z; tol : R; linesearch : bool; min_t : R; max_t : R; dt : R; inside_outside_test : bool; resample : nat; aggressive : bool; batch_size : nat;
                 fix_boundary : bool; clamp : option R; pseudosdf_interior : bool }.
Record state := { sV : list row; sF : list (list nat); sU : list row; sS : row; sh : R; smin_h : R; its : nat; counter : nat; best : option R; resampled : nat;
                  Vlast : list row; Flast : list (list nat); Ub : list row; Sb : row }.

Definition rsub (a b : row) : row := map (fun p => fst p - snd p) (combine a b).
Definition radd (a b : row) : row := map (fun p => fst p + snd p) (combine a b).
Definition rscal (s : R) (a : row) : row := map (Rmult s) a.
Definition rdot (a b : row) : R := sumf (fun p => fst p * snd p) (combine a b).
Definition at2 (V : list row) (i c : nat) : R := nth c (nth i V []) 0.
Definition sgn (x : R) : R := if Rlt_dec 0 x then 1 else if Rlt_dec x 0 then -1 else 0.         (* np.sign *)
(** :607 the closest point, from the barycentric coordinates *)
Definition blend (dim : nat) (V : list row) (f : list nat) (b : row) : row := map (fun c => sumf (fun p => snd p * at2 V (fst p) c) (combine f b)) (seq 0 dim).
(** :798-806 *)
Definition normal (V : list row) (f : list nat) : row :=
  match f with
  | [a; b] => [at2 V b 1 - at2 V a 1; - (at2 V b 0 - at2 V a 0)]
  | [a; b; c] => let u := fun i => at2 V b i - at2 V a i in let v := fun i => at2 V c i - at2 V a i in
                 [u 1%nat * v 2%nat - u 2%nat * v 1%nat; u 2%nat * v 0%nat - u 0%nat * v 2%nat; u 0%nat * v 1%nat - u 1%nat * v 0%nat]
  | _ => []
  end.

(** one sample point: its simplex, barycentric coordinates, gap, weight, and the target on its sphere *)
Record touch := { tf : list nat; tb : row; tface : nat; tgap : R; tw : R; ttarget : row }.
Definition correspond (e : env) (o : opts) (V : list row) (F : list (list nat)) (u : row) (S : R) : touch :=
  let '(d2, i, b) := closest e V F u in                                                          (* :601 *)
  let d := sqrt d2 in                                                                            (* :603 *)
  let g := Rabs S - d in                                                                         (* :604 *)
  let f := nth i F [] in
  let pe := blend (List.length u) V f b in                                                       (* :607 *)
  let w := rsub pe u in                                                                          (* :608 *)
  let s := if inside_outside_test o then
             if existsb (fun x => if Rlt_dec x (/ 1000) then true else false) b then sgn S       (* :611-612 *)
             else - sgn (rdot w (normal V f))                                                    (* :610 *)
           else sgn S in                                                                         (* :614 *)
  let ps := radd u (rscal (s * S / Rmax (/ 2 * tol o) d) w) in                                   (* :616 *)
  let clamped := if pseudosdf_interior o then if Rlt_dec 0 S then if Rlt_dec g 0 then true else false else false       (* :631 *)
                 else match clamp o with Some c => if Req_EM_T (Rabs S) c then if Rlt_dec g 0 then true else false else false | None => false end in   (* :629 *)
  {| tf := f; tb := b; tface := i; tgap := g; tw := if clamped then 0 else 1; ttarget := ps |}.

(** :633-638: row of A (duplicate columns are summed), row of c *)
Definition a_entry (t : touch) (j : nat) : R := sumf (fun p => if Nat.eqb (fst p) j then tw t * snd p else 0) (combine (tf t) (tb t)).
Definition c_entry (t : touch) (c : nat) : R := tw t * nth c (ttarget t) 0.
Definition no_touch : touch := {| tf := []; tb := []; tface := 0; tgap := 0; tw := 0; ttarget := [] |}.
Definition Amat (ts : list touch) : matrix := fun r j => a_entry (nth r ts no_touch) j.
Definition cmat (ts : list touch) : matrix := fun r c => c_entry (nth r ts no_touch) c.
(** :809-821; the constants are 100 times the machine epsilon and its square root *)
Definition eps100 : R := 100 / 2 ^ 52.
Definition mass (e : env) (V : list row) (F : list (list nat)) (dim : nat) : nat -> R :=
  if Nat.eqb dim 3 then fun i => nth i (mass3 e V F) 0
  else fun i => sumf (fun f => let a := nth 0 f 0%nat in let b := nth 1 f 0%nat in
                       let l := Rmax (sqrt (rdot (rsub (nth b V []) (nth a V [])) (rsub (nth b V []) (nth a V [])))) (sqrt eps100) in
                       (if Nat.eqb a i then l / 2 else 0) + (if Nat.eqb b i then l / 2 else 0)) F.
Definition residual (n dim : nat) (ts : list touch) (V : matrix) : matrix := fun r c => sumn n (fun j => Amat ts r j * V j c) - cmat ts r c.       (* A V - c *)
(** :644-654 *)
Definition timestep (o : opts) (n dim : nat) (ts : list touch) (V : matrix) : R :=
  if linesearch o then
    let m := List.length ts in let rho := 1 / INR m in
    let np := fun j c => - sumn m (fun r => Amat ts r j * (rho * residual n dim ts V r c)) in                                                     (* :648 *)
    let Anp := fun r c => sumn n (fun j => Amat ts r j * np j c) in
    let num := - (sumn m (fun r => sumn dim (fun c => residual n dim ts V r c * (rho * Anp r c))) + / 100 * sumn n (fun j => sumn dim (fun c => np j c ^ 2))) in
    let den := sumn m (fun r => sumn dim (fun c => Anp r c * (rho * Anp r c))) in
    let t := if Req_EM_T den 0 then 0 else num / den in                                                                                           (* :649-651 *)
    Rmin (max_t o) (Rmax t (min_t o))                                                                                                             (* :652 *)
  else dt o.
Definition Qmat (e : env) (V : list row) (F : list (list nat)) (dim : nat) (ts : list touch) (t : R) : matrix :=                                   (* :657 *)
  let m := List.length ts in
  fun i j => (if Nat.eqb i j then mass e V F dim i else 0) + t * sumn m (fun r => Amat ts r i * (1 / INR m * Amat ts r j)).
Definition rhs (e : env) (V : list row) (F : list (list nat)) (dim : nat) (ts : list touch) (t : R) : matrix :=                                    (* :658 *)
  let m := List.length ts in
  fun i c => mass e V F dim i * at2 V i c + t * sumn m (fun r => Amat ts r i * (1 / INR m * cmat ts r c)).
Definition to_rows (n dim : nat) (X : matrix) : list row := map (fun i => map (fun c => X i c) (seq 0 dim)) (seq 0 n).
(** :660 boundary_vertices: the library's function works on triangles only *)
Definition bdry (F : list (list nat)) : res (list Z) :=
  do ts <- fold_right (fun f r => do x <- match f with [a; b; c] => Ok (Z.of_nat a, Z.of_nat b, Z.of_nat c) | _ => Err AssertionError end; do xs <- r; Ok (x :: xs)) (Ok []) F;
  lift AssertionError (boundary_vertices ts).
(** :656-664 *)
Definition solve_step (e : env) (o : opts) (V : list row) (F : list (list nat)) (dim : nat) (ts : list touch) : res (list row) :=
  let n := List.length V in
  let t := timestep o n dim ts (at2 V) in
  let Q := Qmat e V F dim ts t in let b := rhs e V F dim ts t in
  if fix_boundary o then
    do bd <- bdry F;
    do (_, X) <- fixed_dof_solve (splu e) (garbage e) n n Q (Some bd) (AMat n dim b) (AMat (List.length bd) dim (fun r c => at2 V (Z.to_nat (nth r bd 0%Z)) c));
    Ok (to_rows n dim X)
  else do s <- splu e n Q; Ok (to_rows n dim (fun i c => s (fun i => b i c) i)).

Definition pick {A} (d : A) (l : list A) (is : list nat) : list A := map (fun i => nth i l d) is.
Definition inside {A} (S : row) (l : list A) : list A := map snd (filter (fun p => if Rle_dec (fst p) 0 then true else false) (combine S l)).
(** :594-600 *)
Definition draw (e : env) (o : opts) (st : state) : list row * row :=
  if Nat.ltb 0 (batch_size o) && Nat.ltb (batch_size o) (List.length (sU st)) then
    let inds := choice e (its st) (List.length (sU st)) (batch_size o) in
    (pick [] (sU st) inds ++ inside (sS st) (sU st), pick 0 (sS st) inds ++ inside (sS st) (sS st))
  else (Ub st, Sb st).
Definition is_invalid (o : opts) (t : touch) : bool := if Rlt_dec (Rabs (tgap t)) (tol o) then false else true.       (* :617-618 *)
Definition invalid_faces (o : opts) (ts : list touch) : list nat := nodup Nat.eq_dec (map tface (filter (is_invalid o) ts)).  (* :619, order not used *)
(** :620-625 *)
Definition feature_vertices (o : opts) (n : nat) (F : list (list nat)) (Fi : list nat) : list nat :=
  if aggressive o then filter (fun v => negb (existsb (fun i => existsb (Nat.eqb v) (nth i F [])) Fi)) (seq 0 n)
  else filter (fun v => existsb (fun i => negb (existsb (Nat.eqb i) Fi) && existsb (Nat.eqb v) (nth i F [])) (seq 0 (List.length F))) (seq 0 n).
Definition frob (m dim : nat) (X : matrix) : R := sqrt (sumn m (fun r => sumn dim (fun c => X r c ^ 2))).
(** :590-781; the returned flag is the function's result *)
Definition iteration (e : env) (o : opts) (dim : nat) (st : state) : res (bool * state) :=
  if Z.leb (max_iter o) (Z.of_nat (its st)) then Ok (true, st) else                                                     (* :590 *)
  let '(ub, sb) := draw e o st in
  let ts := map (fun p => correspond e o (sV st) (sF st) (fst p) (snd p)) (combine ub sb) in
  let Fi := invalid_faces o ts in
  let feat := feature_vertices o (List.length (sV st)) (sF st) Fi in
  do V1 <- solve_step e o (sV st) (sF st) dim ts;
  let mk V F h cnt bst rs U S ub sb Vl Fl k := {| sV := V; sF := F; sU := U; sS := S; sh := h; smin_h := smin_h st; its := k; counter := cnt; best := bst; resampled := rs; Vlast := Vl; Flast := Fl; Ub := ub; Sb := sb |} in
  if singular e V1 (sF st) then                                                                                         (* :679-685 *)
    Ok (true, mk (Vlast st) (Flast st) (sh st) (counter st) (best st) (resampled st) (sU st) (sS st) ub sb (Vlast st) (Flast st) (its st))
  else
    let avg := frob (List.length ts) dim (residual (List.length V1) dim ts (at2 V1)) / INR (List.length ts) in          (* :688 *)
    let '(cnt1, best1) := match best st with
                          | Some b => if Rle_dec b (avg + / 1000 * tol o) then (S (counter st), best st) else (0%nat, Some avg)    (* :691-695 *)
                          | None => (0%nat, Some avg) end in
    let '(Vl, Fl, cnt2, best2, h2) :=
      if Nat.ltb 10 cnt1 then                                                                                           (* :696-704 *)
        if Rlt_dec (smin_h st) (sh st) then (V1, sF st, 0%nat, None, Rmax (sh st / 2) (smin_h st)) else (Vlast st, Flast st, cnt1, best1, Rmax (sh st / 2) (smin_h st))
      else (Vlast st, Flast st, cnt1, best1, sh st) in
    let done := Nat.ltb 100 cnt2 || (match Fi with [] => true | _ => false end) in                                       (* :705 *)
    if done && negb (Nat.ltb (resampled st) (resample o)) then
      Ok (true, mk V1 (sF st) h2 cnt2 best2 (resampled st) (sU st) (sS st) ub sb Vl Fl (its st))                          (* :723 *)
    else
      let U' := if done then sample e V1 (sF st) (sU st) (its st) else sU st in                                          (* :707-718 *)
      let S' := if done then sdf e U' else sS st in
      do (V2, F2) <- remesh e V1 (sF st) h2 Fi feat;                                                                     (* :726-774 *)
      Ok (Z.leb (max_iter o) (Z.of_nat (S (its st))),                                                                    (* :777-781 *)
          mk V2 F2 h2 (if done then 0%nat else cnt2) (if done then None else best2) (if done then S (resampled st) else resampled st) U' S' (if done then U' else ub) (if done then S' else sb) Vl Fl (S (its st))).

(** :489-510 default options per dimension; :545-585 *)
Definition mean (l : row) : R := sumf (fun x => x) l / INR (List.length l).
Definition start (e : env) (U : option (list row)) (S : option row) (V : list row) (F : list (list nat)) (dim : nat) (h min_h : option R) : res state :=
  match U with
  | None => Err TypeError                                     (* :549 calls _sample_sdf with U0 None, whose :1010 reads U0.shape: AttributeError, written TypeError here *)
  | Some U =>
      if negb (forallb (fun u => Nat.eqb (List.length u) dim) U) then Err AssertionError else       (* :483 *)
      let S := match S with Some s => s | None => sdf e U end in                                     (* :550-552 *)
      let mh := match min_h with Some m => m | None => Rmin (Rmax (2 * mean (nn e U)) (/ 1000)) (/ 10) end in        (* :553-559 *)
      Ok {| sV := V; sF := F; sU := U; sS := S; sh := match h with Some h => h | None => if Nat.eqb dim 3 then / 5 else / 10 end;
            smin_h := mh; its := 0; counter := 0; best := None; resampled := 0; Vlast := V; Flast := F; Ub := U; Sb := S |}
  end.
(** :189-203; the fuel is only a bound on the number of iterations *)
Fixpoint loop (fuel : nat) (e : env) (o : opts) (dim : nat) (st : state) : res state :=
  match fuel with
  | O => Err OutOfFuel
  | S fuel' => do (converged, st') <- iteration e o dim st; if (converged : bool) then Ok st' else loop fuel' e o dim st'
  end.
Definition reach_for_the_spheres (fuel : nat) (e : env) (o : opts) (U : option (list row)) (S : option row) (V : list row) (F : list (list nat)) (dim : nat) (h min_h : option R)
  : res (list row * list (list nat) * list row) :=
  do st <- start e U S V F dim h min_h; do st' <- loop fuel e o dim st; Ok (sV st', sF st', sU st').       (* :205-208 with return_U *)
