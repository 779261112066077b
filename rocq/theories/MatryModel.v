(** matryoshka.py:11-477, with the particle swarm of SwarmModel (C++ path: the objective returns a Python float, which has no .copy() for the
    Python path) and the mesh queries on A as parameters: [sd] is signed_distance(., V, F) and [ray p d] is ray_mesh_intersect (None = miss).
    Simplifications: exact reals; the random surface points of B, the initial particles, velocities and draws are parameters; verbose printing
    is left out; V empty raises ValueError (V.min), VB empty stands for its NaN mean. *)
From Coq Require Import Reals Lra ZArith List Bool String.
From Verif Require Import Vec PyExn NumpyModel AabbModel RotModel SweepModel SwarmModel.
Import ListNotations.
Open Scope R_scope.

Definition e12 : R := / 1000000000000.
Definition e6 : R := / 1000000.
Definition e3 : R := / 1000.
(** :11-20 *)
Definition axis_angle_to_matrix (aa : vec3) : mat3 :=
  let theta := norm3 aa in
  if Rlt_dec theta e12 then eye3
  else let k := scal3 (/ theta) aa in
       madd (madd eye3 (mscal (sin theta) (kmat k))) (mscal (1 - cos theta) (mmul (kmat k) (kmat k))).
(** :23-30 *)
Definition normalize (v : vec3) : vec3 := if Rlt_dec (norm3 v) e12 then (0, 0, 1) else scal3 (/ norm3 v) v.
(** :33-35: (s * (B - B_center) @ R.T) + c, one row *)
Definition transform_point (s : R) (Rm : mat3) (c Bc b : vec3) : vec3 :=
  let d := scal3 s (sub3 b Bc) in
  add3 (dot3 d (fst (fst Rm)), dot3 d (snd (fst Rm)), dot3 d (snd Rm)) c.
Definition gtb (x y : R) : bool := if Rlt_dec y x then true else false.
Definition ltb (x y : R) : bool := if Rlt_dec x y then true else false.

(** the configuration of :172-205 *)
Record config := { gR : mat3; gc : vec3; gcp : vec3; gcn : vec3; gap : vec3; gam : vec3 }.
Record result := { rs : R; rR : mat3; rc : vec3; rBc : vec3; rcp : vec3; rcn : vec3; rap : vec3; ram : vec3 }.
Inductive warm := NoWarm | WarmTrue | WarmDict (r : result).
Record args := { aV : list vec3; aVB : option (list vec3); aopt : string; aR : option mat3; ac : option vec3;
                 acp : option vec3; acn : option vec3; aap : option vec3; aam : option vec3; atol : R; aiter : nat; awarm : warm }.
Record randomness := { points : list vec3; x0 : list vec; v0 : list vec; draws : nat -> nat -> R * R }.

Section A.
  Variable sd : vec3 -> R.
  Variable ray : vec3 -> vec3 -> option R.

  Definition hit_side (cp cn : vec3) (p d : vec3) : option R :=                                    (* :70-75 *)
    match ray p d with Some t => Some (dot3 (sub3 (add3 p (scal3 t d)) cp) cn) | None => None end.
  Definition above (tol : R) (s : option R) : bool := match s with Some x => gtb x tol | None => false end.
  Definition below (tol : R) (s : option R) : bool := match s with Some x => ltb x (- tol) | None => false end.
  (** :38-88 *)
  Definition feasible (TB : list vec3) (cp cn ap am : vec3) : bool :=
    if existsb (fun p => gtb (sd p) (- e6)) TB then false                                           (* :56-59 *)
    else let dp := scal3 (-1) (normalize ap) in let dm := scal3 (-1) (normalize am) in              (* :65-68 *)
         if existsb (fun p => above e6 (hit_side cp cn p dp)) TB then false                         (* :70-77 *)
         else if existsb (fun p => below e6 (hit_side cp cn p dm)) TB then false                    (* :79-86 *)
         else true.
  (** :124-132 *)
  Fixpoint bisect (feas : R -> bool) (tol : R) (n : nat) (lo hi : R) : R :=
    match n with
    | O => lo
    | S n' =>
        let mid := / 2 * (lo + hi) in
        let lo' := if feas mid then mid else lo in
        let hi' := if feas mid then hi else mid in
        if Rlt_dec (hi' - lo') tol then lo' else bisect feas tol n' lo' hi'
    end.
  (** :100-132 with s_lo = 0, s_hi = 1, max_iter = 15 *)
  Definition largest_scale (feas : R -> bool) (tol : R) : R :=
    if feas e3 then if feas 1 then 1 else bisect feas tol 15 (Rmax 0 e3) 1 else 0.
  Definition scale_of (samples : list vec3) (Bc : vec3) (tol : R) (g : config) : R :=               (* :109-113 *)
    largest_scale (fun s => feasible (map (transform_point s (gR g) (gc g) Bc) samples) (gcp g) (gcn g) (gap g) (gam g)) tol.

  (** :135-154 *)
  Definition trace3 (M : mat3) : R := X (fst (fst M)) + Y (snd (fst M)) + Zc (snd M).
  Definition clip (x : R) : R := Rmin (Rmax x (-1)) 1.
  Definition matrix_to_axis_angle (M : mat3) : vec3 :=
    let theta := acos (clip (/ 2 * (trace3 M - 1))) in
    if Rlt_dec theta e12 then zero3
    else if Rlt_dec (PI - theta) e6 then
      let N := mscal (/ 2) (madd M eye3) in
      let d0 := X (fst (fst N)) in let d1 := Y (snd (fst N)) in let d2 := Zc (snd N) in
      let '(i, d) := if Rlt_dec d0 d1 then (if Rlt_dec d1 d2 then (2%nat, d2) else (1%nat, d1)) else (if Rlt_dec d0 d2 then (2%nat, d2) else (0%nat, d0)) in
      let axis := scal3 (/ sqrt (Rmax d e12)) (col N i) in                                          (* :149 *)
      scal3 (/ norm3 axis) (scal3 theta axis)
    else scal3 theta (scal3 (/ (2 * sin theta)) (Y (snd M) - Zc (snd (fst M)), Zc (fst (fst M)) - X (snd M), X (snd (fst M)) - Y (fst (fst M)))).
  Definition flip_pos (a n : vec3) : vec3 := if Rlt_dec (dot3 a n) 0 then scal3 (-1) a else a.      (* :164-165, :194-195 *)
  Definition flip_neg (a n : vec3) : vec3 := if Rlt_dec 0 (dot3 a n) then scal3 (-1) a else a.      (* :167-168, :197-198 *)
  Definition list_of (v : vec3) : list R := [X v; Y v; Zc v].
  (** :157-169 *)
  Definition encode_all (g : config) (anchor : vec3) : vec :=
    let cn := normalize (gcn g) in
    list_of (matrix_to_axis_angle (gR g)) ++ list_of (gc g) ++ list_of cn ++ [dot3 (sub3 (gcp g) anchor) cn] ++
    list_of (flip_pos (normalize (gap g)) cn) ++ list_of (flip_neg (normalize (gam g)) cn).
  (** :172-205; x has 16 entries in mode 'all' and 6 otherwise *)
  Definition slice3 (x : vec) (i : nat) : vec3 := (nth i x 0, nth (i + 1) x 0, nth (i + 2) x 0).
  Definition decode (x : vec) (mode : string) (fixed : config) (anchor : vec3) : config :=
    let Rm := axis_angle_to_matrix (slice3 x 0) in
    let c := slice3 x 3 in
    if String.eqb mode "all" then
      let cn := normalize (slice3 x 6) in
      {| gR := Rm; gc := c; gcp := add3 anchor (scal3 (nth 9 x 0) cn); gcn := cn;
         gap := flip_pos (normalize (slice3 x 10)) cn; gam := flip_neg (normalize (slice3 x 13)) cn |}
    else {| gR := Rm; gc := c; gcp := gcp fixed; gcn := gcn fixed; gap := gap fixed; gam := gam fixed |}.

  (** :333-337 *)
  Definition mean3 (l : list vec3) : vec3 := scal3 (/ INR (List.length l)) (fold_right add3 zero3 l).
  Definition fold_min (f : vec3 -> R) (d : vec3) (l : list vec3) : R := fold_right (fun v m => Rmin (f v) m) (f d) l.
  Definition fold_max (f : vec3 -> R) (d : vec3) (l : list vec3) : R := fold_right (fun v m => Rmax (f v) m) (f d) l.
  Definition box_min (d : vec3) (l : list vec3) : vec3 := (fold_min X d l, fold_min Y d l, fold_min Zc d l).
  Definition box_max (d : vec3) (l : list vec3) : vec3 := (fold_max X d l, fold_max Y d l, fold_max Zc d l).
  (** :385-400 *)
  Definition lower (mode : string) (lo hi : vec3) : vec :=
    [- PI; - PI; - PI] ++ list_of lo ++ (if String.eqb mode "all" then [-1; -1; -1; - (/ 2 * norm3 (sub3 hi lo)); -1; -1; -1; -1; -1; -1] else []).
  Definition upper (mode : string) (lo hi : vec3) : vec :=
    [PI; PI; PI] ++ list_of hi ++ (if String.eqb mode "all" then [1; 1; 1; / 2 * norm3 (sub3 hi lo); 1; 1; 1; 1; 1; 1] else []).
  (** :448-459: the tracker of the best configuration, over the points the swarm evaluates in order *)
  Definition track (obj : vec -> R) (best : R * option vec) (xs : list vec) : R * option vec :=
    fold_left (fun b x => if Rlt_dec (fst b) (obj x) then (obj x, Some x) else b) xs best.

  Definition result_of (s : R) (Bc : vec3) (g : config) : result :=
    {| rs := s; rR := gR g; rc := gc g; rBc := Bc; rcp := gcp g; rcn := gcn g; rap := gap g; ram := gam g |}.
  Definition config_of (r : result) : config := {| gR := rR r; gc := rc r; gcp := rcp r; gcn := rcn r; gap := rap r; gam := ram r |}.
  (** :341-356 *)
  Definition the_cn (a : args) : vec3 := match acn a with None => (0, 0, 1) | Some n => normalize n end.
  Definition the_cp (a : args) : vec3 := match acp a with None => mean3 (aV a) | Some p => p end.
  Definition the_ap (a : args) : vec3 := match aap a with None => the_cn a | Some d => normalize d end.
  Definition the_am (a : args) : vec3 := match aam a with None => scal3 (-1) (the_cn a) | Some d => normalize d end.
  Definition the_VB (a : args) : list vec3 := match aVB a with None => aV a | Some l => l end.        (* :325-327 *)

  (** :323-477; [seed] is the warm-start configuration of :418-429, if there is one *)
  Definition body (a : args) (rnd : randomness) (seed : res (option result)) : res result :=
    match aV a, the_VB a with
    | [], _ => Err ValueError
    | _, [] => Err NotANumber
    | v :: _, _ =>
      let Bc := mean3 (the_VB a) in let Ac := mean3 (aV a) in
      let lo := box_min v (aV a) in let hi := box_max v (aV a) in
      let samples := the_VB a ++ points rnd in                                                        (* :359 *)
      if String.eqb (aopt a) "scale_only" then                                                        (* :369-381 *)
        let g := {| gR := match aR a with None => eye3 | Some M => M end; gc := match ac a with None => Ac | Some c => c end;
                    gcp := the_cp a; gcn := the_cn a; gap := the_ap a; gam := the_am a |} in
        Ok (result_of (scale_of samples Bc (atol a) g) Bc g)
      else
        let fixed := {| gR := eye3; gc := Ac; gcp := the_cp a; gcn := the_cn a; gap := the_ap a; gam := the_am a |} in
        let obj := fun x => scale_of samples Bc (atol a) (decode x (aopt a) fixed Ac) in
        do sr <- seed;
        let best0 := match sr with
                     | Some r => if Rlt_dec 0 (rs r) then                                             (* :430-446 *)
                         let x := encode_all (config_of r) Ac in (scale_of samples Bc (atol a) (decode x "all" fixed Ac), Some x)
                       else (0, None)
                     | None => (0, None)
                     end in
        do (_, _, evaluated) <- particle_swarm true Full (fun x => - obj x) (lower (aopt a) lo hi) (upper (aopt a) lo hi) (9 / 10) (1 / 10) (x0 rnd) (v0 rnd) (aiter a) (draws rnd);
        let best := track obj best0 (rev evaluated) in                                                (* :461-464; the trace lists the latest first *)
        match snd best with
        | None => Ok (result_of 0 Bc fixed)                                                           (* :466-471 *)
        | Some x => Ok (result_of (fst best) Bc (decode x (aopt a) fixed Ac))                         (* :473-477 *)
        end
    end.
  (** :418-429: the inner call has its own randomness; it gets the resolved cut plane and directions *)
  Definition rigid_args (a : args) : args :=
    {| aV := aV a; aVB := Some (the_VB a); aopt := "rigid"; aR := aR a; ac := ac a; acp := Some (the_cp a); acn := Some (the_cn a);
       aap := Some (the_ap a); aam := Some (the_am a); atol := atol a; aiter := aiter a; awarm := NoWarm |}.
  Definition matryoshka (a : args) (rnd inner : randomness) : res result :=
    body a rnd
      (if String.eqb (aopt a) "all" then
         match awarm a with
         | NoWarm => Ok None
         | WarmDict r => Ok (Some r)
         | WarmTrue => do r <- body (rigid_args a) inner (Ok None); Ok (Some r)
         end
       else Ok None).
End A.
