(** ray_box_intersect.py, ray_triangle_intersect.py, ray_polyline_intersect.py.  Exact reals; an infinite
    coordinate is [None]. *)
From Coq Require Import Reals Lra ZArith List Bool.
From Verif Require Import PyExn Vec SubdivModel.
Import ListNotations.
Open Scope R_scope.

(** ** ray_box_intersect.py: origin, dir, center, width zipped into one tuple per dimension *)
Definition axis := (R * R * R * R)%type.
Definition ao (a : axis) := fst (fst (fst a)).
Definition ad (a : axis) := snd (fst (fst a)).
Definition ac (a : axis) := snd (fst a).
Definition aw (a : axis) := snd a.
(** :50-51 *)
Definition minB (a : axis) : R := ac a - 0.5 * aw a.
Definition maxB (a : axis) : R := ac a + 0.5 * aw a.
(** :54-64: quadrant and candidate plane *)
Definition quad (a : axis) : Z * R :=
  if Rlt_dec (ao a) (minB a) then (1%Z, minB a) else if Rlt_dec (maxB a) (ao a) then (0%Z, maxB a) else (2%Z, -1).
(** :71-75 *)
Definition maxT (a : axis) : R :=
  if (fst (quad a) =? 2)%Z then -1 else if Req_EM_T (ad a) 0 then -1 else (snd (quad a) - ao a) / ad a.
(** :77-80: (whichPlane, maxT[whichPlane]), the loop from index i on *)
Fixpoint which_plane (best : nat) (bv : R) (i : nat) (l : list axis) : nat * R :=
  match l with
  | [] => (best, bv)
  | a :: r => if Rlt_dec bv (maxT a) then which_plane i (maxT a) (S i) r else which_plane best bv (S i) r
  end.
(** :85-93: the coordinates not reached stay infinite *)
Fixpoint hit_loop (wp : nat) (T : R) (i : nat) (l : list axis) : bool * list (option R) :=
  match l with
  | [] => (true, [])
  | a :: r =>
    if Nat.eqb wp i then let (h, p) := hit_loop wp T (S i) r in (h, Some (snd (quad a)) :: p) else
    let x := ao a + T * ad a in
    if Rlt_dec x (minB a) then (false, Some x :: map (fun _ => None) r) else
    if Rlt_dec (maxB a) x then (false, Some x :: map (fun _ => None) r) else
    let (h, p) := hit_loop wp T (S i) r in (h, Some x :: p)
  end.
(** :43-93 *)
Definition ray_box_intersect (l : list axis) : bool * list (option R) :=
  if forallb (fun a => (fst (quad a) =? 2)%Z) l then (true, map (fun a => Some (ao a)) l) else       (* :67-69 *)
  match l with
  | [] => (true, [])      (* not reached: inside *)
  | a0 :: _ =>
    let '(wp, T) := which_plane 0 (maxT a0) 0 l in
    if Rlt_dec T 0 then (false, map (fun _ => None) l)                                                (* :82-83 *)
    else hit_loop wp T 0 l
  end.

(** ** ray_triangle_intersect.py:53-95; None stands for t = inf, is_hit = False, hit = inf *)
Definition ray_triangle_intersect (origin dir v0 v1 v2 : vec3) (return_negative : bool) : option (R * vec3) :=
  let v0v1 := sub3 v1 v0 in let v0v2 := sub3 v2 v0 in
  let pvec := cross3 dir v0v2 in
  let det := dot3 v0v1 pvec in
  if Rlt_dec (Rabs det) (1/1000000) then None else
  let invDet := 1 / det in
  let tvec := sub3 origin v0 in
  let u := dot3 tvec pvec * invDet in
  if Rlt_dec u 0 then None else if Rlt_dec 1 u then None else
  let qvec := cross3 tvec v0v1 in
  let v := dot3 dir qvec * invDet in
  if Rlt_dec v 0 then None else if Rlt_dec 1 (u + v) then None else
  let t := dot3 v0v2 qvec * invDet in
  let hit := add3 origin (scal3 t dir) in
  if return_negative then Some (t, hit) else if Rlt_dec t 0 then None else Some (t, hit).

(** ** ray_polyline_intersect.py *)
(** the loop state: x (None = inf), n, ind, distance_to_hit *)
Definition rp_state := (option vec2 * vec2 * Z * R)%type.
(** :91-93, :98-100, :109-111 *)
Definition seg_normal (a0 a1 : vec2) : vec2 :=
  let n := (- (snd a1 - snd a0), fst a1 - fst a0) in scal2 (/ norm2 n) n.
(** numpy.linalg.solve of the 2x2 system [[d0,e0],[d1,e1]] t = b (Cramer; det <> 0 here) *)
Definition solve2 (d e b : vec2) : vec2 := (det2 b e / det2 d e, det2 d b / det2 d e).
(** :60-111, one edge *)
Definition rp_step (p d : vec2) (i : Z) (a0 a1 : vec2) (st : rp_state) : rp_state :=
  let '(x, n, ind, dist) := st in
  let det := fst d * (snd a1 - snd a0) - snd d * (fst a1 - fst a0) in
  if Rlt_dec (Rabs det) (1/100000000) then
    let eq0 := snd d * (fst a0 - fst p) - fst d * (snd a0 - snd p) in
    if Rlt_dec (Rabs eq0) (1/100000000) then
      let sign0 := dot2 (sub2 a0 p) d in
      let sign1 := dot2 (sub2 a1 p) d in
      let t0 := norm2 (sub2 a0 p) / norm2 d in
      let t1 := norm2 (sub2 a0 p) / norm2 d in     (* line 75 uses a0 again *)
      let hit0 : rp_state := (Some (add2 p (scal2 t0 d)), seg_normal a0 a1, i, t0) in
      let hit1 : rp_state := (Some (add2 p (scal2 t1 d)), seg_normal a0 a1, i, t1) in
      if Rlt_dec 0 sign0 then
        if Rlt_dec 0 sign1 then (if Rlt_dec t0 t1 then hit0 else hit1) else hit0
      else if Rlt_dec 0 sign1 then hit1 else st
    else st
  else
    let t := solve2 d (sub2 a1 a0) (sub2 a1 p) in
    if Rlt_dec 0 (snd t) then if Rlt_dec (snd t) 1 then if Rlt_dec 0 (fst t) then if Rlt_dec (fst t) dist then
      (Some (add2 p (scal2 (fst t) d)), seg_normal a0 a1, i, fst t)
    else st else st else st else st.
(** :55-112; the segments are given by their end points, in order of EC *)
Fixpoint rp_loop (p d : vec2) (i : Z) (segs : list (vec2 * vec2)) (st : rp_state) : rp_state :=
  match segs with
  | [] => st
  | s :: r => rp_loop p d (i + 1) r (rp_step p d i (fst s) (snd s) st)
  end.
Definition ray_segments (p d : vec2) (max_distance : R) (segs : list (vec2 * vec2)) : option vec2 * vec2 * Z :=
  fst (rp_loop p d 0 segs (None, (0, 0), (-1)%Z, max_distance)).
(** gathering the end points (:61-62, IndexError when out of range) and the default EC (:53-54) *)
Definition ray_polyline_intersect (p d : vec2) (V : list vec2) (max_distance : R) (EC : option (list (Z * Z)))
  : res (option vec2 * vec2 * Z) :=
  do E <- (match EC with Some E => Ok E | None => edge_indices (Z.of_nat (length V)) true end);
  do segs <- lift IndexError (mapO (fun e => match getZ V (fst e), getZ V (snd e) with Some a, Some b => Some (a, b) | _, _ => None end) E);
  Ok (ray_segments p d max_distance segs).
