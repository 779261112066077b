(** squared_distance_to_element.py *)
From Coq Require Import Reals Lra.
From Verif Require Import PyExn Vec GeomModel.
Open Scope R_scope.

(** pointTriangleDistance, :116-251: (s, t, sqrdistance) from the six inner products *)
Definition ptd_core (a b c d e f : R) : R * R * R :=
  let det := a * c - b * b in
  let s := b * e - c * d in
  let t := b * d - a * e in
  let full (s t : R) := s * (a * s + b * t + 2 * d) + t * (b * s + c * t + 2 * e) + f in
  if Rle_dec (s + t) det then
    if Rlt_dec s 0 then
      if Rlt_dec t 0 then
        (* region 4, :119-139 *)
        if Rlt_dec d 0 then
          if Rge_dec (- d) a then (1, 0, a + 2 * d + f) else let s := - d / a in (s, 0, d * s + f)
        else
          if Rge_dec e 0 then (0, 0, f) else
          if Rge_dec (- e) c then (0, 1, c + 2 * e + f) else let t := - e / c in (0, t, e * t + f)
      else
        (* region 3, :143-154 *)
        if Rge_dec e 0 then (0, 0, f) else
        if Rge_dec (- e) c then (0, 1, c + 2 * e + f) else let t := - e / c in (0, t, e * t + f)
    else
      if Rlt_dec t 0 then
        (* region 5, :158-169 *)
        if Rge_dec d 0 then (0, 0, f) else
        if Rge_dec (- d) a then (1, 0, a + 2 * d + f) else let s := - d / a in (s, 0, d * s + f)
      else
        (* region 0, :171-175 *)
        let invDet := 1 / det in
        let s := s * invDet in let t := t * invDet in (s, t, full s t)
  else
    if Rlt_dec s 0 then
      (* region 2, :178-204 *)
      let tmp0 := b + d in let tmp1 := c + e in
      if Rgt_dec tmp1 tmp0 then
        let numer := tmp1 - tmp0 in let denom := a - 2 * b + c in
        if Rge_dec numer denom then (1, 0, a + 2 * d + f)
        else let s := numer / denom in let t := 1 - s in (s, t, full s t)
      else
        if Rle_dec tmp1 0 then (0, 1, c + 2 * e + f) else
        if Rge_dec e 0 then (0, 0, f) else let t := - e / c in (0, t, e * t + f)
    else
      if Rlt_dec t 0 then
        (* region 6, :208-234 *)
        let tmp0 := b + e in let tmp1 := a + d in
        if Rgt_dec tmp1 tmp0 then
          let numer := tmp1 - tmp0 in let denom := a - 2 * b + c in
          if Rge_dec numer denom then (0, 1, c + 2 * e + f)
          else let t := numer / denom in let s := 1 - t in (s, t, full s t)
        else
          if Rle_dec tmp1 0 then (1, 0, a + 2 * d + f) else
          if Rge_dec d 0 then (0, 0, f) else let s := - d / a in (s, 0, d * s + f)
      else
        (* region 1, :236-251 *)
        let numer := c + e - b - d in
        if Rle_dec numer 0 then (0, 1, c + 2 * e + f) else
        let denom := a - 2 * b + c in
        if Rge_dec numer denom then (1, 0, a + 2 * d + f)
        else let s := numer / denom in let t := 1 - s in (s, t, full s t).
(** :93-112, :253-258 *)
Definition pointTriangleDistance (v0 v1 v2 p : vec3) : R * vec3 :=
  let E0 := sub3 v1 v0 in let E1 := sub3 v2 v0 in let D := sub3 v0 p in
  let '(s, t, q) := ptd_core (dot3 E0 E0) (dot3 E0 E1) (dot3 E1 E1) (dot3 E0 D) (dot3 E1 D) (dot3 D D) in
  (if Rlt_dec q 0 then 0 else q, add3 (add3 v0 (scal3 s E0)) (scal3 t E1)).

(** ** squared_distance_to_element.py:43-89, by element size *)
(** :47-50 (any dimension) *)
Definition sqd_point (p v : list R) : R * R := (dotl (subl v p) (subl v p), 1).
(** :51-77 in dimension 3 *)
Definition sqd_segment3 (p start end_ : vec3) : R * (R * R) :=
  let line_vec := sub3 end_ start in
  let pnt_vec := sub3 p start in
  let line_len := norm3 line_vec in
  if Rlt_dec line_len (1/10000000000) then (dot3 (sub3 start p) (sub3 start p), (1, 0)) else
  let t := dot3 (scal3 (/ line_len) line_vec) (scal3 (/ line_len) pnt_vec) in
  let t := if Rlt_dec t 0 then 0 else if Rgt_dec t 1 then 1 else t in
  let nearest := scal3 t line_vec in
  (dot3 (sub3 nearest pnt_vec) (sub3 nearest pnt_vec), (1 - t, t)).
(** :52-54: dimension 2 is padded with a zero *)
Definition pad (v : vec2) : vec3 := (fst v, snd v, 0).
Definition sqd_segment2 (p start end_ : vec2) : R * (R * R) := sqd_segment3 (pad p) (pad start) (pad end_).
(** :78-88 *)
Definition sqd_triangle (p v0 v1 v2 : vec3) : R * r3 :=
  let '(q, nearest) := pointTriangleDistance v0 v1 v2 p in (q, bary3 nearest v0 v1 v2).
