(** C32: squared_distance_to_element.  Code: SqDistModel.v.
    [d2 p q] is the squared Euclidean distance; [conv2 a b x y] = x a + y b, [conv3 a b c x y z] = x a + y b + z c: the points of a
    segment/triangle are those with non-negative coefficients that sum to one. *)
From Coq Require Import Reals Lra List.
From Verif Require Import PyExn Vec GeomModel GeomProofs SqDistModel SqDistProofs.
Import ListNotations.
Open Scope R_scope.

Theorem C32_triangle : forall p v0 v1 v2, cross3 (sub3 v1 v0) (sub3 v2 v0) <> zero3 ->
  let '(q, (x, y, z)) := sqd_triangle p v0 v1 v2 in
  0 <= x /\ 0 <= y /\ 0 <= z /\ x + y + z = 1 /\ q = d2 p (conv3 v0 v1 v2 x y z) /\
  forall x' y' z', 0 <= x' -> 0 <= y' -> 0 <= z' -> x' + y' + z' = 1 -> q <= d2 p (conv3 v0 v1 v2 x' y' z').
Proof. exact sqd_triangle_ok. Qed.
Print Assumptions C32_triangle.
Example C32_triangle_nonvacuous : cross3 (sub3 (1,0,0) (0,0,0)) (sub3 (0,1,0) (0,0,0)) <> zero3.
Proof. unfold cross3, sub3, zero3, X, Y, Zc; cbn. intros Q. injection Q. intros. lra. Qed.

(** segments, dimension 3: a single point, or at least the documented length threshold *)
Theorem C32_segment3 : forall p a b, a = b \/ 1/10000000000 <= norm3 (sub3 b a) ->
  let '(q, (x, y)) := sqd_segment3 p a b in
  0 <= x /\ 0 <= y /\ x + y = 1 /\ q = d2 p (conv2 a b x y) /\
  forall x' y', 0 <= x' -> 0 <= y' -> x' + y' = 1 -> q <= d2 p (conv2 a b x' y').
Proof. exact sqd_segment3_ok. Qed.
Print Assumptions C32_segment3.
Example C32_segment3_nonvacuous : 1/10000000000 <= norm3 (sub3 (1,0,0) (0,0,0)).
Proof. unfold norm3, dot3, sub3, X, Y, Zc; cbn. replace ((1-0)*(1-0)+(0-0)*(0-0)+(0-0)*(0-0)) with 1 by ring. rewrite sqrt_1. lra. Qed.
(** dimension 2, in terms of 2-vectors *)
Theorem C32_segment2 : forall p a b : vec2, a = b \/ 1/10000000000 <= norm2 (sub2 b a) ->
  let dd (u v : vec2) := dot2 (sub2 u v) (sub2 u v) in
  let '(q, (x, y)) := sqd_segment2 p a b in
  0 <= x /\ 0 <= y /\ x + y = 1 /\ q = dd p (add2 (scal2 x a) (scal2 y b)) /\
  forall x' y', 0 <= x' -> 0 <= y' -> x' + y' = 1 -> q <= dd p (add2 (scal2 x' a) (scal2 y' b)).
Proof.
  intros p a b H. cbv zeta. unfold sqd_segment2.
  assert (H' : pad a = pad b \/ 1/10000000000 <= norm3 (sub3 (pad b) (pad a))).
  { destruct H as [ -> | H]; [left; auto|right]. unfold norm2 in H. unfold norm3.
    replace (dot3 (sub3 (pad b) (pad a)) (sub3 (pad b) (pad a))) with (dot2 (sub2 b a) (sub2 b a)); auto.
    unfold dot2, dot3, sub2, sub3, pad, X, Y, Zc; cbn; ring. }
  pose proof (sqd_segment3_ok (pad p) _ _ H') as K. destruct (sqd_segment3 _ _ _) as [q [x y]].
  assert (E : forall u v, d2 (pad p) (conv2 (pad a) (pad b) u v) = dot2 (sub2 p (add2 (scal2 u a) (scal2 v b))) (sub2 p (add2 (scal2 u a) (scal2 v b)))).
  { intros u v. unfold d2, conv2, dot2, dot3, sub2, sub3, add2, add3, scal2, scal3, pad, X, Y, Zc; cbn; ring. }
  destruct K as (K1 & K2 & K3 & K4 & K5). repeat split; auto; [rewrite <- E; auto|]. intros. rewrite <- E. apply K5; auto.
Qed.
Print Assumptions C32_segment2.
(** below the threshold the distance is the one to the first end point, as documented, with coordinates (1,0) *)
Theorem C32_segment_short : forall p a b, norm3 (sub3 b a) < 1/10000000000 -> sqd_segment3 p a b = (d2 p a, (1, 0)).
Proof.
  intros p a b H. unfold sqd_segment3. destruct Rlt_dec; [|contradiction]. f_equal.
  unfold d2, dot3, sub3, X, Y, Zc; cbn; ring.
Qed.
Print Assumptions C32_segment_short.
(** ... which is then not the minimum *)
Theorem C32_segment_short_refuted : exists p a b x' y', 0 <= x' /\ 0 <= y' /\ x' + y' = 1 /\ d2 p (conv2 a b x' y') < fst (sqd_segment3 p a b).
Proof.
  exists (1/100000000000,0,0), (0,0,0), (1/100000000000,0,0), 0, 1. split; [lra|]. split; [lra|]. split; [lra|].
  rewrite C32_segment_short.
  - unfold d2, conv2, dot3, sub3, add3, scal3, X, Y, Zc; cbn. lra.
  - unfold norm3, dot3, sub3, X, Y, Zc; cbn. replace ((_ - 0) * _ + _ + _) with ((1/100000000000) * (1/100000000000)) by ring. rewrite sqrt_square; lra.
Qed.
Print Assumptions C32_segment_short_refuted.

(** points, any dimension (rows of equal length): the sum of the squared coordinate differences *)
Theorem C32_point : forall p v, length p = length v ->
  fst (sqd_point p v) = fold_right Rplus 0 (map (fun c => (fst c - snd c) ^ 2) (combine v p)) /\ snd (sqd_point p v) = 1.
Proof.
  intros p v H. split; [|reflexivity]. unfold sqd_point. cbn [fst]. revert p H. induction v as [|x v IH]; intros [|y p] H; try discriminate; [reflexivity|].
  cbn [subl dotl combine map fold_right fst snd]. rewrite IH by (injection H; auto). ring.
Qed.
Print Assumptions C32_point.
