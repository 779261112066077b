(** C59: tip angles.  Code: AngleModel.v; vocabulary: GeomSpec.v, Vec.v *)
From Coq Require Import Reals Ratan Psatz.
From Verif Require Import Vec GeomSpec GeomModel GeomProofs AngleModel AngleProofs.
Open Scope R_scope.

(** squared side lengths of a triangle (flat ones included), no side of length zero *)
Definition side_lengths (l : r3) : Prop :=
  0 < X l /\ 0 < Y l /\ 0 < Zc l /\
  let a := sqrt (X l) in let b := sqrt (Y l) in let c := sqrt (Zc l) in a <= b + c /\ b <= a + c /\ c <= a + b.
(** all three squared lengths reach the threshold below which the code switches to a series *)
Definition not_small (small : R) (l : r3) : Prop := small <= X l /\ small <= Y l /\ small <= Zc l.

(** cosine rule at each corner, angles in [0,pi], sum pi: without the series approximation, or when no
    squared length is below its threshold *)
Theorem C59_cosine_rule : forall approx small l, side_lengths l -> (approx = true -> not_small small l) ->
  let g := tip_angles_intrinsic approx small l in
  let a := sqrt (X l) in let b := sqrt (Y l) in let c := sqrt (Zc l) in
  0 <= X g <= PI /\ 0 <= Y g <= PI /\ 0 <= Zc g <= PI /\
  a * a = b * b + c * c - 2 * b * c * cos (X g) /\
  b * b = c * c + a * a - 2 * c * a * cos (Y g) /\
  c * c = a * a + b * b - 2 * a * b * cos (Zc g) /\
  X g + Y g + Zc g = PI.
Proof.
  intros approx small [[a b] c] (A & B & C & T) NS. unfold X, Y, Zc in *. cbn [fst snd] in *. cbv zeta in T |- *.
  assert (E : tip_angles_intrinsic approx small (a, b, c) = (cr_exact b c a, cr_exact c a b, cr_exact a b c)).
  { unfold tip_angles_intrinsic, cr, X, Y, Zc. cbn [fst snd]. destruct approx; [|reflexivity].
    destruct (NS eq_refl) as (N1 & N2 & N3). unfold X, Y, Zc in *. cbn [fst snd] in *.
    repeat destruct Rlt_dec; try lra; reflexivity. }
  rewrite E. cbn [fst snd].
  assert (T0 : tri_ineq a b c) by (unfold tri_ineq; lra).
  assert (T1 : tri_ineq b c a) by (unfold tri_ineq; lra).
  assert (T2 : tri_ineq c a b) by (unfold tri_ineq; lra).
  destruct (cr_exact_cos b c a) as [G1 Q1]; try lra; auto.
  destruct (cr_exact_cos c a b) as [G2 Q2]; try lra; auto.
  destruct (cr_exact_cos a b c) as [G3 Q3]; try lra; auto.
  rewrite (sqrt_sqrt a), (sqrt_sqrt b), (sqrt_sqrt c) by lra.
  repeat (split; [lra|]). apply tip_sum; assumption.
Qed.
Print Assumptions C59_cosine_rule.

(** in terms of vertex positions in any dimension: the entry of corner k is the angle between the two
    sides that leave that corner *)
Theorem C59_positions : forall V t small approx d,
  length (V (c0 t)) = d -> length (V (c1 t)) = d -> length (V (c2 t)) = d ->
  0 < sqlen (V (c0 t)) (V (c1 t)) -> 0 < sqlen (V (c1 t)) (V (c2 t)) -> 0 < sqlen (V (c2 t)) (V (c0 t)) ->
  (approx = true -> not_small small (sqlen (V (c0 t)) (V (c1 t)), sqlen (V (c1 t)) (V (c2 t)), sqlen (V (c2 t)) (V (c0 t)))) ->
  let g := tip_angles V approx small t in
  let angle p q r x := let u := subl q p in let v := subl r p in
     0 <= x <= PI /\ dotl u v = sqrt (dotl u u) * sqrt (dotl v v) * cos x in
  angle (V (c0 t)) (V (c1 t)) (V (c2 t)) (X g) /\
  angle (V (c1 t)) (V (c2 t)) (V (c0 t)) (Y g) /\
  angle (V (c2 t)) (V (c0 t)) (V (c1 t)) (Zc g) /\
  X g + Y g + Zc g = PI.
Proof.
  intros V t small approx d D0 D1 D2 P01 P12 P20 NS. cbv zeta.
  pose proof (face_tri_ineq V t) as T. specialize (T ltac:(congruence) ltac:(congruence)). cbv zeta in T.
  assert (L : side_lengths (lsq_face V t)).
  { unfold side_lengths. unfold tri_ineq in T. cbv zeta. unfold lsq_face in *. unfold X, Y, Zc in *; cbn [fst snd] in *.
    rewrite (sqlen_sym (V (c2 t)) (V (c1 t))), (sqlen_sym (V (c0 t)) (V (c2 t))), (sqlen_sym (V (c1 t)) (V (c0 t))) in *.
    repeat split; try assumption; tauto. }
  assert (NS' : approx = true -> not_small small (lsq_face V t)).
  { intros Q. destruct (NS Q) as (N1 & N2 & N3). unfold not_small, lsq_face, X, Y, Zc in *; cbn [fst snd] in *.
    rewrite (sqlen_sym (V (c2 t)) (V (c1 t))), (sqlen_sym (V (c0 t)) (V (c2 t))), (sqlen_sym (V (c1 t)) (V (c0 t))). tauto. }
  pose proof (C59_cosine_rule approx small (lsq_face V t) L NS') as Q. cbv zeta in Q.
  change (tip_angles_intrinsic approx small (lsq_face V t)) with (tip_angles V approx small t) in Q.
  destruct L as (A & B & C & _).
  set (g := tip_angles V approx small t) in *. clearbody g.
  destruct Q as (G1 & G2 & G3 & Q1 & Q2 & Q3 & S).
  unfold lsq_face in *. unfold X, Y, Zc in A, B, C, Q1, Q2, Q3. cbn [fst snd] in A, B, C, Q1, Q2, Q3.
  rewrite !sqrt_sqrt in Q1, Q2, Q3 by lra.
  assert (cosr : forall p q r, length p = length q -> length q = length r ->
     sqlen q r = sqlen q p + sqlen r p - 2 * dotl (subl q p) (subl r p)).
  { intros p q r. unfold sqlen. revert q r. induction p as [|x p IH]; intros [|y q] [|z r]; cbn; intros; try discriminate; try ring.
    rewrite (IH q r) by congruence. ring. }
  assert (K1 := cosr (V (c0 t)) (V (c1 t)) (V (c2 t)) ltac:(congruence) ltac:(congruence)).
  assert (K2 := cosr (V (c1 t)) (V (c2 t)) (V (c0 t)) ltac:(congruence) ltac:(congruence)).
  assert (K3 := cosr (V (c2 t)) (V (c0 t)) (V (c1 t)) ltac:(congruence) ltac:(congruence)).
  rewrite (sqlen_sym (V (c2 t)) (V (c1 t))), (sqlen_sym (V (c0 t)) (V (c2 t))), (sqlen_sym (V (c1 t)) (V (c0 t))) in *.
  rewrite ?(sqlen_sym (V (c2 t)) (V (c1 t))), ?(sqlen_sym (V (c0 t)) (V (c2 t))), ?(sqlen_sym (V (c1 t)) (V (c0 t))) in *.
  change (dotl (subl (V (c1 t)) (V (c0 t))) (subl (V (c1 t)) (V (c0 t)))) with (sqlen (V (c1 t)) (V (c0 t))).
  change (dotl (subl (V (c2 t)) (V (c0 t))) (subl (V (c2 t)) (V (c0 t)))) with (sqlen (V (c2 t)) (V (c0 t))).
  change (dotl (subl (V (c2 t)) (V (c1 t))) (subl (V (c2 t)) (V (c1 t)))) with (sqlen (V (c2 t)) (V (c1 t))).
  change (dotl (subl (V (c0 t)) (V (c1 t))) (subl (V (c0 t)) (V (c1 t)))) with (sqlen (V (c0 t)) (V (c1 t))).
  change (dotl (subl (V (c0 t)) (V (c2 t))) (subl (V (c0 t)) (V (c2 t)))) with (sqlen (V (c0 t)) (V (c2 t))).
  change (dotl (subl (V (c1 t)) (V (c2 t))) (subl (V (c1 t)) (V (c2 t)))) with (sqlen (V (c1 t)) (V (c2 t))).
  rewrite ?(sqlen_sym (V (c2 t)) (V (c1 t))), ?(sqlen_sym (V (c0 t)) (V (c2 t))), ?(sqlen_sym (V (c1 t)) (V (c0 t))).
  unfold X, Y, Zc in *. repeat split; lra.
Qed.
Print Assumptions C59_positions.

(** below the threshold the code returns twice the sine of half the angle, not the angle: the
    relative error depends on the angle only, it does not shrink with the length *)
Theorem C59_small_value : forall small l, side_lengths l -> X l < small ->
  X (tip_angles_intrinsic true small l) = 2 * sin (X (tip_angles_intrinsic false small l) / 2).
Proof.
  intros small [[a b] c] (A & B & C & T) S. unfold tip_angles_intrinsic, cr, X, Y, Zc in *. cbn [fst snd] in *.
  destruct Rlt_dec; [|lra]. apply cr_small_sin; try lra. unfold tri_ineq; cbv zeta in T; lra.
Qed.
Print Assumptions C59_small_value.

(** hence the angles of an equilateral triangle change with its size: pi/3 above the threshold, 1 below *)
Theorem C59_scale_refuted : forall small, 0 < small -> small < 4 ->
  forall s, 0 < s < small ->
  tip_angles_intrinsic true small (s, s, s) = (1, 1, 1) /\
  tip_angles_intrinsic true small (4, 4, 4) = (PI/3, PI/3, PI/3) /\ 3 < PI /\
  exists a b c, side_lengths (s,s,s) /\ tip_angles_intrinsic true small (s,s,s) = (a,b,c) /\ a + b + c <> PI.
Proof.
  intros small P S4 s S.
  assert (P3 : 3 < PI). { pose proof PI2_3_2. unfold PI2 in H. lra. }
  assert (E : tip_angles_intrinsic true small (s, s, s) = (1, 1, 1)).
  { unfold tip_angles_intrinsic, cr, X, Y, Zc. cbn [fst snd]. destruct Rlt_dec; [|lra].
    assert (Q : cr_small s s s = 1).
    { unfold cr_small. cbv zeta. rewrite sqrt_sqrt by lra.
      replace ((s - (sqrt s - sqrt s)^2) / s) with 1 by (field; lra). rewrite Rmax_left by lra. apply sqrt_1. }
    rewrite Q. reflexivity. }
  assert (E4 : tip_angles_intrinsic true small (4, 4, 4) = (PI/3, PI/3, PI/3)).
  { unfold tip_angles_intrinsic, cr, X, Y, Zc. cbn [fst snd]. destruct Rlt_dec; [lra|].
    assert (Q : cr_exact 4 4 4 = PI / 3).
    { unfold cr_exact. rewrite sqrt_square by lra. replace ((4 + 4 - 4) / (2 * 4)) with (1/2) by lra.
      rewrite clip1_id by lra. rewrite <- cos_PI3. apply acos_cos. lra. }
    rewrite Q. reflexivity. }
  split; [exact E|]. split; [exact E4|]. split; [exact P3|].
  exists 1, 1, 1. split; [|split; [exact E|lra]].
  unfold side_lengths, X, Y, Zc; cbn [fst snd]; cbv zeta. pose proof (sqrt_pos s). lra.
Qed.
Print Assumptions C59_scale_refuted.

Example C59_nonvacuous : side_lengths (9, 16, 25) /\ not_small (1/100) (9,16,25) /\
  Zc (tip_angles_intrinsic true (1/100) (9, 16, 25)) = PI/2.
Proof.
  assert (S3 : sqrt 9 = 3) by (replace 9 with (3*3) by lra; apply sqrt_square; lra).
  assert (S4 : sqrt 16 = 4) by (replace 16 with (4*4) by lra; apply sqrt_square; lra).
  assert (S5 : sqrt 25 = 5) by (replace 25 with (5*5) by lra; apply sqrt_square; lra).
  split; [|split].
  - unfold side_lengths, X, Y, Zc; cbn [fst snd]; cbv zeta. rewrite S3, S4, S5. lra.
  - unfold not_small, X, Y, Zc; cbn [fst snd]. lra.
  - unfold tip_angles_intrinsic, cr, X, Y, Zc; cbn [fst snd]. destruct Rlt_dec; [lra|].
    unfold cr_exact. replace ((9 + 16 - 25) / (2 * sqrt (9 * 16))) with 0 by (unfold Rdiv; ring).
    rewrite clip1_id by lra. apply acos_0.
Qed.
