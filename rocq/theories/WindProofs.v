From Coq Require Import List ZArith Arith Reals Lra Lia Psatz Permutation.
From Verif Require Import NumpyModel TopoModel PyExn Vec SubdivModel LoopsModel GeomModel SqDistModel AabbModel WindModel.
Import ListNotations.
Open Scope R_scope.

(** ** atan2 is the angle of a vector *)
Lemma scale_cos x y : 0 < x -> sqrt (x * x + y * y) * (1 / sqrt (1 + (y / x)²)) = x.
Proof.
  intro H. assert (1 + (y / x)² = (x * x + y * y) / (x * x)) as -> by (unfold Rsqr; field; lra). assert (0 < x * x + y * y) by nra.
  rewrite sqrt_div_alt by nra. rewrite sqrt_square by lra. assert (sqrt (x * x + y * y) <> 0) by (apply Rgt_not_eq, sqrt_lt_R0; lra). field. split; lra.
Qed.
Lemma scale_sin x y : 0 < x -> sqrt (x * x + y * y) * (y / x / sqrt (1 + (y / x)²)) = y.
Proof. intro H. transitivity (y / x * (sqrt (x * x + y * y) * (1 / sqrt (1 + (y / x)²)))). { assert (0 < sqrt (1 + (y / x)²)) by (apply sqrt_lt_R0; pose proof (Rle_0_sqr (y / x)); lra). field. split; lra. } rewrite scale_cos by lra. field. lra. Qed.
Lemma atan2_ok x y : x <> 0 \/ y <> 0 -> - PI < atan2 y x <= PI /\ x = sqrt (x * x + y * y) * cos (atan2 y x) /\ y = sqrt (x * x + y * y) * sin (atan2 y x).
Proof.
  intro NZ. pose proof PI_RGT_0 as PP. unfold atan2. destruct (Rlt_dec 0 x) as [P|P].
  - pose proof (atan_bound (y / x)). rewrite cos_atan, sin_atan. rewrite scale_cos, scale_sin by lra. repeat split; lra.
  - destruct (Rlt_dec x 0) as [N|N].
    + pose proof (atan_bound (y / x)) as B. assert (y / x = - y / - x) as E by (field; lra).
      assert (x = sqrt (x * x + y * y) * - cos (atan (y / x)) /\ y = sqrt (x * x + y * y) * - sin (atan (y / x))) as [Ex Ey].
      { rewrite cos_atan, sin_atan, E. replace (x * x + y * y) with (- x * - x + - y * - y) by ring.
        split; [transitivity (- (- x)); [ring|]; rewrite <- (scale_cos (- x) (- y)) at 1 by lra; ring|transitivity (- (- y)); [ring|]; rewrite <- (scale_sin (- x) (- y)) at 1 by lra; ring]. }
      destruct (Rle_dec 0 y) as [Q|Q].
      * rewrite neg_cos, neg_sin. split; [|split; [exact Ex|exact Ey]]. split; [lra|]. assert (y / x <= 0). { apply Rmult_le_reg_r with (- x); [lra|]. replace (y / x * - x) with (- y) by (field; lra). lra. }
        assert (atan (y / x) <= 0); [|lra]. rewrite <- atan_0. destruct (Req_dec (y / x) 0) as [-> |]; [lra|]. left. apply atan_increasing. lra.
      * assert (forall a, cos (a - PI) = - cos a /\ sin (a - PI) = - sin a) as Sh by (intro; rewrite cos_minus, sin_minus, cos_PI, sin_PI; lra).
        destruct (Sh (atan (y / x))) as [-> ->]. split; [|split; [exact Ex|exact Ey]]. assert (0 < y / x) by (rewrite E; apply Rdiv_lt_0_compat; lra).
        assert (0 < atan (y / x)) by (rewrite <- atan_0; apply atan_increasing; lra). lra.
    + assert (x = 0) as -> by lra. destruct (Rlt_dec 0 y).
      * rewrite cos_PI2, sin_PI2. replace (0 * 0 + y * y) with (y * y) by ring. rewrite sqrt_square by lra. lra.
      * destruct (Rlt_dec y 0); [|exfalso; lra]. rewrite cos_neg, sin_neg, cos_PI2, sin_PI2. replace (0 * 0 + y * y) with (- y * - y) by ring. rewrite sqrt_square by lra. lra.
Qed.
Lemma angle_zero d : -2 * PI < d < 2 * PI -> sin d = 0 -> cos d = 1 -> d = 0.
Proof.
  intros B S C. assert (sin (d / 2) * sin (d / 2) = 0) as Z.
  { pose proof (cos_2a_sin (d / 2)) as Q. replace (2 * (d / 2)) with d in Q by field. lra. }
  assert (sin (d / 2) = 0) as Z0 by nra. destruct (Rtotal_order (d / 2) 0) as [L|[E|G]]; [|lra|].
  - pose proof (sin_gt_0 (- (d / 2)) ltac:(lra) ltac:(lra)) as P. rewrite sin_neg in P. lra.
  - pose proof (sin_gt_0 (d / 2) ltac:(lra) ltac:(lra)). lra.
Qed.
Lemma atan2_unique x y r t : 0 < r -> x = r * cos t -> y = r * sin t -> - PI < t <= PI -> atan2 y x = t.
Proof.
  intros Hr Ex Ey B. assert (x * x + y * y = r * r) as E. { pose proof (sin2_cos2 t) as Q. unfold Rsqr in Q. rewrite Ex, Ey. nra. }
  destruct (atan2_ok x y) as (B2 & Cx & Cy). { destruct (Req_dec x 0) as [Z|]; [|auto]. right. intro Z2. rewrite Z, Z2 in E. nra. }
  rewrite E, sqrt_square in Cx, Cy by lra. set (u := atan2 y x) in *. clearbody u.
  assert (cos u = cos t) by (apply (Rmult_eq_reg_l r); lra). assert (sin u = sin t) by (apply (Rmult_eq_reg_l r); lra).
  pose proof (sin2_cos2 t) as Q. unfold Rsqr in Q. assert (u - t = 0); [|lra]. apply angle_zero; [lra| |].
  - rewrite sin_minus. nra.
  - rewrite cos_minus. nra.
Qed.
Lemma atan2_scale k x y : 0 < k -> atan2 (k * y) (k * x) = atan2 y x.
Proof.
  intro K. destruct (Req_dec x 0) as [Zx|Nx]; [destruct (Req_dec y 0) as [Zy|Ny]|].
  - subst. replace (k * 0) with 0 by ring. reflexivity.
  - destruct (atan2_ok x y) as (B & Ex & Ey); [auto|]. assert (0 < sqrt (x * x + y * y)) by (apply sqrt_lt_R0; nra). apply (atan2_unique _ _ (k * sqrt (x * x + y * y))); [nra| | |exact B]; rewrite Rmult_assoc; f_equal; assumption.
  - destruct (atan2_ok x y) as (B & Ex & Ey); [auto|]. assert (0 < sqrt (x * x + y * y)) by (apply sqrt_lt_R0; nra). apply (atan2_unique _ _ (k * sqrt (x * x + y * y))); [nra| | |exact B]; rewrite Rmult_assoc; f_equal; assumption.
Qed.
Lemma atan2_opp x y : y <> 0 \/ 0 < x -> atan2 (- y) x = - atan2 y x.
Proof.
  intro H. destruct (atan2_ok x y) as (B & Ex & Ey); [lra|]. assert (0 < sqrt (x * x + y * y)) as P by (apply sqrt_lt_R0; destruct H; nra).
  apply (atan2_unique _ _ (sqrt (x * x + y * y))); [exact P|rewrite cos_neg; exact Ex|rewrite sin_neg; rewrite Ey at 1; ring|].
  split; [|lra]. assert (atan2 y x <> PI); [|lra]. intro Z. rewrite Z, cos_PI in Ex. rewrite Z, sin_PI in Ey. lra.
Qed.
(** signs of y give the half of the circle *)
Lemma atan2_upper x y : x <> 0 \/ y <> 0 -> (0 <= y -> 0 <= atan2 y x) /\ (y < 0 -> atan2 y x < 0).
Proof.
  intro NZ. destruct (atan2_ok x y NZ) as (B & Ex & Ey). assert (0 < sqrt (x * x + y * y)) as P by (apply sqrt_lt_R0; destruct NZ; nra). set (t := atan2 y x) in *. split; intro H.
  - destruct (Rle_dec 0 t) as [|N]; [assumption|exfalso]. pose proof (sin_gt_0 (- t) ltac:(lra) ltac:(lra)) as S. rewrite sin_neg in S. nra.
  - destruct (Rle_dec 0 t) as [N|]; [exfalso|lra]. assert (0 <= sin t) by (apply sin_ge_0; lra). nra.
Qed.
(** ** the angle of an edge seen from the origin, as a difference of angles and a crossing of the negative x axis *)
Definition det (s d : vec2) : R := fst s * snd d - snd s * fst d.
Definition cross0 (s d : vec2) : Z :=
  if Rle_dec 0 (snd s) then (if Rlt_dec (snd d) 0 then (if Rlt_dec 0 (det s d) then 1 else 0) else 0)%Z
  else (if Rle_dec 0 (snd d) then (if Rlt_dec (det s d) 0 then -1 else 0) else 0)%Z.
Definition theta (p : vec2) : R := atan2 (snd p) (fst p).
Lemma edge_wrap s d : (fst s <> 0 \/ snd s <> 0) -> (fst d <> 0 \/ snd d <> 0) -> ~ (det s d = 0 /\ dot2 s d <= 0) ->
  atan2 (det s d) (dot2 s d) = theta d - theta s + 2 * PI * IZR (cross0 s d).
Proof.
  intros Ns Nd NO. destruct (atan2_ok _ _ Ns) as (Bs & Xs & Ys). destruct (atan2_ok _ _ Nd) as (Bd & Xd & Yd). destruct (atan2_upper _ _ Ns) as [Us Ls]. destruct (atan2_upper _ _ Nd) as [Ud Ld].
  fold (theta s) in *. fold (theta d) in *. set (a := theta s) in *. set (b := theta d) in *.
  assert (0 < sqrt (fst s * fst s + snd s * snd s)) as Rs by (apply sqrt_lt_R0; destruct Ns; nra). assert (0 < sqrt (fst d * fst d + snd d * snd d)) as Rd by (apply sqrt_lt_R0; destruct Nd; nra).
  set (rs := sqrt (fst s * fst s + snd s * snd s)) in *. set (rd := sqrt (fst d * fst d + snd d * snd d)) in *. assert (0 < rs * rd) as RR by nra.
  assert (det s d = rs * rd * sin (b - a)) as De by (unfold det; rewrite Xs, Ys, Xd, Yd, sin_minus; ring).
  assert (dot2 s d = rs * rd * cos (b - a)) as Do by (unfold dot2; rewrite Xs, Ys, Xd, Yd, cos_minus; ring).
  clearbody a b rs rd.
  assert (b - a <> PI) as N1. { intro Z. rewrite Z, sin_PI in De. rewrite Z, cos_PI in Do. apply NO. split; nra. }
  assert (b - a <> - PI) as N2. { intro Z. rewrite Z, sin_neg, sin_PI in De. rewrite Z, cos_neg, cos_PI in Do. apply NO. split; nra. }
  assert (forall k : Z, (k = 0 \/ k = 1 \/ k = -1)%Z -> - PI < b - a + 2 * PI * IZR k <= PI -> atan2 (det s d) (dot2 s d) = b - a + 2 * PI * IZR k) as U.
  { intros k Hk B. apply (atan2_unique _ _ (rs * rd)); [exact RR| | |exact B].
    - rewrite Do. f_equal. destruct Hk as [-> |[-> | ->]]; [f_equal; lra| |].
      + replace (b - a + 2 * PI * 1) with (b - a + 2 * PI) by ring. rewrite cos_plus, cos_2PI, sin_2PI. ring.
      + replace (b - a + 2 * PI * -1) with (b - a - 2 * PI) by ring. rewrite cos_minus with (x := b - a), cos_2PI, sin_2PI. ring.
    - rewrite De. f_equal. destruct Hk as [-> |[-> | ->]]; [f_equal; lra| |].
      + replace (b - a + 2 * PI * 1) with (b - a + 2 * PI) by ring. rewrite sin_plus, cos_2PI, sin_2PI. ring.
      + replace (b - a + 2 * PI * -1) with (b - a - 2 * PI) by ring. rewrite sin_minus with (x := b - a), cos_2PI, sin_2PI. ring. }
  apply U; unfold cross0.
  - destruct (Rle_dec 0 (snd s)), (Rlt_dec (snd d) 0), (Rle_dec 0 (snd d)), (Rlt_dec 0 (det s d)), (Rlt_dec (det s d) 0); auto.
  - destruct (Rle_dec 0 (snd s)) as [Hs|Hs].
    + specialize (Us Hs). destruct (Rlt_dec (snd d) 0) as [Hd|Hd].
      * specialize (Ld Hd). destruct (Rlt_dec 0 (det s d)) as [Hc|Hc].
        -- assert (b - a < - PI); [|lra]. destruct (Rlt_dec (b - a) (- PI)); [assumption|exfalso]. pose proof (sin_gt_0 (- (b - a)) ltac:(lra) ltac:(lra)) as S. rewrite sin_neg in S. nra.
        -- assert (- PI < b - a); [|lra]. destruct (Rlt_dec (- PI) (b - a)); [assumption|exfalso]. pose proof (sin_gt_0 (b - a + 2 * PI) ltac:(lra) ltac:(lra)) as S. rewrite sin_plus, cos_2PI, sin_2PI in S. nra.
      * specialize (Ud ltac:(lra)). lra.
    + specialize (Ls ltac:(lra)). destruct (Rle_dec 0 (snd d)) as [Hd|Hd].
      * specialize (Ud Hd). destruct (Rlt_dec (det s d) 0) as [Hc|Hc].
        -- assert (PI < b - a); [|lra]. destruct (Rlt_dec PI (b - a)); [assumption|exfalso]. pose proof (sin_gt_0 (b - a) ltac:(lra) ltac:(lra)) as S. nra.
        -- assert (b - a < PI); [|lra]. destruct (Rlt_dec (b - a) PI); [assumption|exfalso]. pose proof (sin_gt_0 (- (b - a - 2 * PI)) ltac:(lra) ltac:(lra)) as S. rewrite sin_neg, sin_minus, cos_2PI, sin_2PI in S. nra.
      * specialize (Ld ltac:(lra)). lra.
Qed.
