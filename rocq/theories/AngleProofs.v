From Coq Require Import Reals Ratan Psatz.
From Verif Require Import Vec GeomSpec GeomModel GeomProofs AngleModel.
Open Scope R_scope.

Lemma clip1_id x : -1 <= x <= 1 -> clip1 x = x.
Proof. intros H. unfold clip1. rewrite Rmax_left by lra. apply Rmin_left. lra. Qed.
Lemma clip1_range x : -1 <= clip1 x <= 1.
Proof. unfold clip1, Rmin, Rmax. repeat destruct Rle_dec; lra. Qed.

(** squared lengths a b c of the sides of a possibly degenerate triangle, in terms of the sides *)
Definition tri_ineq (a b c : R) : Prop :=
  sqrt a <= sqrt b + sqrt c /\ sqrt b <= sqrt a + sqrt c /\ sqrt c <= sqrt a + sqrt b.

Lemma cos_arg_range a b c : 0 < a -> 0 < b -> 0 <= c -> tri_ineq a b c ->
  -1 <= (a + b - c) / (2 * sqrt (a * b)) <= 1.
Proof.
  intros A B C (T1 & T2 & T3). rewrite sqrt_mult by lra.
  pose proof (sqrt_lt_R0 a A) as SA. pose proof (sqrt_lt_R0 b B) as SB. pose proof (sqrt_pos c) as SC.
  assert (EA : a = sqrt a * sqrt a) by (symmetry; apply sqrt_sqrt; lra).
  assert (EB : b = sqrt b * sqrt b) by (symmetry; apply sqrt_sqrt; lra).
  assert (EC : c = sqrt c * sqrt c) by (symmetry; apply sqrt_sqrt; lra).
  set (x := sqrt a) in *. set (y := sqrt b) in *. set (z := sqrt c) in *. clearbody x y z. subst a b c.
  assert (0 < 2 * (x * y)) by nra.
  split.
  - apply Rmult_le_reg_r with (2 * (x * y)); [lra|]. field_simplify; [|lra]. nra.
  - apply Rmult_le_reg_r with (2 * (x * y)); [lra|]. field_simplify; [|lra]. nra.
Qed.

Lemma cr_exact_cos a b c : 0 < a -> 0 < b -> 0 <= c -> tri_ineq a b c ->
  0 <= cr_exact a b c <= PI /\ 2 * sqrt a * sqrt b * cos (cr_exact a b c) = a + b - c.
Proof.
  intros A B C T. unfold cr_exact. split.
  - apply acos_bound.
  - pose proof (cos_arg_range a b c A B C T) as Q. rewrite clip1_id by exact Q. rewrite cos_acos by lra.
    rewrite sqrt_mult by lra. pose proof (sqrt_lt_R0 a A). pose proof (sqrt_lt_R0 b B). field. split; lra.
Qed.

Lemma cr_small_sin a b c : 0 < a -> 0 < b -> 0 <= c -> tri_ineq a b c ->
  cr_small a b c = 2 * sin (cr_exact a b c / 2).
Proof.
  intros A B C T. destruct (cr_exact_cos a b c A B C T) as [(G0 & G1) Q].
  set (g := cr_exact a b c) in *. clearbody g.
  unfold cr_small. cbv zeta.
  pose proof (sqrt_lt_R0 a A) as SA. pose proof (sqrt_lt_R0 b B) as SB.
  assert (EA : sqrt a * sqrt a = a) by (apply sqrt_sqrt; lra).
  assert (EB : sqrt b * sqrt b = b) by (apply sqrt_sqrt; lra).
  set (x := sqrt a) in *. set (y := sqrt b) in *.
  assert (S0 : 0 <= sin (g / 2)) by (apply sin_ge_0; lra).
  assert (D : cos g = 1 - 2 * sin (g/2) * sin (g/2)).
  { replace g with (2 * (g/2)) at 1 by field. apply cos_2a_sin. }
  replace ((c - (x - y)^2) / (x * y)) with (2 * sin (g/2) * (2 * sin (g/2))).
  - rewrite Rmax_left by nra. apply sqrt_square. lra.
  - apply Rmult_eq_reg_r with (x * y); [|nra]. unfold Rdiv. rewrite (Rmult_assoc (c - _)), Rinv_l by nra.
    rewrite D in Q. assert (c = a + b - 2 * x * y * (1 - 2 * sin (g/2) * sin (g/2))) by lra. nra.
Qed.

(** three angles in [0,pi] with the right cosines add up to pi *)
Lemma sines p q r : 0 < p -> 0 < q -> 0 < r -> forall g, 0 <= g <= PI -> 2 * p * q * cos g = p*p + q*q - r*r ->
  let H := 2*p*p*q*q + 2*q*q*r*r + 2*r*r*p*p - p*p*p*p - q*q*q*q - r*r*r*r in
  2 * p * q * sin g = sqrt H /\ 0 <= H.
Proof.
  intros P Q R0 g G C H. assert (S : 0 <= sin g) by (apply sin_ge_0; lra).
  pose proof (sin2_cos2 g) as E. unfold Rsqr in E.
  assert (Hs : H = (2 * p * q * sin g) * (2 * p * q * sin g)).
  { unfold H. assert (sin g * sin g = 1 - cos g * cos g) by lra.
    replace ((2 * p * q * sin g) * (2 * p * q * sin g)) with (4*p*p*q*q*(sin g * sin g)) by ring.
    rewrite H0. replace (4*p*p*q*q*(1 - cos g * cos g)) with (4*p*p*q*q - (2*p*q*cos g)*(2*p*q*cos g)) by ring.
    rewrite C. ring. }
  assert (0 < p * q) by nra.
  assert (0 <= 2 * p * q * sin g) by (rewrite Rmult_assoc; rewrite Rmult_assoc; rewrite <- (Rmult_assoc p); nra).
  split; [rewrite Hs; symmetry; apply sqrt_square; lra|]. rewrite Hs. nra.
Qed.

Lemma angles_sum p q r : 0 < p -> 0 < q -> 0 < r -> forall al be ga,
  0 <= al <= PI -> 0 <= be <= PI -> 0 <= ga <= PI ->
  2 * q * r * cos al = q*q + r*r - p*p ->
  2 * r * p * cos be = r*r + p*p - q*q ->
  2 * p * q * cos ga = p*p + q*q - r*r ->
  al + be + ga = PI \/ (al = PI /\ be = PI) .
Proof.
  intros P Q R0 al be ga A B G CA CB CG.
  destruct (sines q r p Q R0 P al A CA) as [SA HA].
  destruct (sines r p q R0 P Q be B CB) as [SB HB].
  destruct (sines p q r P Q R0 ga G CG) as [SG HG].
  set (H := 2*p*p*q*q + 2*q*q*r*r + 2*r*r*p*p - p*p*p*p - q*q*q*q - r*r*r*r) in *.
  replace (2*q*q*r*r + 2*r*r*p*p + 2*p*p*q*q - q*q*q*q - r*r*r*r - p*p*p*p) with H in * by (unfold H; ring).
  replace (2*r*r*p*p + 2*p*p*q*q + 2*q*q*r*r - r*r*r*r - p*p*p*p - q*q*q*q) with H in * by (unfold H; ring).
  pose proof (sqrt_pos H) as SP. assert (SH : sqrt H * sqrt H = H) by (apply sqrt_sqrt; exact HG).
  set (s := sqrt H) in *. clearbody s.
  assert (N : 0 < 4 * q * r * (r * p)) by (assert (0 < q * r) by nra; assert (0 < r*p) by nra; nra).
  (* sin(al+be) >= 0 *)
  assert (S1 : 4 * q * r * (r * p) * sin (al + be) = 2 * r * r * s).
  { rewrite sin_plus. replace (4*q*r*(r*p)*(sin al * cos be + cos al * sin be))
      with ((2*q*r*sin al)*(2*r*p*cos be) + (2*q*r*cos al)*(2*r*p*sin be)) by ring.
    rewrite SA, SB, CA, CB. ring. }
  assert (C1 : cos (al + be) = - cos ga).
  { apply Rmult_eq_reg_l with (4*q*r*(r*p) * (2 * p * q)); [|assert (0 < p*q) by nra; nra].
    rewrite cos_plus.
    replace (4*q*r*(r*p)*(2*p*q)*(cos al * cos be - sin al * sin be)) with
      (2*p*q*((2*q*r*cos al)*(2*r*p*cos be) - (2*q*r*sin al)*(2*r*p*sin be))) by ring.
    replace (4*q*r*(r*p)*(2*p*q)* - cos ga) with (- (4*q*r*(r*p)) * (2*p*q*cos ga)) by ring.
    rewrite SA, SB, CA, CB, CG, SH. unfold H. ring. }
  assert (S0 : 0 <= sin (al + be)) by (assert (0 <= r * r * s) by (assert (0 <= r*r) by nra; nra); nra).
  destruct (Rle_dec (al + be) PI) as [L|L].
  - left. assert (al + be = PI - ga); [|lra].
    apply cos_inj; try lra. rewrite C1, Rtrigo_facts.cos_pi_minus. reflexivity.
  - right. destruct (Rlt_dec (al + be) (2 * PI)).
    + exfalso. assert (sin (al + be) < 0) by (apply sin_lt_0; lra). lra.
    + lra.
Qed.

Lemma cos_pi_impossible p q r al be : 0 < p -> 0 < q -> 0 < r -> 
  2 * q * r * cos al = q*q + r*r - p*p -> 2 * r * p * cos be = r*r + p*p - q*q -> al = PI -> be = PI -> False.
Proof.
  intros P Q R0 CA CB -> ->. rewrite cos_PI in *.
  assert (p * p = (q + r) * (q + r)) by nra. assert (q * q = (p + r) * (p + r)) by nra.
  assert (p = q + r) by nra. nra.
Qed.

Lemma tip_sum a b c : 0 < a -> 0 < b -> 0 < c -> tri_ineq a b c ->
  cr_exact b c a + cr_exact c a b + cr_exact a b c = PI.
Proof.
  intros A B C T. assert (T1 : tri_ineq b c a) by (unfold tri_ineq in *; lra).
  assert (T2 : tri_ineq c a b) by (unfold tri_ineq in *; lra).
  destruct (cr_exact_cos b c a) as [G1 Q1]; try lra; auto.
  destruct (cr_exact_cos c a b) as [G2 Q2]; try lra; auto.
  destruct (cr_exact_cos a b c) as [G3 Q3]; try lra; auto.
  pose proof (sqrt_lt_R0 a A) as SA. pose proof (sqrt_lt_R0 b B) as SB. pose proof (sqrt_lt_R0 c C) as SC.
  assert (EA : a = sqrt a * sqrt a) by (symmetry; apply sqrt_sqrt; lra).
  assert (EB : b = sqrt b * sqrt b) by (symmetry; apply sqrt_sqrt; lra).
  assert (EC : c = sqrt c * sqrt c) by (symmetry; apply sqrt_sqrt; lra).
  assert (R1 : 2 * sqrt b * sqrt c * cos (cr_exact b c a) = sqrt b * sqrt b + sqrt c * sqrt c - sqrt a * sqrt a) by (rewrite <- EA, <- EB, <- EC; exact Q1).
  assert (R2 : 2 * sqrt c * sqrt a * cos (cr_exact c a b) = sqrt c * sqrt c + sqrt a * sqrt a - sqrt b * sqrt b) by (rewrite <- EA, <- EB, <- EC; exact Q2).
  assert (R3 : 2 * sqrt a * sqrt b * cos (cr_exact a b c) = sqrt a * sqrt a + sqrt b * sqrt b - sqrt c * sqrt c) by (rewrite <- EA, <- EB, <- EC; exact Q3).
  destruct (angles_sum (sqrt a) (sqrt b) (sqrt c) SA SB SC _ _ _ G1 G2 G3 R1 R2 R3) as [W|[E1 E2]].
  - exact W.
  - exfalso. exact (cos_pi_impossible (sqrt a) (sqrt b) (sqrt c) _ _ SA SB SC R1 R2 E1 E2).
Qed.

Lemma sqrt_triangle u v : length u = length v -> 
  sqrt (dotl (subl u v) (subl u v)) <= sqrt (dotl u u) + sqrt (dotl v v).
Proof.
  intros L. pose proof (cauchy_schwarz u v L) as CS.
  pose proof (dotl_nonneg u) as U. pose proof (dotl_nonneg v) as W.
  assert (SU := sqrt_pos (dotl u u)). assert (SV := sqrt_pos (dotl v v)).
  apply Rsqr_incr_0_var; [|lra]. rewrite Rsqr_sqrt by apply dotl_nonneg. unfold Rsqr.
  assert (EU : sqrt (dotl u u) * sqrt (dotl u u) = dotl u u) by (apply sqrt_sqrt; lra).
  assert (EV : sqrt (dotl v v) * sqrt (dotl v v) = dotl v v) by (apply sqrt_sqrt; lra).
  assert (X : dotl (subl u v) (subl u v) = dotl u u + dotl v v - 2 * dotl u v).
  { clear - L. revert v L. induction u; destruct v; cbn; intros L; try discriminate; try ring.
    injection L as L. rewrite (IHu _ L). ring. }
  rewrite X. assert (- dotl u v <= sqrt (dotl u u) * sqrt (dotl v v)); [|nra].
  destruct (Rle_dec (- dotl u v) 0) as [n|n]; [assert (0 <= sqrt (dotl u u) * sqrt (dotl v v)) by nra; lra|].
  apply Rsqr_incr_0_var; [|nra]. unfold Rsqr. rewrite <- EU, <- EV in CS. nra.
Qed.
Lemma sqlen_tri p q r : length p = length q -> length q = length r -> 
  sqrt (sqlen p q) <= sqrt (sqlen p r) + sqrt (sqlen q r).
Proof.
  intros A B. unfold sqlen.
  assert (L : length (subl p r) = length (subl q r)) by (rewrite !subl_len; congruence).
  pose proof (sqrt_triangle (subl p r) (subl q r) L) as H.
  replace (subl (subl p r) (subl q r)) with (subl p q) in H; [exact H|].
  clear - A B. revert q r A B. clear. induction p; intros [|? q] [|? r0]; cbn; intros; try discriminate; auto.
  f_equal; [ring|]. apply IHp; congruence.
Qed.
Lemma face_tri_ineq V t : length (V (c0 t)) = length (V (c1 t)) -> length (V (c1 t)) = length (V (c2 t)) ->
  let l := lsq_face V t in tri_ineq (X l) (Y l) (Zc l).
Proof.
  intros A B. unfold lsq_face, tri_ineq, X, Y, Zc; cbn [fst snd].
  split; [|split].
  - rewrite (sqlen_sym (V (c0 t))). pose proof (sqlen_tri (V (c2 t)) (V (c1 t)) (V (c0 t))). apply H; congruence.
  - rewrite (sqlen_sym (V (c0 t))). pose proof (sqlen_tri (V (c2 t)) (V (c0 t)) (V (c1 t))).
    rewrite (sqlen_sym (V (c1 t)) (V (c0 t))). apply H; congruence.
  - rewrite (sqlen_sym (V (c2 t))). pose proof (sqlen_tri (V (c1 t)) (V (c0 t)) (V (c2 t))).
    specialize (H ltac:(congruence) ltac:(congruence)). lra.
Qed.
