(** lemmas about matryoshka's rotations, feasibility test and scale search *)
From Coq Require Import Reals Lra Psatz ZArith List Bool String Nsatz.
From Verif Require Import Vec PyExn NumpyModel AabbModel RotModel SweepModel SwarmModel P_Rot P_Sweep MatryModel.
Import ListNotations.
Open Scope R_scope.

Lemma e12_pos : 0 < e12. Proof. unfold e12. lra. Qed.
Lemma norm_unit v : dot3 v v = 1 -> norm3 v = 1. Proof. intro H. unfold norm3. rewrite H. apply sqrt_1. Qed.
Lemma norm_nn v : 0 <= norm3 v. Proof. apply sqrt_pos. Qed.
Lemma norm_scal t v : 0 <= t -> norm3 (scal3 t v) = t * norm3 v.
Proof.
  intro T. unfold norm3. replace (dot3 (scal3 t v) (scal3 t v)) with (t * t * dot3 v v) by (ex3; ring).
  rewrite sqrt_mult; [|nra|apply dot3_nn]. rewrite sqrt_square by exact T. reflexivity.
Qed.
Lemma scal_scal s t v : scal3 s (scal3 t v) = scal3 (s * t) v. Proof. ex3. f_equal; [f_equal|]; ring. Qed.
Lemma scal_1 v : scal3 1 v = v. Proof. ex3. rewrite !Rmult_1_l. reflexivity. Qed.
Lemma unit_of v : 0 < norm3 v -> dot3 (scal3 (/ norm3 v) v) (scal3 (/ norm3 v) v) = 1.
Proof.
  intro P. replace (dot3 (scal3 (/ norm3 v) v) (scal3 (/ norm3 v) v)) with (/ norm3 v * / norm3 v * dot3 v v) by (set (q := / norm3 v); ex3; ring).
  rewrite <- norm_sq. field. lra.
Qed.
Lemma normalize_unit v : dot3 (normalize v) (normalize v) = 1.
Proof.
  unfold normalize. destruct (Rlt_dec (norm3 v) e12) as [L|L].
  - unfold dot3, X, Y, Zc. cbn [fst snd]. ring.
  - apply unit_of. pose proof e12_pos. lra.
Qed.
Lemma normalize_id v : dot3 v v = 1 -> normalize v = v.
Proof.
  intro U. unfold normalize. rewrite (norm_unit v U). destruct (Rlt_dec 1 e12) as [L|L]; [unfold e12 in L; lra|].
  rewrite Rinv_1. apply scal_1.
Qed.
Lemma normalize_idem v : normalize (normalize v) = normalize v. Proof. apply normalize_id, normalize_unit. Qed.

(** Rodrigues' formula *)
Definition rodrigues (k : vec3) (s c : R) : mat3 := madd (madd eye3 (mscal s (kmat k))) (mscal (1 - c) (mmul (kmat k) (kmat k))).
Lemma rodrigues_entries x y z s c : rodrigues (x, y, z) s c =
  ((1 - (1 - c) * (y * y + z * z), - (s * z) + (1 - c) * (x * y), s * y + (1 - c) * (x * z)),
   (s * z + (1 - c) * (x * y), 1 - (1 - c) * (x * x + z * z), - (s * x) + (1 - c) * (y * z)),
   (- (s * y) + (1 - c) * (x * z), s * x + (1 - c) * (y * z), 1 - (1 - c) * (x * x + y * y))).
Proof. unfold rodrigues. ex3. repeat (f_equal; [|try ring]); ring. Qed.
Lemma rodrigues_rotation k s c : dot3 k k = 1 -> s * s + c * c = 1 -> is_rotation3 (rodrigues k s c).
Proof.
  intros K S. destruct k as [[x y] z]. rewrite rodrigues_entries. unfold is_rotation3, orthogonal3, det3. cbn [fst snd].
  unfold dot3, cross3, X, Y, Zc in *. cbn [fst snd] in *.
  repeat split; nsatz.
Qed.
Lemma axis_angle_rotation aa : is_rotation3 (axis_angle_to_matrix aa).
Proof.
  unfold axis_angle_to_matrix. destruct (Rlt_dec (norm3 aa) e12) as [L|L].
  - unfold is_rotation3, orthogonal3, det3, eye3, dot3, cross3, X, Y, Zc. cbn [fst snd]. repeat split; ring.
  - apply rodrigues_rotation; [apply unit_of; pose proof e12_pos; lra|]. pose proof (sin2_cos2 (norm3 aa)) as H. unfold Rsqr in H. exact H.
Qed.

(** identities of a rotation *)
Section Rotation.
  Variable m00 m01 m02 m10 m11 m12 m20 m21 m22 : R.
  Let M : mat3 := ((m00, m01, m02), (m10, m11, m12), (m20, m21, m22)).
  Hypothesis rot : is_rotation3 M.
  Lemma rot_facts :
    (m00 * m00 + m01 * m01 + m02 * m02 = 1 /\ m10 * m10 + m11 * m11 + m12 * m12 = 1 /\ m20 * m20 + m21 * m21 + m22 * m22 = 1) /\
    (m00 * m10 + m01 * m11 + m02 * m12 = 0 /\ m00 * m20 + m01 * m21 + m02 * m22 = 0 /\ m10 * m20 + m11 * m21 + m12 * m22 = 0) /\
    (m00 * m00 + m10 * m10 + m20 * m20 = 1 /\ m01 * m01 + m11 * m11 + m21 * m21 = 1 /\ m02 * m02 + m12 * m12 + m22 * m22 = 1) /\
    (m00 * m01 + m10 * m11 + m20 * m21 = 0 /\ m00 * m02 + m10 * m12 + m20 * m22 = 0 /\ m01 * m02 + m11 * m12 + m21 * m22 = 0) /\
    (m20 = m01 * m12 - m02 * m11 /\ m21 = m02 * m10 - m00 * m12 /\ m22 = m00 * m11 - m01 * m10) /\
    (m00 = m11 * m22 - m12 * m21 /\ m01 = m12 * m20 - m10 * m22 /\ m02 = m10 * m21 - m11 * m20) /\
    (m10 = m21 * m02 - m22 * m01 /\ m11 = m22 * m00 - m20 * m02 /\ m12 = m20 * m01 - m21 * m00).
  Proof.
    pose proof (third_row M rot) as T.
    assert (R1 : is_rotation3 ((m10, m11, m12), (m20, m21, m22), (m00, m01, m02))).
    { revert rot. unfold M, is_rotation3, orthogonal3, det3. cbn [fst snd]. unfold dot3, cross3, X, Y, Zc. cbn [fst snd].
      intros ((A1 & A2 & A3 & A4 & A5 & A6) & D). repeat split; lra. }
    assert (R2 : is_rotation3 ((m20, m21, m22), (m00, m01, m02), (m10, m11, m12))).
    { revert rot. unfold M, is_rotation3, orthogonal3, det3. cbn [fst snd]. unfold dot3, cross3, X, Y, Zc. cbn [fst snd].
      intros ((A1 & A2 & A3 & A4 & A5 & A6) & D). repeat split; lra. }
    pose proof (third_row _ R1) as T1. pose proof (third_row _ R2) as T2. pose proof (tr3_rot M rot) as TR.
    unfold M in *. unfold is_rotation3, orthogonal3, det3, tr3, col in *. cbn [fst snd] in *. unfold dot3, cross3, X, Y, Zc in *. cbn [fst snd] in *.
    injection T as T00 T01 T02. injection T1 as T10 T11 T12. injection T2 as T20 T21 T22.
    clear R1 R2.
    destruct rot as ((A1 & A2 & A3 & A4 & A5 & A6) & D). destruct TR as ((B1 & B2 & B3 & B4 & B5 & B6) & _).
    repeat split; first [assumption|lra].
  Qed.
  Let t := m00 + m11 + m22.
  Let a0 := m21 - m12.
  Let a1 := m02 - m20.
  Let a2 := m10 - m01.
  Lemma skew_off : a0 * a1 = (1 + t) * (m01 + m10) /\ a0 * a2 = (1 + t) * (m02 + m20) /\ a1 * a2 = (1 + t) * (m12 + m21).
  Proof.
    destruct rot_facts as ((? & ? & ?) & (? & ? & ?) & (? & ? & ?) & (? & ? & ?) & (? & ? & ?) & (? & ? & ?) & (? & ? & ?)).
    unfold a0, a1, a2, t. repeat split; nra.
  Qed.
  Lemma skew_diag : - (a1 * a1 + a2 * a2) = (1 + t) * (2 * m00 - 2) /\ - (a0 * a0 + a2 * a2) = (1 + t) * (2 * m11 - 2) /\ - (a0 * a0 + a1 * a1) = (1 + t) * (2 * m22 - 2).
  Proof.
    destruct rot_facts as ((? & ? & ?) & (? & ? & ?) & (? & ? & ?) & (? & ? & ?) & (? & ? & ?) & (? & ? & ?) & (? & ? & ?)).
    unfold a0, a1, a2, t. repeat split; nra.
  Qed.
  Lemma skew_norm : a0 * a0 + a1 * a1 + a2 * a2 = (1 + t) * (3 - t).
  Proof. destruct skew_diag as (A & B & C). unfold t in *. nra. Qed.
  Lemma diag_le : -1 <= m00 <= 1 /\ -1 <= m11 <= 1 /\ -1 <= m22 <= 1.
  Proof. destruct rot_facts as ((? & ? & ?) & _). repeat split; nra. Qed.
  Lemma trace_range : -1 <= t <= 3.
  Proof. pose proof skew_norm. destruct diag_le as (? & ? & ?). assert (0 <= (1 + t) * (3 - t)) by (rewrite <- skew_norm; nra). unfold t in *. nra. Qed.
End Rotation.

Definition angle_of (M : mat3) : R := acos ((trace3 M - 1) / 2).
Lemma trace_rot M : is_rotation3 M -> -1 <= trace3 M <= 3.
Proof. destruct M as [[[[a b] c] [[d e] f]] [[g h] i]]. intro H. exact (trace_range _ _ _ _ _ _ _ _ _ H). Qed.
Lemma clip_rot M : is_rotation3 M -> clip (/ 2 * (trace3 M - 1)) = (trace3 M - 1) / 2.
Proof. intro H. apply trace_rot in H. unfold clip. rewrite Rmax_left by lra. rewrite Rmin_left by lra. field. Qed.
Lemma aa_of k theta : dot3 k k = 1 -> e12 <= theta -> axis_angle_to_matrix (scal3 theta k) = rodrigues k (sin theta) (cos theta).
Proof.
  intros K T. pose proof e12_pos as E. unfold axis_angle_to_matrix. rewrite norm_scal by lra. rewrite (norm_unit k K), Rmult_1_r.
  destruct (Rlt_dec theta e12) as [L|L]; [lra|]. rewrite scal_scal. replace (/ theta * theta) with 1 by (field; lra). rewrite scal_1. reflexivity.
Qed.
Lemma aa_zero : axis_angle_to_matrix zero3 = eye3.
Proof. unfold axis_angle_to_matrix. rewrite norm3_z. destruct (Rlt_dec 0 e12) as [L|L]; [reflexivity|pose proof e12_pos; lra]. Qed.
Lemma mat_eq (a b c d e f g h i a' b' c' d' e' f' g' h' i' : R) : a = a' -> b = b' -> c = c' -> d = d' -> e = e' -> f = f' -> g = g' -> h = h' -> i = i' ->
  ((a, b, c), (d, e, f), (g, h, i)) = (((a', b', c'), (d', e', f'), (g', h', i')) : mat3).
Proof. congruence. Qed.

Lemma round_trip_generic M : is_rotation3 M -> e12 <= angle_of M -> angle_of M <= PI - e6 -> axis_angle_to_matrix (matrix_to_axis_angle M) = M.
Proof.
  intros rot T0 T1. pose proof (trace_rot M rot) as TR. unfold matrix_to_axis_angle. rewrite (clip_rot M rot). fold (angle_of M).
  destruct (Rlt_dec (angle_of M) e12) as [L|L]; [lra|]. destruct (Rlt_dec (PI - angle_of M) e6) as [L2|L2]; [lra|]. clear L L2.
  assert (CO : cos (angle_of M) = (trace3 M - 1) / 2) by (apply cos_acos; lra).
  assert (E6 : 0 < e6) by (unfold e6; lra). pose proof e12_pos as E12.
  assert (SP : 0 < sin (angle_of M)) by (apply sin_gt_0; lra).
  assert (SQ : sin (angle_of M) * sin (angle_of M) = (1 + trace3 M) * (3 - trace3 M) / 4).
  { pose proof (sin2_cos2 (angle_of M)) as H. unfold Rsqr in H. rewrite CO in H. lra. }
  set (th := angle_of M) in *. clearbody th. remember (sin th) as s eqn:ES. destruct M as [[[[m00 m01] m02] [[m10 m11] m12]] [[m20 m21] m22]].
  pose proof (skew_off _ _ _ _ _ _ _ _ _ rot) as (O1 & O2 & O3). pose proof (skew_diag _ _ _ _ _ _ _ _ _ rot) as (D1 & D2 & D3).
  pose proof (skew_norm _ _ _ _ _ _ _ _ _ rot) as N.
  unfold trace3, X, Y, Zc in *. cbn [fst snd] in *.
  set (a0 := m21 - m12) in *. set (a1 := m02 - m20) in *. set (a2 := m10 - m01) in *. set (t := m00 + m11 + m22) in *.
  assert (T1' : 0 < 1 + t) by nra. assert (T3 : 0 < 3 - t) by nra.
  assert (I2 : / (2 * s) * / (2 * s) = / ((1 + t) * (3 - t))).
  { replace (/ (2 * s) * / (2 * s)) with (/ (4 * (s * s))) by (field; lra). rewrite SQ. field. lra. }
  set (q := / (2 * s)) in *.
  assert (Q : q * s = / 2) by (unfold q; field; lra).
  rewrite aa_of; [|unfold dot3, scal3, X, Y, Zc; cbn [fst snd];
    replace (q * a0 * (q * a0) + q * a1 * (q * a1) + q * a2 * (q * a2)) with (q * q * (a0 * a0 + a1 * a1 + a2 * a2)) by ring; rewrite I2, N; field; lra|exact T0].
  rewrite CO, <- ES. unfold scal3, X, Y, Zc. cbn [fst snd]. rewrite rodrigues_entries.
  assert (K : (1 - (t - 1) / 2) * (q * q) = / (2 * (1 + t))). { rewrite I2. field. lra. }
  assert (P : forall u v w, u * v = (1 + t) * w -> (1 - (t - 1) / 2) * (q * u * (q * v)) = w / 2).
  { intros u v w E. replace ((1 - (t - 1) / 2) * (q * u * (q * v))) with ((1 - (t - 1) / 2) * (q * q) * (u * v)) by ring. rewrite K, E. field. lra. }
  assert (P2 : forall u v w, - (u * u + v * v) = (1 + t) * w -> 1 - (1 - (t - 1) / 2) * (q * u * (q * u) + q * v * (q * v)) = 1 + w / 2).
  { intros u v w E. replace ((1 - (t - 1) / 2) * (q * u * (q * u) + q * v * (q * v))) with ((1 - (t - 1) / 2) * (q * q) * (u * u + v * v)) by ring.
    rewrite K. replace (u * u + v * v) with (- ((1 + t) * w)) by lra. field. lra. }
  rewrite (P _ _ _ O1), (P _ _ _ O2), (P _ _ _ O3), (P2 _ _ _ D1), (P2 _ _ _ D2), (P2 _ _ _ D3).
  replace (s * (q * a0)) with (a0 / 2) by (replace (s * (q * a0)) with (q * s * a0) by ring; rewrite Q; field).
  replace (s * (q * a1)) with (a1 / 2) by (replace (s * (q * a1)) with (q * s * a1) by ring; rewrite Q; field).
  replace (s * (q * a2)) with (a2 / 2) by (replace (s * (q * a2)) with (q * s * a2) by ring; rewrite Q; field).
  unfold a0, a1, a2. apply mat_eq; lra.
Qed.

Lemma angle_zero M : is_rotation3 M -> angle_of M = 0 -> M = eye3.
Proof.
  intros rot A. pose proof (trace_rot M rot) as TR. assert (T : trace3 M = 3).
  { assert (C : cos (angle_of M) = (trace3 M - 1) / 2) by (apply cos_acos; lra). rewrite A, cos_0 in C. lra. }
  destruct M as [[[[m00 m01] m02] [[m10 m11] m12]] [[m20 m21] m22]].
  destruct (diag_le _ _ _ _ _ _ _ _ _ rot) as (? & ? & ?). destruct (rot_facts _ _ _ _ _ _ _ _ _ rot) as ((? & ? & ?) & _).
  unfold trace3, X, Y, Zc in T. cbn [fst snd] in T. assert (m00 = 1) by lra. assert (m11 = 1) by lra. assert (m22 = 1) by lra. subst.
  unfold eye3. apply mat_eq; try reflexivity; nra.
Qed.
Lemma round_trip_zero M : is_rotation3 M -> angle_of M = 0 -> axis_angle_to_matrix (matrix_to_axis_angle M) = M.
Proof.
  intros rot A. unfold matrix_to_axis_angle. rewrite (clip_rot M rot). fold (angle_of M). rewrite A.
  destruct (Rlt_dec 0 e12) as [L|L]; [|pose proof e12_pos; lra]. rewrite aa_zero. symmetry. apply angle_zero; assumption.
Qed.
Lemma rodrigues_pi x y z : rodrigues (x, y, z) 0 (-1) =
  ((1 - 2 * (y * y + z * z), 2 * (x * y), 2 * (x * z)), (2 * (x * y), 1 - 2 * (x * x + z * z), 2 * (y * z)), (2 * (x * z), 2 * (y * z), 1 - 2 * (x * x + y * y))).
Proof. rewrite rodrigues_entries. apply mat_eq; ring. Qed.

Lemma round_trip_pi M : is_rotation3 M -> angle_of M = PI -> axis_angle_to_matrix (matrix_to_axis_angle M) = M.
Proof.
  intros rot A. pose proof (trace_rot M rot) as TR. assert (T : trace3 M = -1).
  { assert (C : cos (angle_of M) = (trace3 M - 1) / 2) by (apply cos_acos; lra). rewrite A, cos_PI in C. lra. }
  unfold matrix_to_axis_angle. rewrite (clip_rot M rot). fold (angle_of M). rewrite A. clear TR A.
  assert (PI2 : e12 <= PI) by (pose proof PI2_1; pose proof PI_RGT_0; unfold e12; lra).
  destruct (Rlt_dec PI e12) as [L|L]; [lra|]. destruct (Rlt_dec (PI - PI) e6) as [_|L2]; [|unfold e6 in L2; lra]. clear L.
  destruct M as [[[[m00 m01] m02] [[m10 m11] m12]] [[m20 m21] m22]].
  pose proof (skew_norm _ _ _ _ _ _ _ _ _ rot) as N. unfold trace3, X, Y, Zc in T. cbn [fst snd] in T. rewrite T in N.
  assert (Z : forall x y z : R, x * x + y * y + z * z = 0 -> x = 0) by (intros x y z H; assert (x * x = 0) by nra; apply Rmult_integral in H0; tauto).
  assert (S1 : m21 = m12) by (apply Rminus_diag_uniq; apply (Z _ (m02 - m20) (m10 - m01)); lra).
  assert (S2 : m02 = m20) by (apply Rminus_diag_uniq; apply (Z _ (m21 - m12) (m10 - m01)); lra).
  assert (S3 : m10 = m01) by (apply Rminus_diag_uniq; apply (Z _ (m02 - m20) (m21 - m12)); lra). clear Z. subst m21 m02 m10.
  destruct (rot_facts _ _ _ _ _ _ _ _ _ rot) as (_ & _ & _ & _ & (F1 & F2 & F3) & (F4 & F5 & F6) & (F7 & F8 & F9)).
  unfold madd, mscal, eye3, add3, scal3, X, Y, Zc. cbn [fst snd].
  set (n00 := / 2 * (m00 + 1)). set (n11 := / 2 * (m11 + 1)). set (n22 := / 2 * (m22 + 1)).
  replace (/ 2 * (m01 + 0)) with (m01 / 2) by field. replace (/ 2 * (m20 + 0)) with (m20 / 2) by field. replace (/ 2 * (m12 + 0)) with (m12 / 2) by field.
  assert (H01 : m01 / 2 * (m01 / 2) = n00 * n11) by (unfold n00, n11; nra).
  assert (H02 : m20 / 2 * (m20 / 2) = n00 * n22) by (unfold n00, n22; nra).
  assert (H12 : m12 / 2 * (m12 / 2) = n11 * n22) by (unfold n11, n22; nra).
  assert (G0 : m01 / 2 * (m20 / 2) = n00 * (m12 / 2)) by (unfold n00; nra).
  assert (G1 : m01 / 2 * (m12 / 2) = n11 * (m20 / 2)) by (unfold n11; nra).
  assert (G2 : m20 / 2 * (m12 / 2) = n22 * (m01 / 2)) by (unfold n22; nra).
  assert (TRN : n00 + n11 + n22 = 1) by (unfold n00, n11, n22; lra).
  assert (M00 : m00 = 2 * n00 - 1) by (unfold n00; field). assert (M11 : m11 = 2 * n11 - 1) by (unfold n11; field). assert (M22 : m22 = 2 * n22 - 1) by (unfold n22; field).
  clearbody n00 n11 n22. set (u := m01 / 2) in *. set (v := m20 / 2) in *. set (w := m12 / 2) in *.
  assert (MU : m01 = 2 * u) by (unfold u; field). assert (MV : m20 = 2 * v) by (unfold v; field). assert (MW : m12 = 2 * w) by (unfold w; field).
  clearbody u v w. rewrite M00, M11, M22, MU, MV, MW. clear - H01 H02 H12 G0 G1 G2 TRN PI2.
  assert (fin : forall d (k0 k1 k2 : R), / 3 <= d -> k0 * k0 = d * n00 -> k1 * k1 = d * n11 -> k2 * k2 = d * n22 -> k0 * k1 = d * u -> k0 * k2 = d * v -> k1 * k2 = d * w ->
    axis_angle_to_matrix (scal3 (/ norm3 (scal3 (/ sqrt (Rmax d e12)) (k0, k1, k2))) (scal3 PI (scal3 (/ sqrt (Rmax d e12)) (k0, k1, k2)))) =
    ((2 * n00 - 1, 2 * u, 2 * v), (2 * u, 2 * n11 - 1, 2 * w), (2 * v, 2 * w, 2 * n22 - 1))).
  { intros d k0 k1 k2 D K00 K11 K22 K01 K02 K12. rewrite Rmax_left by (unfold e12; lra).
    assert (SD : 0 < sqrt d) by (apply sqrt_lt_R0; lra). assert (SS : sqrt d * sqrt d = d) by (apply sqrt_sqrt; lra).
    set (r := / sqrt d). assert (RR : r * r * d = 1) by (unfold r; rewrite <- SS at 3; field; lra). clearbody r.
    assert (U : dot3 (scal3 r (k0, k1, k2)) (scal3 r (k0, k1, k2)) = 1).
    { unfold dot3, scal3, X, Y, Zc. cbn [fst snd].
      replace (r * k0 * (r * k0) + r * k1 * (r * k1) + r * k2 * (r * k2)) with (r * r * (k0 * k0 + k1 * k1 + k2 * k2)) by ring.
      rewrite K00, K11, K22. replace (r * r * (d * n00 + d * n11 + d * n22)) with (r * r * d * (n00 + n11 + n22)) by ring. rewrite RR, TRN. ring. }
    rewrite (norm_unit _ U), Rinv_1, scal_1, (aa_of _ _ U PI2), sin_PI, cos_PI. unfold scal3, X, Y, Zc. cbn [fst snd]. rewrite rodrigues_pi.
    assert (P : forall a b c, a * b = d * c -> r * a * (r * b) = c).
    { intros a b c E. replace (r * a * (r * b)) with (r * r * (a * b)) by ring. rewrite E. replace (r * r * (d * c)) with (r * r * d * c) by ring. rewrite RR. ring. }
    rewrite (P _ _ _ K00), (P _ _ _ K11), (P _ _ _ K22), (P _ _ _ K01), (P _ _ _ K02), (P _ _ _ K12). apply mat_eq; lra. }
  destruct (Rlt_dec n00 n11) as [L1|L1]; [destruct (Rlt_dec n11 n22) as [L2|L2]|destruct (Rlt_dec n00 n22) as [L2|L2]]; cbn [col]; apply fin; try lra; try nra.
Qed.
Lemma round_trip M : is_rotation3 M -> angle_of M = 0 \/ e12 <= angle_of M <= PI - e6 \/ angle_of M = PI -> axis_angle_to_matrix (matrix_to_axis_angle M) = M.
Proof. intros rot [A|[[A B]|A]]; [apply round_trip_zero|apply round_trip_generic|apply round_trip_pi]; assumption. Qed.
