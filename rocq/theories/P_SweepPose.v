(** C99: the motion that swept_volume sweeps. *)
From Coq Require Import Reals Lra Lia ZArith List Bool Psatz.
From Verif Require Import NumpyModel PyExn Vec SubdivModel TopoModel SplineModel P_Spline SweepPoseModel.
Import ListNotations.
Open Scope R_scope.

Lemma derive_eq f x l m : derivable_pt_lim f x l -> l = m -> derivable_pt_lim f x m.
Proof. intros H <-. exact H. Qed.
Lemma derive_ext f g x l : (forall y, f y = g y) -> derivable_pt_lim f x l -> derivable_pt_lim g x l.
Proof. intros E H eps P. destruct (H eps P) as (d & D). exists d. intros h N L. rewrite <- !E. apply D; auto. Qed.
(** two pieces with the same derivative where they meet *)
Lemma derive_glue f g h x l d : 0 < d -> (forall y, x <= y < x + d -> f y = g y) -> (forall y, x - d < y <= x -> f y = h y) -> derivable_pt_lim g x l -> derivable_pt_lim h x l -> derivable_pt_lim f x l.
Proof.
  intros D EG EH G H eps EP. destruct (G eps EP) as (d1 & H1). destruct (H eps EP) as (d2 & H2).
  assert (DP : 0 < Rmin d (Rmin d1 d2)) by (apply Rmin_pos; [auto|apply Rmin_pos; [apply (cond_pos d1)|apply (cond_pos d2)]]). exists (mkposreal _ DP). cbn. intros k NK LK.
  pose proof (Rmin_l d (Rmin d1 d2)). pose proof (Rmin_r d (Rmin d1 d2)). pose proof (Rmin_l d1 d2). pose proof (Rmin_r d1 d2). pose proof (Rle_abs k). pose proof (Rle_abs (- k)). rewrite Rabs_Ropp in *.
  destruct (Rle_lt_dec 0 k); [rewrite !EG by lra; apply H1; auto; lra|rewrite !EH by lra; apply H2; auto; lra].
Qed.

Section Pose.
Variable n : nat.
Variable K : nat -> nat -> nat -> R.
Variables qt qvt : nat -> R -> quat.
Hypothesis N2 : (2 <= n)%nat.
(** the translations *)
Definition column (i : nat) : list R := map (fun k => K k i 3%nat) (seq 0 n).
Lemma column_length i : length (column i) = n. Proof. unfold column. now rewrite map_length, seq_length. Qed.
Lemma column_nth i k : (k < n)%nat -> nth k (column i) 0 = K k i 3%nat.
Proof. intros H. unfold column. rewrite (nth_indep _ 0 (K 0%nat i 3%nat)) by (rewrite map_length, seq_length; lia). rewrite (map_nth (fun k => K k i 3%nat)), seq_nth by lia. reflexivity. Qed.
Let N := INR (n - 1).
Lemma Npos : 1 <= N. Proof. unfold N. change 1 with (INR 1). apply le_INR. lia. Qed.
Lemma Neq : INR n - 1 = N. Proof. unfold N. rewrite minus_INR by lia. cbn. lra. Qed.
Lemma segment_is t b : (b <= n - 2)%nat -> (INR b <= t * N < INR b + 1 /\ t <> 1 \/ t = 1 /\ b = (n - 2)%nat) -> segment n t = b.
Proof.
  intros B [(H & E)|(-> & ->)]; unfold segment; rewrite Neq; destruct (Req_EM_T _ 1) as [Q|Q]; try contradiction.
  - rewrite (int_part_eq _ b H). apply Nat2Z.id.
  - rewrite (int_part_eq _ (n - 1)) by (fold N; lra). rewrite Nat2Z.id. lia.
Qed.
Lemma frac_is t : frac n t = t * N - INR (segment n t).
Proof. pose proof Npos. unfold frac, tau, keyframe. rewrite Neq. cbn [INR]. field. lra. Qed.
(** tangents by end *)
Lemma tangent_left i b : (b <= n - 2)%nat -> tangent n K i b = m0 (column i) b.
Proof.
  intros B. unfold tangent, m0, p. destruct (Nat.eqb_spec b 0) as [->|E]; [rewrite !column_nth by lia; field|]. destruct (Nat.eqb_spec b (n - 1)); [lia|]. rewrite !column_nth by lia. reflexivity.
Qed.
Lemma tangent_right i b : (b <= n - 2)%nat -> tangent n K i (b + 1) = m1 (column i) b.
Proof.
  intros B. unfold tangent, m1, p. rewrite column_length. destruct (Nat.eqb_spec (b + 1) 0); [lia|]. destruct (Nat.eqb_spec (b + 1) (n - 1)) as [E|E].
  - destruct (Nat.eqb_spec b (n - 2)); [|lia]. rewrite !column_nth by lia. replace (b + 1)%nat with (n - 1)%nat by lia. replace b with (n - 2)%nat by lia. field.
  - destruct (Nat.eqb_spec b (n - 2)); [lia|]. rewrite !column_nth by lia. replace (b + 1 + 1)%nat with (b + 2)%nat by lia. replace (b + 1 - 1)%nat with b by lia. reflexivity.
Qed.
(** the derivative of a piece *)
Definition dpiece (i b : nat) (t : R) : R := let u := t * N - INR b in
  ((6 * u ^ 2 - 6 * u) * K b i 3%nat + (3 * u ^ 2 - 4 * u + 1) * m0 (column i) b + (- 6 * u ^ 2 + 6 * u) * K (b + 1)%nat i 3%nat + (3 * u ^ 2 - 2 * u) * m1 (column i) b) * N.
Lemma piece_derive i b t : (b <= n - 2)%nat -> derivable_pt_lim (piece (column i) b) t (dpiece i b t).
Proof.
  intros B. pose proof Npos as NP. set (x0 := K b i 3%nat). set (x1 := K (b + 1)%nat i 3%nat). set (a := m0 (column i) b). set (c := m1 (column i) b). set (u := t * N - INR b).
  set (c2 := N * N * ((6 * u - 3) * x0 + (3 * u - 2) * a + (3 - 6 * u) * x1 + (3 * u - 1) * c)). set (c3 := N * N * N * (2 * x0 - 2 * x1 + a + c)).
  apply derive_ext with (f := fun s => piece (column i) b t + dpiece i b t * (s - t) + c2 * (s - t) ^ 2 + c3 * (s - t) ^ 3); [|apply cubic_deriv].
  intros s. unfold piece, hermite, dpiece, p. rewrite column_length, !column_nth by lia. fold N x0 x1 a c u. replace (s * N - INR b) with (u + N * (s - t)) by (unfold u; ring). unfold c2, c3. ring.
Qed.
Lemma at_cell t i b : (b <= n - 2)%nat -> segment n t = b -> xt n K t i = piece (column i) b t /\ vt n K t i = dpiece i b t.
Proof.
  intros B E. pose proof Npos as NP. unfold xt, vt. rewrite frac_is, E, tangent_left, tangent_right by exact B. unfold piece, hermite, dpiece, p. rewrite column_length, !column_nth by lia. fold N. split; [ring|].
  unfold tau, keyframe. rewrite Neq. cbn [INR]. field. lra.
Qed.
Lemma cell t : 0 <= t <= 1 -> exists b, (b <= n - 2)%nat /\ segment n t = b /\ INR b / N <= t <= INR (b + 1) / N /\ (t < INR (b + 1) / N \/ t = 1 /\ b = (n - 2)%nat).
Proof.
  intros T. pose proof Npos as NP. assert (C2 : (2 <= length (column 0))%nat) by (rewrite column_length; exact N2). destruct (Req_dec t 1) as [->|E].
  - exists (n - 2)%nat. split; [lia|]. split; [apply segment_is; auto|]. assert (L : INR (n - 2 + 1) = N) by (unfold N; f_equal; lia). rewrite L. split; [|right; auto]. rewrite plus_INR in L. cbn in L.
    assert (INR (n - 2) / N = 1 - / N) by (replace (INR (n - 2)) with (N - 1) by lra; field; lra). assert (0 < / N) by (apply Rinv_0_lt_compat; lra). split; [lra|right; field; lra].
  - destruct (cell_right (column 0) C2 t ltac:(lra)) as (b & B & L). rewrite column_length in *. fold N in L. exists b. split; [exact B|]. assert (L' : INR b <= t * N < INR (b + 1)).
    { destruct L as (L1 & L2). split; [apply (Rmult_le_compat_r N) in L1; [|lra]; replace (INR b / N * N) with (INR b) in L1 by (field; lra); exact L1|].
      apply (Rmult_lt_compat_r N) in L2; [|lra]. replace (INR (b + 1) / N * N) with (INR (b + 1)) in L2 by (field; lra). exact L2. }
    rewrite plus_INR in L' at 1. cbn in L'. split; [apply segment_is; auto|]. split; [lra|left; lra].
Qed.
(** The translation at every time is that of the Python function catmull_rom_spline through the translations of the keyframes. *)
Theorem C99_position t i : 0 <= t <= 1 -> catmull_rom (map (fun k => K k i 3%nat) (seq 0 n)) t = Ok (xt n K t i).
Proof.
  intros T. destruct (cell t T) as (b & B & S & L & _). fold (column i). rewrite (proj1 (at_cell t i b B S)). apply eval_closed; rewrite column_length; auto.
Qed.
(** The motion passes the keyframes at the times k/(n-1). *)
Theorem C99_keyframes k i : (k < n)%nat -> xt n K (INR k / INR (n - 1)) i = K k i 3%nat.
Proof.
  intros H. assert (T : 0 <= INR k / INR (n - 1) <= 1).
  { pose proof Npos as NP. fold N. assert (0 < / N) by (apply Rinv_0_lt_compat; lra). assert (INR k <= N) by (apply le_INR; lia). pose proof (pos_INR k). unfold Rdiv. split; [nra|]. replace 1 with (N * / N) by (field; lra). apply Rmult_le_compat_r; lra. }
  pose proof (C99_position _ i T) as E. pose proof (C50_interpolates (column i) k) as I. rewrite column_length in I. fold (column i) in E. rewrite I in E by lia. injection E as <-. rewrite column_nth by exact H. reflexivity.
Qed.
(** The velocity is the derivative of the position, at keyframes as well: the motion has no kinks. *)
Theorem C99_velocity t i : 0 < t < 1 -> derivable_pt_lim (fun s => xt n K s i) t (vt n K t i).
Proof.
  intros T. pose proof Npos as NP. assert (IN : 0 < / N) by (apply Rinv_0_lt_compat; lra). destruct (cell t ltac:(lra)) as (b & B & S & L & M). destruct M as [M|(M & _)]; [|lra].
  assert (C2 : (2 <= length (column 0))%nat) by (rewrite column_length; exact N2). destruct (cell_left (column 0) C2 t ltac:(lra)) as (b' & B' & L'). rewrite column_length in *. fold N in L'.
  assert (X : forall s, 0 <= s <= 1 -> xt n K s i = spline (column i) s) by (intros s Hs; unfold spline; unfold column; rewrite (C99_position s i Hs); reflexivity).
  rewrite (proj2 (at_cell t i b B S)). assert (EQ : b = b' /\ INR b / N < t \/ b = (b' + 1)%nat /\ t = INR b / N).
  { assert (A : INR b < INR (b' + 1) \/ b = (b' + 1)%nat /\ t = INR b / N).
    { destruct (Rle_lt_dec (INR (b' + 1)) (INR b)) as [Q|Q]; auto. right. assert (INR (b' + 1) / N <= INR b / N) by (unfold Rdiv; apply Rmult_le_compat_r; lra). assert (E : INR b / N = INR (b' + 1) / N) by lra. split; [|lra].
      apply INR_eq. apply (Rmult_eq_compat_r N) in E. replace (INR b / N * N) with (INR b) in E by (field; lra). replace (INR (b' + 1) / N * N) with (INR (b' + 1)) in E by (field; lra). exact E. }
    destruct A as [A|A]; auto. left. apply INR_lt in A. assert (b = b').
    { assert (~ (b + 1 <= b')%nat); [|lia]. intros Q. apply le_INR in Q. assert (INR (b + 1) / N <= INR b' / N) by (unfold Rdiv; apply Rmult_le_compat_r; lra). lra. }
    subst b'. split; auto. lra. }
  set (d := Rmin (INR (b + 1) / N - t) (t - INR b' / N)). pose proof (Rmin_l (INR (b + 1) / N - t) (t - INR b' / N)) as D1. pose proof (Rmin_r (INR (b + 1) / N - t) (t - INR b' / N)) as D2. fold d in D1, D2.
  assert (DP : 0 < d) by (apply Rmin_pos; lra). assert (U : INR (b + 1) / N <= 1). { replace 1 with (N / N) by (field; lra). unfold Rdiv. apply Rmult_le_compat_r; [lra|]. unfold N. apply le_INR. lia. }
  assert (U' : 0 <= INR b' / N) by (unfold Rdiv; pose proof (pos_INR b'); nra).
  apply (derive_glue _ (piece (column i) b) (piece (column i) b') _ _ d DP).
  - intros y Y. rewrite X by lra. unfold spline. rewrite (eval_closed (column i)) with (b := b); rewrite ?column_length; auto. fold N. lra.
  - intros y Y. rewrite X by lra. unfold spline. rewrite (eval_closed (column i)) with (b := b'); rewrite ?column_length; auto. fold N. lra.
  - apply piece_derive; auto.
  - apply derive_eq with (dpiece i b' t); [apply piece_derive; auto|]. destruct EQ as [(<- & _)|(E & Tb)]; [reflexivity|]. unfold dpiece.
    replace (t * N - INR b) with 0 by (rewrite Tb; field; lra). replace (t * N - INR b') with 1 by (rewrite Tb, E, plus_INR; cbn; field; lra).
    pose proof (tangent_left i b B) as TL. pose proof (tangent_right i b' B') as TR. rewrite <- E in TR. rewrite <- TL, <- TR, E. ring.
Qed.

(** ** the linear part *)
Definition qw (q : quat) : R := fst (fst (fst q)).
Definition qx (q : quat) : R := snd (fst (fst q)).
Definition qy (q : quat) : R := snd (fst q).
Definition qz (q : quat) : R := snd q.
Lemma dplus f g x a b : derivable_pt_lim f x a -> derivable_pt_lim g x b -> derivable_pt_lim (fun y => f y + g y) x (a + b).
Proof. apply derivable_pt_lim_plus. Qed.
Lemma dminus f g x a b : derivable_pt_lim f x a -> derivable_pt_lim g x b -> derivable_pt_lim (fun y => f y - g y) x (a - b).
Proof. apply derivable_pt_lim_minus. Qed.
Lemma dmult f g x a b : derivable_pt_lim f x a -> derivable_pt_lim g x b -> derivable_pt_lim (fun y => f y * g y) x (a * g x + f x * b).
Proof. apply derivable_pt_lim_mult. Qed.
Lemma dconst c x : derivable_pt_lim (fun _ => c) x 0.
Proof. apply derivable_pt_lim_const. Qed.
Lemma dlin c d x : derivable_pt_lim (fun y => y * c - d) x c.
Proof. apply derive_eq with (1 * c + x * 0 - 0); [|ring]. apply (dminus (fun y => y * c) (fun _ => d)); [apply (dmult (fun y => y) (fun _ => c)); [apply derivable_pt_lim_id|apply dconst]|apply dconst]. Qed.
Definition derives (q v : R -> quat) (u : R) : Prop :=
  derivable_pt_lim (fun s => qw (q s)) u (qw (v u)) /\ derivable_pt_lim (fun s => qx (q s)) u (qx (v u)) /\ derivable_pt_lim (fun s => qy (q s)) u (qy (v u)) /\ derivable_pt_lim (fun s => qz (q s)) u (qz (v u)).
Definition rot' (q : quat) (i j : nat) : R :=
  match i, j with
  | O, O => 1 - 2 * (qy q * qy q + qz q * qz q) | O, S O => 2 * (qx q * qy q - qw q * qz q) | O, _ => 2 * (qx q * qz q + qw q * qy q)
  | S O, O => 2 * (qx q * qy q + qw q * qz q) | S O, S O => 1 - 2 * (qx q * qx q + qz q * qz q) | S O, _ => 2 * (qy q * qz q - qw q * qx q)
  | _, O => 2 * (qx q * qz q - qw q * qy q) | _, S O => 2 * (qy q * qz q + qw q * qx q) | _, _ => 1 - 2 * (qx q * qx q + qy q * qy q)
  end.
Lemma rot'_is q i j : rotation q i j = rot' q i j.
Proof. destruct q as [[[w x] y] z]. reflexivity. Qed.
(** The velocity matrix is the derivative of the rotation matrix along every path of quaternions, with respect to the time of the motion. *)
Theorem C99_rotation_velocity q v u i j : derives q v u -> (i < 3)%nat -> (j < 3)%nat -> derivable_pt_lim (fun s => rotation (q s) i j) u (tau n * rotation_velocity n (q u) (v u) i j).
Proof.
  intros (W & X & Y & Z) I J. pose proof Npos as NP. assert (T : forall A, tau n * (A / tau n) = A) by (intros A; unfold tau, keyframe; rewrite Neq; cbn [INR]; field; lra).
  assert (E : tau n * rotation_velocity n (q u) (v u) i j = Rr (q u) i j * qw (v u) + Ri (q u) i j * qx (v u) + Rj (q u) i j * qy (v u) + Rk (q u) i j * qz (v u)).
  { unfold rotation_velocity. destruct (v u) as [[[w x] y] z]. apply T. }
  rewrite E. destruct i as [|[|[|i]]]; [| | |lia]; destruct j as [|[|[|j]]]; try lia;
  (eapply derive_ext; [intros s; symmetry; apply rot'_is|]; unfold rot'; cbv beta iota);
  (eapply derive_eq; [repeat first [exact W|exact X|exact Y|exact Z|apply dconst|apply dminus|apply dplus|apply dmult]|]);
  unfold Rr, Ri, Rj, Rk, qw, qx, qy, qz; destruct (q u) as [[[w x] y] z]; cbn [fst snd]; ring.
Qed.

(** The matrices pass the keyframes, if the quaternions of each segment begin and end with the rotations of its keyframes and no keyframe has a zero column. *)
Theorem C99_matrices : (forall b i j, (b <= n - 2)%nat -> (i < 3)%nat -> (j < 3)%nat -> rotation (qt b 0) i j = R0 K b i j /\ rotation (qt b 1) i j = R0 K (b + 1) i j) ->
  (forall k j, (k < n)%nat -> (j < 3)%nat -> exists i, (i < 3)%nat /\ K k i j <> 0) ->
  forall k i j, (k < n)%nat -> (i < 3)%nat -> (j < 3)%nat -> Rt n K qt (INR k / INR (n - 1)) i j = K k i j.
Proof.
  intros ENDS NZ k i j Hk Hi Hj. pose proof Npos as NP. assert (IN : 0 < / N) by (apply Rinv_0_lt_compat; lra). assert (S0 : forall m, (m < n)%nat -> scale K m j <> 0).
  { intros m Hm. destruct (NZ m j Hm Hj) as (r & Hr & E). unfold scale. apply Rgt_not_eq. apply sqrt_lt_R0. pose proof (Rle_0_sqr (K m 0%nat j)). pose proof (Rle_0_sqr (K m 1%nat j)). pose proof (Rle_0_sqr (K m 2%nat j)). unfold Rsqr in *.
    assert (P : 0 < K m r j * K m r j) by (pose proof (Rsqr_pos_lt _ E) as Q; exact Q). destruct r as [|[|[|r]]]; [| | |lia]; lra. }
  unfold Rt, St. rewrite frac_is. fold N. destruct (Nat.eq_dec k (n - 1)) as [->|Hl].
  - assert (T : INR (n - 1) / N = 1) by (unfold N; field; fold N; lra). rewrite T. rewrite (segment_is 1 (n - 2)) by (auto; lia). assert (L : INR (n - 2) = N - 1) by (unfold N; replace (n - 1)%nat with (n - 2 + 1)%nat by lia; rewrite plus_INR; cbn; ring).
    replace (1 * N - INR (n - 2)) with 1 by lra. rewrite (proj2 (ENDS (n - 2)%nat i j ltac:(lia) Hi Hj)). replace (n - 2 + 1)%nat with (n - 1)%nat by lia. unfold R0. field. apply S0. lia.
  - assert (T : INR k / N * N = INR k) by (field; lra). rewrite (segment_is _ k); [|lia|].
    + rewrite T. replace (INR k - INR k) with 0 by ring. rewrite (proj1 (ENDS k i j ltac:(lia) Hi Hj)). unfold R0. field. apply S0. lia.
    + left. rewrite T. split; [lra|]. intros Q. assert (Q' : INR k = N) by (rewrite <- T, Q; ring). unfold N in Q'. apply INR_eq in Q'. lia.
Qed.
(** Strictly inside a segment the matrix has a derivative: with the rotation itself, not the scaled matrix, in the second summand.  The code's VRt is this derivative if the scales of the two keyframes agree. *)
Theorem C99_matrix_derivative t b i j : (b <= n - 2)%nat -> INR b < t * INR (n - 1) < INR b + 1 -> (i < 3)%nat -> (j < 3)%nat -> derives (qt b) (qvt b) (t * INR (n - 1) - INR b) ->
  derivable_pt_lim (fun s => Rt n K qt s i j) t (VRt n K qt qvt t i j + (rotation (qt b (t * INR (n - 1) - INR b)) i j - Rt n K qt t i j) * ((scale K (b + 1) j - scale K b j) * INR (n - 1)))
  /\ (scale K (b + 1) j = scale K b j -> derivable_pt_lim (fun s => Rt n K qt s i j) t (VRt n K qt qvt t i j)).
Proof.
  fold N. intros B T Hi Hj D. pose proof Npos as NP. set (u := t * N - INR b) in *.
  assert (TAU : tau n = / N) by (unfold tau, keyframe; rewrite Neq; cbn [INR]; field; lra).
  assert (SEG : forall s, INR b < s * N < INR b + 1 -> segment n s = b).
  { intros s Hs. apply segment_is; [exact B|]. left. split; [lra|]. intros ->. assert (L : INR b + 1 <= N) by (unfold N; change 1 with (INR 1); rewrite <- plus_INR; apply le_INR; lia). lra. }
  assert (P1 : derivable_pt_lim (fun s => rotation (qt b (s * N - INR b)) i j * (scale K (b + 1) j + (1 - (s * N - INR b)) * (scale K b j - scale K (b + 1) j))) t
    ((tau n * rotation_velocity n (qt b u) (qvt b u) i j * N) * (scale K (b + 1) j + (1 - u) * (scale K b j - scale K (b + 1) j)) + rotation (qt b u) i j * (N * (scale K (b + 1) j - scale K b j)))).
  { apply (dmult (fun s => rotation (qt b (s * N - INR b)) i j) (fun s => scale K (b + 1) j + (1 - (s * N - INR b)) * (scale K b j - scale K (b + 1) j))).
    - apply (derivable_pt_lim_comp (fun s => s * N - INR b) (fun u => rotation (qt b u) i j)); [apply dlin|]. apply C99_rotation_velocity; assumption.
    - apply derive_eq with (0 + ((0 - N) * (scale K b j - scale K (b + 1) j) + (1 - u) * 0)); [|ring]. apply dplus; [apply dconst|]. apply (dmult (fun s => 1 - (s * N - INR b)) (fun _ => scale K b j - scale K (b + 1) j)); [apply dminus; [apply dconst|apply dlin]|apply dconst]. }
  assert (V : VRt n K qt qvt t i j + (rotation (qt b u) i j - Rt n K qt t i j) * ((scale K (b + 1) j - scale K b j) * N) =
    (tau n * rotation_velocity n (qt b u) (qvt b u) i j * N) * (scale K (b + 1) j + (1 - u) * (scale K b j - scale K (b + 1) j)) + rotation (qt b u) i j * (N * (scale K (b + 1) j - scale K b j))).
  { unfold VRt, Rt, St. rewrite frac_is, (SEG t T). fold u. rewrite TAU. field. lra. }
  assert (W : derivable_pt_lim (fun s => Rt n K qt s i j) t (VRt n K qt qvt t i j + (rotation (qt b u) i j - Rt n K qt t i j) * ((scale K (b + 1) j - scale K b j) * N))).
  { rewrite V. assert (IN : 0 < / N) by (apply Rinv_0_lt_compat; lra). set (d := Rmin ((u) * / N) ((1 - u) * / N)). assert (DP : 0 < d) by (apply Rmin_pos; apply Rmult_lt_0_compat; auto; unfold u; lra).
    pose proof (Rmin_l (u * / N) ((1 - u) * / N)) as D1. pose proof (Rmin_r (u * / N) ((1 - u) * / N)) as D2. fold d in D1, D2.
    assert (EQ : forall y, t - d < y < t + d -> Rt n K qt y i j = rotation (qt b (y * N - INR b)) i j * (scale K (b + 1) j + (1 - (y * N - INR b)) * (scale K b j - scale K (b + 1) j))).
    { intros y (Y1 & Y2). unfold Rt, St. rewrite frac_is. rewrite SEG; [reflexivity|]. apply (Rmult_lt_compat_r N) in Y1; [|lra]. apply (Rmult_lt_compat_r N) in Y2; [|lra].
      assert (d * N <= u) by (apply (Rmult_le_compat_r N) in D1; [|lra]; replace (u * / N * N) with u in D1 by (field; lra); exact D1).
      assert (d * N <= 1 - u) by (apply (Rmult_le_compat_r N) in D2; [|lra]; replace ((1 - u) * / N * N) with (1 - u) in D2 by (field; lra); exact D2).
      unfold u in *. split; nra. }
    match type of P1 with derivable_pt_lim ?f _ _ => apply (derive_glue _ f f _ _ d DP) end; [intros y Y; apply EQ; lra|intros y Y; apply EQ; lra|exact P1|exact P1]. }
  split; [exact W|]. intros E. rewrite E in W. replace (scale K b j - scale K b j) with 0 in W by ring. rewrite Rmult_0_l, Rmult_0_r, Rplus_0_r in W. exact W.
Qed.
End Pose.
(** Between keyframes of different scales VRt is not the derivative: from the identity to twice the identity, half way, the entry (0,0) has derivative 1 and VRt says 3/2. *)
Definition growing (k i j : nat) : R := if Nat.eqb i j then INR k + 1 else 0.
Definition still (b : nat) (u : R) : quat := (1, 0, 0, 0).
Definition none (b : nat) (u : R) : quat := (0, 0, 0, 0).
Lemma growing_scale k j : (j < 3)%nat -> scale growing k j = INR k + 1.
Proof.
  intros J. pose proof (pos_INR k). unfold scale, growing. destruct j as [|[|[|j]]]; [| | |lia]; cbn [Nat.eqb]; match goal with |- sqrt ?e = _ => replace e with ((INR k + 1) * (INR k + 1)) by ring end; apply sqrt_square; lra.
Qed.
Lemma still_derives b u : derives (still b) (none b) u.
Proof. unfold derives, still, none, qw, qx, qy, qz. cbn [fst snd]. split; [|split; [|split]]; apply dconst. Qed.
Theorem C99_velocity_refuted : (forall b i j, (i < 3)%nat -> (j < 3)%nat -> rotation (still b 0) i j = R0 growing b i j /\ rotation (still b 1) i j = R0 growing (b + 1) i j) /\
  derivable_pt_lim (fun s => Rt 2 growing still s 0 0) (1 / 2) 1 /\ VRt 2 growing still none (1 / 2) 0 0 = 3 / 2.
Proof.
  assert (SEG : segment 2 (1 / 2) = 0%nat) by (apply (segment_is 2 ltac:(lia)); [lia|left; cbn; lra]).
  assert (FR : frac 2 (1 / 2) = 1 / 2) by (rewrite (frac_is 2 ltac:(lia)), SEG; cbn; lra).
  assert (V : VRt 2 growing still none (1 / 2) 0 0 = 3 / 2).
  { unfold VRt, Rt, St. rewrite SEG, FR, !growing_scale by lia. unfold rotation_velocity, rotation, still, none, Rr, Ri, Rj, Rk, tau, keyframe. cbn. field. }
  assert (Q : Rt 2 growing still (1 / 2) 0 0 = 3 / 2) by (unfold Rt, St; rewrite SEG, FR, !growing_scale by lia; unfold rotation, still; cbn; field).
  split; [|split; [|exact V]].
  - intros b i j Hi Hj. unfold R0. rewrite !growing_scale by exact Hj. pose proof (pos_INR b). pose proof (pos_INR (b + 1)). unfold growing, rotation, still.
    destruct i as [|[|[|i]]]; [| | |lia]; destruct j as [|[|[|j]]]; try lia; cbn [Nat.eqb]; split; field; lra.
  - destruct (C99_matrix_derivative 2 growing still none ltac:(lia) (1 / 2) 0 0 0 ltac:(lia) ltac:(cbn; lra) ltac:(lia) ltac:(lia) (still_derives _ _)) as (D & _).
    eapply derive_eq; [exact D|]. rewrite V, Q, !growing_scale by lia. unfold rotation, still. cbn. field.
Qed.
(** the hypotheses can be met *)
Example C99_nonvacuous : let K := fun k i j => growing k i j + (if Nat.eqb j 3 then INR k * INR k else 0) in
  xt 3 K (INR 1 / INR (3 - 1)) 0 = 1 /\ derivable_pt_lim (fun s => xt 3 K s 0) (1 / 2) (vt 3 K (1 / 2) 0) /\ vt 3 K (1 / 2) 0 = 4 /\ Rt 2 growing still (INR 1 / INR (2 - 1)) 2 2 = 2.
Proof.
  cbv zeta. set (K := fun k i j : nat => growing k i j + (if Nat.eqb j 3 then INR k * INR k else 0)). split; [rewrite C99_keyframes by lia; unfold K, growing; cbn; lra|]. split; [apply C99_velocity; [lia|lra]|]. split.
  - assert (SEG : segment 3 (1 / 2) = 1%nat) by (apply (segment_is 3 ltac:(lia)); [lia|left; cbn; lra]). unfold vt. rewrite (frac_is 3 ltac:(lia)), SEG. unfold tangent, tau, keyframe, K, growing. cbn. field.
  - rewrite C99_matrices; [unfold growing; cbn; lra|lia| | |lia|lia|lia].
    + intros b i j _ Hi Hj. apply (proj1 C99_velocity_refuted); assumption.
    + intros k j _ Hj. exists j. split; [exact Hj|]. unfold growing. rewrite Nat.eqb_refl. pose proof (pos_INR k). lra.
Qed.
