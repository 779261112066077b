(** C50 *)
From Coq Require Import Reals Lra Lia ZArith List Bool Psatz.
From Verif Require Import NumpyModel PyExn Vec SubdivModel TopoModel SplineModel.
Import ListNotations.
Open Scope R_scope.

Lemma getz_nat {A} (l : list A) (i : nat) d : (i < length l)%nat -> getZ l (Z.of_nat i) = Some (nth i l d).
Proof. intros H. unfold getZ, norm_index. destruct (Z.leb_spec 0 (Z.of_nat i)); [|lia]. destruct (Z.ltb_spec (Z.of_nat i) (Z.of_nat (length l))); [|lia]. cbn. rewrite Nat2Z.id. now apply nth_error_nth'. Qed.
Lemma int_part_eq x (b : nat) : INR b <= x < INR b + 1 -> Int_part x = Z.of_nat b.
Proof.
  intros (A & B). unfold Int_part. assert (E : (Z.of_nat b + 1)%Z = up x) by (apply tech_up; rewrite plus_IZR, <- INR_IZR_INZ; cbn; lra). lia.
Qed.
Section Spline.
  Variable P : list R.
  Let n := length P.
  Hypothesis N2 : (2 <= n)%nat.
  Let N := INR (n - 1).
  Lemma N_pos : 1 <= N. Proof. unfold N. change 1 with (INR 1). apply le_INR. lia. Qed.
  Lemma N_eq : INR n - 1 = N. Proof. unfold N. rewrite minus_INR by lia. cbn. lra. Qed.
  Definition p (i : nat) : R := nth i P 0.
  Definition m0 (b : nat) : R := if (b =? 0)%nat then p 1 - p 0 else (p (b + 1) - p (b - 1)) / 2.
  Definition m1 (b : nat) : R := if (b =? n - 2)%nat then p (b + 1) - p b else (p (b + 2) - p b) / 2.
  Definition piece (b : nat) (t : R) : R := hermite (t * N - INR b) (p b) (p (b + 1)) (m0 b) (m1 b).
  Lemma times_nth i : (i < n)%nat -> nth i (keyframe_times n) 0 = INR i / N.
  Proof. intros H. unfold keyframe_times. rewrite (nth_indep _ 0 (INR 0 / INR (n - 1))) by (rewrite map_length, seq_length; lia). rewrite (map_nth (fun i => INR i / INR (n - 1))). rewrite seq_nth by lia. reflexivity. Qed.
  Lemma times_len : length (keyframe_times n) = n. Proof. unfold keyframe_times. now rewrite map_length, seq_length. Qed.
  Lemma eval_piece (b : nat) t : (b <= n - 2)%nat -> (INR b <= t * N < INR b + 1 /\ t <> 1 \/ t = 1 /\ b = (n - 2)%nat) -> catmull_rom P t = Ok (piece b t).
  Proof.
    intros HB HT. pose proof N_pos as NP. unfold catmull_rom. fold n. rewrite N_eq. change 1%Z with (Z.of_nat 1) at 1. rewrite (getz_nat _ 1 0) by (rewrite times_len; lia). cbn [lift bind].
    assert (EB : (if Req_EM_T t 1 then (Int_part (t * N) - 1)%Z else Int_part (t * N)) = Z.of_nat b).
    { destruct HT as [(HT & NE)|( -> & -> )].
      - destruct Req_EM_T; [contradiction|]. now apply int_part_eq.
      - destruct Req_EM_T; [|contradiction]. rewrite (int_part_eq _ (n - 1)) by (fold N; lra). lia. }
    rewrite EB. rewrite (getz_nat _ b 0) by (rewrite times_len; lia). cbn [lift bind].
    rewrite (getz_nat P b 0) by (fold n; lia). cbn [lift bind].
    replace (Z.of_nat b + 1)%Z with (Z.of_nat (b + 1)) by lia. rewrite (getz_nat P (b + 1) 0) by (fold n; lia). cbn [lift bind].
    replace (Z.min (Z.of_nat (b + 1)) (Z.of_nat n - 1)) with (Z.of_nat (b + 1)) by lia. rewrite (getz_nat P (b + 1) 0) by (fold n; lia). cbn [lift bind].
    replace (Z.max (Z.of_nat b - 1) 0) with (Z.of_nat (b - 1)) by lia. rewrite (getz_nat P (b - 1) 0) by (fold n; lia). cbn [lift bind].
    set (k := if (b =? n - 2)%nat then (b + 1)%nat else (b + 2)%nat).
    replace (Z.min (Z.of_nat b + 2) (Z.of_nat n - 1)) with (Z.of_nat k) by (unfold k; destruct (Nat.eqb_spec b (n - 2)); lia). rewrite (getz_nat P k 0) by (fold n; unfold k; destruct (Nat.eqb_spec b (n - 2)); lia). cbn [lift bind].
    replace (Z.max (Z.of_nat b) 0) with (Z.of_nat b) by lia. rewrite (getz_nat P b 0) by (fold n; lia). cbn [lift bind]. f_equal.
    unfold piece, hermite. rewrite !times_nth by lia. fold (p b) (p (b + 1)) (p (b - 1)) (p k).
    assert (E0 : (if (Z.of_nat b =? 0)%Z then 2 * ((p (b + 1) - p (b - 1)) / 2) else (p (b + 1) - p (b - 1)) / 2) = m0 b).
    { unfold m0. destruct (Nat.eqb_spec b 0) as [ -> |Q]; cbn [Nat.add Nat.sub]; [cbn; field|]. destruct (Z.eqb_spec (Z.of_nat b) 0); [lia|reflexivity]. }
    assert (E1 : (if (Z.of_nat b =? Z.of_nat n - 2)%Z then 2 * ((p k - p b) / 2) else (p k - p b) / 2) = m1 b).
    { unfold m1, k. destruct (Nat.eqb_spec b (n - 2)) as [Q|Q]; destruct (Z.eqb_spec (Z.of_nat b) (Z.of_nat n - 2)); try lia; [field|reflexivity]. }
    rewrite E0, E1. assert (ES : (t - INR b / N) / (INR 1 / N) = t * N - INR b) by (cbn; field; lra). rewrite ES. ring.
  Qed.
  Lemma piece_left b : piece b (INR b / N) = p b.
  Proof. pose proof N_pos. unfold piece. replace (INR b / N * N - INR b) with 0 by (field; lra). unfold hermite. ring. Qed.
  Lemma piece_right b : piece b (INR (b + 1) / N) = p (b + 1).
  Proof. pose proof N_pos. unfold piece. replace (INR (b + 1) / N * N - INR b) with 1 by (rewrite plus_INR; cbn; field; lra). unfold hermite. ring. Qed.
  (** closed cells *)
  Lemma eval_closed b t : (b <= n - 2)%nat -> INR b / N <= t <= INR (b + 1) / N -> catmull_rom P t = Ok (piece b t).
  Proof.
    intros HB (A & B). pose proof N_pos as NP.
    assert (A' : INR b <= t * N) by (apply (Rmult_le_compat_r N) in A; [|lra]; replace (INR b / N * N) with (INR b) in A by (field; lra); exact A).
    assert (B' : t * N <= INR b + 1) by (apply (Rmult_le_compat_r N) in B; [|lra]; replace (INR (b + 1) / N * N) with (INR b + 1) in B by (rewrite plus_INR; cbn; field; lra); exact B).
    destruct (Req_dec t 1) as [E|E].
    - assert (b = (n - 2)%nat). { subst t. assert (L : N <= INR b + 1) by lra. unfold N in L. change 1 with (INR 1) in L. rewrite <- plus_INR in L. apply INR_le in L. lia. }
      apply eval_piece; auto.
    - destruct (Req_dec (t * N) (INR b + 1)) as [Q|Q].
      + assert (ET : t = INR (b + 1) / N) by (rewrite plus_INR; cbn; rewrite <- Q; field; lra).
        assert (L : (b + 1 <= n - 2)%nat).
        { destruct (Nat.eq_dec b (n - 2)) as [ -> |]; [|lia]. exfalso. apply E. rewrite ET. unfold N. replace (n - 2 + 1)%nat with (n - 1)%nat by lia. fold N. field. lra. }
        rewrite (eval_piece (b + 1) t L). 2:{ left. split; [|exact E]. rewrite Q, plus_INR. cbn. lra. }
        rewrite ET, piece_left, piece_right. reflexivity.
      + apply eval_piece; auto. left. split; [lra|exact E].
  Qed.
  (** the cell to the right and to the left of a point *)
  Lemma cell_right t : 0 <= t < 1 -> exists b, (b <= n - 2)%nat /\ INR b / N <= t < INR (b + 1) / N.
  Proof.
    intros (A & B). pose proof N_pos as NP. set (x := t * N). assert (X0 : 0 <= x) by (unfold x; nra). assert (X1 : x < N) by (unfold x; nra).
    assert (U := archimed x). destruct U as (U1 & U2). set (z := up x) in *.
    assert (Z1 : (1 <= z)%Z) by (assert (0 < IZR z) by lra; apply lt_IZR in H; lia).
    exists (Z.to_nat (z - 1)). assert (EZ : INR (Z.to_nat (z - 1)) = IZR z - 1) by (rewrite INR_IZR_INZ, Z2Nat.id by lia; rewrite minus_IZR; reflexivity).
    assert (EL : INR (Z.to_nat (z - 1)) <= x < INR (Z.to_nat (z - 1) + 1)) by (rewrite plus_INR, EZ; cbn; lra).
    split.
    - assert (L : INR (Z.to_nat (z - 1)) < N) by lra. unfold N in L. apply INR_lt in L. lia.
    - assert (IN : 0 < / N) by (apply Rinv_0_lt_compat; lra). replace t with (x / N) by (unfold x; field; lra). unfold Rdiv. split; [apply Rmult_le_compat_r; lra|apply Rmult_lt_compat_r; lra].
  Qed.
  Lemma cell_left t : 0 < t <= 1 -> exists b, (b <= n - 2)%nat /\ INR b / N < t <= INR (b + 1) / N.
  Proof.
    intros (A & B). pose proof N_pos as NP. assert (IN : 0 < / N) by (apply Rinv_0_lt_compat; lra). destruct (Req_dec t 1) as [ -> |E].
    - exists (n - 2)%nat. split; [lia|]. assert (L : INR (n - 2 + 1) = N) by (unfold N; f_equal; lia). rewrite L. rewrite plus_INR in L. cbn in L. split; [|right; field; lra].
      replace 1 with (N / N) by (field; lra). unfold Rdiv. apply Rmult_lt_compat_r; lra.
    - destruct (cell_right t ltac:(lra)) as (b & HB & L1 & L2). destruct (Req_dec (INR b / N) t) as [Q|Q].
      + destruct b as [|b]; [exfalso; cbn in Q; unfold Rdiv in Q; lra|]. exists b. split; [lia|]. replace (b + 1)%nat with (S b) by lia. split; [|lra]. rewrite <- Q. unfold Rdiv. apply Rmult_lt_compat_r; auto. rewrite S_INR. lra.
      + exists b. split; auto. lra.
  Qed.
  Lemma piece_continuous b : continuity (piece b).
  Proof. unfold piece, hermite. intros x. reg. Qed.
  (** a cubic around t0 *)
  Lemma cubic_deriv a0 a1 a2 a3 t0 : derivable_pt_lim (fun t => a0 + a1 * (t - t0) + a2 * (t - t0) ^ 2 + a3 * (t - t0) ^ 3) t0 a1.
  Proof.
    intros eps EP. pose proof (Rabs_pos a2) as H2. pose proof (Rabs_pos a3) as H3. set (M := Rabs a2 + Rabs a3 + 1).
    assert (D : 0 < Rmin 1 (eps / M)) by (apply Rmin_pos; [lra|]; apply Rmult_lt_0_compat; [lra|]; apply Rinv_0_lt_compat; unfold M; lra).
    exists (mkposreal _ D). cbn. intros h NH LH. assert (L1 : Rabs h < 1) by (eapply Rlt_le_trans; [exact LH|apply Rmin_l]). assert (L2 : Rabs h < eps / M) by (eapply Rlt_le_trans; [exact LH|apply Rmin_r]).
    match goal with |- Rabs ?x < eps => replace x with (h * (a2 + a3 * h)) by (field; exact NH) end. rewrite Rabs_mult. pose proof (Rabs_pos h).
    assert (Q : Rabs (a2 + a3 * h) <= Rabs a2 + Rabs a3) by (eapply Rle_trans; [apply Rabs_triang|]; rewrite Rabs_mult; nra).
    assert (K : Rabs h * M < eps). { apply (Rmult_lt_compat_r M) in L2; [|unfold M; lra]. replace (eps / M * M) with eps in L2 by (field; unfold M; lra). exact L2. }
    assert (Rabs h * Rabs (a2 + a3 * h) <= Rabs h * M) by (apply Rmult_le_compat_l; unfold M; lra). lra.
  Qed.
End Spline.

(** the value at a query time (0 where the code raises) *)
Definition spline (P : list R) (t : R) : R := match catmull_rom P t with Ok y => y | Err _ => 0 end.
(** key frames are at the times i/(n-1) *)
Theorem C50_interpolates : forall P i, (2 <= length P)%nat -> (i < length P)%nat -> catmull_rom P (INR i / INR (length P - 1)) = Ok (nth i P 0).
Proof.
  intros P i N2 I. destruct (Nat.eq_dec i (length P - 1)) as [E|E].
  - rewrite (eval_closed P N2 (i - 1)); [|lia|].
    + f_equal. replace i with (i - 1 + 1)%nat at 2 by lia. rewrite piece_right by exact N2. unfold p. f_equal. lia.
    + replace (i - 1 + 1)%nat with i by lia. split; [|lra]. unfold Rdiv. apply Rmult_le_compat_r; [left; apply Rinv_0_lt_compat; apply lt_0_INR; lia|apply le_INR; lia].
  - rewrite (eval_closed P N2 i); [|lia|].
    + rewrite piece_left by exact N2. reflexivity.
    + split; [lra|]. unfold Rdiv. apply Rmult_le_compat_r; [left; apply Rinv_0_lt_compat; apply lt_0_INR; lia|apply le_INR; lia].
Qed.
Print Assumptions C50_interpolates.
(** every query time in [0,1] is answered, and the curve is continuous there *)
Theorem C50_defined : forall P t, (2 <= length P)%nat -> 0 <= t <= 1 -> exists y, catmull_rom P t = Ok y.
Proof.
  intros P t N2 T. destruct (Req_dec t 0) as [ -> |E].
  - destruct (cell_right P N2 0 ltac:(lra)) as (b & HB & L1 & L2). rewrite (eval_closed P N2 b) by (auto; lra). eauto.
  - destruct (cell_left P N2 t ltac:(lra)) as (b & HB & L1 & L2). rewrite (eval_closed P N2 b) by (auto; lra). eauto.
Qed.
Print Assumptions C50_defined.
Theorem C50_continuous : forall P t0 eps, (2 <= length P)%nat -> 0 <= t0 <= 1 -> 0 < eps ->
  exists delta, 0 < delta /\ forall t, 0 <= t <= 1 -> Rabs (t - t0) < delta -> Rabs (spline P t - spline P t0) < eps.
Proof.
  intros P t0 eps N2 T EP.
  assert (PC : forall b, exists d, 0 < d /\ forall t, Rabs (t - t0) < d -> Rabs (piece P b t - piece P b t0) < eps).
  { intros b. destruct (piece_continuous P b t0 eps EP) as (d & D & H). exists d. split; [exact D|]. intros t L. destruct (Req_dec t t0) as [ -> |NE]; [rewrite Rminus_diag_eq, Rabs_R0; auto|].
    apply (H t). split; [split; [exact I|auto]|exact L]. }
  assert (RIGHT : exists d, 0 < d /\ forall t, t0 <= t <= 1 -> Rabs (t - t0) < d -> Rabs (spline P t - spline P t0) < eps).
  { destruct (Req_dec t0 1) as [ -> |NE].
    - exists 1. split; [lra|]. intros t L _. replace t with 1 by lra. rewrite Rminus_diag_eq, Rabs_R0; auto.
    - destruct (cell_right P N2 t0 ltac:(lra)) as (b & HB & L1 & L2). destruct (PC b) as (d & D & H). exists (Rmin d (INR (b + 1) / INR (length P - 1) - t0)). split; [apply Rmin_pos; lra|].
      intros t L A. pose proof (Rmin_l d (INR (b + 1) / INR (length P - 1) - t0)). pose proof (Rmin_r d (INR (b + 1) / INR (length P - 1) - t0)). assert (AB := Rle_abs (t - t0)).
      unfold spline. rewrite (eval_closed P N2 b t) by (auto; lra). rewrite (eval_closed P N2 b t0) by (auto; lra). apply H. lra. }
  assert (LEFT : exists d, 0 < d /\ forall t, 0 <= t <= t0 -> Rabs (t - t0) < d -> Rabs (spline P t - spline P t0) < eps).
  { destruct (Req_dec t0 0) as [ -> |NE].
    - exists 1. split; [lra|]. intros t L _. replace t with 0 by lra. rewrite Rminus_diag_eq, Rabs_R0; auto.
    - destruct (cell_left P N2 t0 ltac:(lra)) as (b & HB & L1 & L2). destruct (PC b) as (d & D & H). exists (Rmin d (t0 - INR b / INR (length P - 1))). split; [apply Rmin_pos; lra|].
      intros t L A. pose proof (Rmin_l d (t0 - INR b / INR (length P - 1))). pose proof (Rmin_r d (t0 - INR b / INR (length P - 1))). assert (AB := Rle_abs (- (t - t0))). rewrite Rabs_Ropp in AB.
      unfold spline. rewrite (eval_closed P N2 b t) by (auto; lra). rewrite (eval_closed P N2 b t0) by (auto; lra). apply H. lra. }
  destruct RIGHT as (d1 & D1 & H1). destruct LEFT as (d2 & D2 & H2). exists (Rmin d1 d2). split; [now apply Rmin_pos|]. intros t L A. pose proof (Rmin_l d1 d2). pose proof (Rmin_r d1 d2).
  destruct (Rle_lt_dec t0 t); [apply H1|apply H2]; lra.
Qed.
Print Assumptions C50_continuous.
(** at interior key frames the curve has a tangent: the central difference of the neighbouring key frames *)
Theorem C50_tangent : forall P k, (0 < k < length P - 1)%nat ->
  derivable_pt_lim (spline P) (INR k / INR (length P - 1)) (INR (length P - 1) * ((nth (k + 1) P 0 - nth (k - 1) P 0) / 2)).
Proof.
  intros P k K. assert (N2 : (2 <= length P)%nat) by lia. pose proof (N_pos P N2) as NP. set (N := INR (length P - 1)) in *. set (t0 := INR k / N). set (D := N * ((nth (k + 1) P 0 - nth (k - 1) P 0) / 2)).
  assert (E1 : derivable_pt_lim (piece P k) t0 D).
  { set (x0 := p P k). set (x1 := p P (k + 1)). set (a := m0 P k). set (c := m1 P k).
    assert (EQ : forall t, piece P k t = x0 + (N * a) * (t - t0) + (N * N * (3 * x1 - 3 * x0 - 2 * a - c)) * (t - t0) ^ 2 + (N * N * N * (2 * x0 - 2 * x1 + a + c)) * (t - t0) ^ 3).
    { intros t. unfold piece, hermite. fold N x0 x1 a c. replace (t * N - INR k) with ((t - t0) * N) by (unfold t0; field; lra). ring. }
    assert (EA : N * a = D). { unfold a, m0, D. destruct (Nat.eqb_spec k 0); [lia|]. reflexivity. }
    intros eps EP. destruct (cubic_deriv x0 (N * a) (N * N * (3 * x1 - 3 * x0 - 2 * a - c)) (N * N * N * (2 * x0 - 2 * x1 + a + c)) t0 eps EP) as (d & H). exists d. intros h NH LH. rewrite !EQ, <- EA. apply H; auto. }
  assert (E2 : derivable_pt_lim (piece P (k - 1)) t0 D).
  { set (x0 := p P (k - 1)). set (x1 := p P (k - 1 + 1)). set (a := m0 P (k - 1)). set (c := m1 P (k - 1)).
    assert (EQ : forall t, piece P (k - 1) t = x1 + (N * c) * (t - t0) + (N * N * (3 * x0 - 3 * x1 + a + 2 * c)) * (t - t0) ^ 2 + (N * N * N * (2 * x0 - 2 * x1 + a + c)) * (t - t0) ^ 3).
    { intros t. unfold piece, hermite. fold N x0 x1 a c. replace (t * N - INR (k - 1)) with ((t - t0) * N + 1) by (rewrite minus_INR by lia; unfold t0; cbn; field; lra). ring. }
    assert (EA : N * c = D). { unfold c, m1, D, p. destruct (Nat.eqb_spec (k - 1) (length P - 2)); [lia|]. replace (k - 1 + 2)%nat with (k + 1)%nat by lia. reflexivity. }
    intros eps EP. destruct (cubic_deriv x1 (N * c) (N * N * (3 * x0 - 3 * x1 + a + 2 * c)) (N * N * N * (2 * x0 - 2 * x1 + a + c)) t0 eps EP) as (d & H). exists d. intros h NH LH. rewrite !EQ, <- EA. apply H; auto. }
  assert (IN : 0 < / N) by (apply Rinv_0_lt_compat; lra).
  assert (T0 : t0 + / N = INR (k + 1) / N) by (unfold t0; rewrite plus_INR; cbn; field; lra). assert (T1 : t0 - / N = INR (k - 1) / N) by (unfold t0; rewrite minus_INR by lia; cbn; field; lra).
  intros eps EP. destruct (E1 eps EP) as (d1 & H1). destruct (E2 eps EP) as (d2 & H2).
  assert (DP : 0 < Rmin (/ N) (Rmin d1 d2)) by (apply Rmin_pos; [auto|apply Rmin_pos; [apply (cond_pos d1)|apply (cond_pos d2)]]). exists (mkposreal _ DP). cbn. intros h NH LH.
  pose proof (Rmin_l (/ N) (Rmin d1 d2)). pose proof (Rmin_r (/ N) (Rmin d1 d2)). pose proof (Rmin_l d1 d2). pose proof (Rmin_r d1 d2). pose proof (Rle_abs h). pose proof (Rle_abs (- h)). rewrite Rabs_Ropp in *.
  unfold spline. destruct (Rle_lt_dec 0 h).
  - rewrite (eval_closed P N2 k (t0 + h)); [|lia|fold N; rewrite <- T0; unfold t0; lra]. rewrite (eval_closed P N2 k t0); [|lia|fold N; rewrite <- T0; unfold t0; lra]. apply H1; auto. lra.
  - rewrite (eval_closed P N2 (k - 1) (t0 + h)); [|lia|fold N; rewrite <- T1; replace (k - 1 + 1)%nat with k by lia; fold t0; lra].
    rewrite (eval_closed P N2 (k - 1) t0); [|lia|fold N; rewrite <- T1; replace (k - 1 + 1)%nat with k by lia; fold t0; lra]. apply H2; auto. lra.
Qed.
Print Assumptions C50_tangent.
(** times beyond 1 are rejected; a single key frame is rejected *)
Theorem C50_above : forall P t, (2 <= length P)%nat -> 1 < t -> catmull_rom P t = Err IndexError.
Proof.
  intros P t N2 T. pose proof (N_pos P N2) as NP. unfold catmull_rom. change 1%Z with (Z.of_nat 1) at 1. rewrite (getz_nat _ 1 0) by (rewrite times_len; lia). cbn [lift bind]. rewrite N_eq by exact N2.
  destruct (Req_EM_T t 1); [lra|]. set (x := t * INR (length P - 1)). assert (X : INR (length P - 1) < x) by (unfold x; nra).
  assert (B : (Z.of_nat (length P - 1) <= Int_part x)%Z). { destruct (base_Int_part x) as (A & B). assert (L : IZR (Z.of_nat (length P - 1)) < IZR (Int_part x + 1)) by (rewrite plus_IZR, <- INR_IZR_INZ; lra). apply lt_IZR in L. lia. }
  destruct (getZ (keyframe_times (length P)) (Int_part x)) as [tb|] eqn:G; [|reflexivity]. cbn [lift bind].
  destruct (getZ P (Int_part x)) as [y|]; [|reflexivity]. cbn [lift bind]. replace (getZ P (Int_part x + 1)) with (@None R); [reflexivity|].
  unfold getZ, norm_index. destruct (Z.ltb_spec (Int_part x + 1) (Z.of_nat (length P))); [lia|]. rewrite andb_false_r. destruct (Z.ltb_spec (Int_part x + 1) 0); [lia|]. rewrite andb_false_r. reflexivity.
Qed.
Print Assumptions C50_above.
Theorem C50_single : forall x t, catmull_rom [x] t = Err IndexError /\ catmull_rom [] t = Err IndexError.
Proof. intros. split; reflexivity. Qed.
Example C50_nonvacuous : catmull_rom [0; 1; 4] (INR 1 / INR 2) = Ok 1.
Proof. exact (C50_interpolates [0; 1; 4] 1 ltac:(cbn; lia) ltac:(cbn; lia)). Qed.
