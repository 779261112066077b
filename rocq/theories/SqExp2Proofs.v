(** the Gaussian kernel together with its derivatives has no negative quadratic form *)
From Coq Require Import Reals Lra Psatz ZArith List Bool Lia.
From Verif Require Import PyExn Vec LoopsModel LoopsProofs MatModel MatProofs Subdiv3Proofs BiharmProofs Biharm2Proofs TopoModel SubdivModel SqExpModel SqExpProofs P_SqExp.
Import ListNotations.
Open Scope R_scope.

Definition sek (len scale : R) (i j : Z) (x y : list R) : R := match sek_row x y len scale i j with Ok v => v | Err _ => 0 end.
Section K.
  Context (len scale : R) (Hl : len <> 0).
  Notation k := (gauss len scale).
  Notation g := (/ len ^ 2).
  Lemma sek_vv x y : length x = length y -> sek len scale (-1) (-1) x y = k x y.
  Proof using Hl. intro H. unfold sek. rewrite (proj1 (C69_value x y len scale H Hl)). reflexivity. Qed.
  Lemma sek_dv x y i : length x = length y -> (i < length x)%nat -> sek len scale (Z.of_nat i) (-1) x y = - (g * (nth i x 0 - nth i y 0)) * k x y.
  Proof using Hl.
    intros H L. unfold sek, sek_row. rewrite H, Nat.eqb_refl. cbn [negb]. destruct (Req_EM_T len 0); [contradiction|]. destruct (Z.eqb_spec (Z.of_nat i) (-1)); [lia|]. cbn [andb orb Z.eqb Pos.eqb]. rewrite Z.max_l by lia. rewrite subl_get by auto. cbn [lift bind]. rewrite sek_gauss by auto. rewrite Z.sgn_pos by lia. field. exact Hl.
  Qed.
  Lemma sek_vd x y j : length x = length y -> (j < length x)%nat -> sek len scale (-1) (Z.of_nat j) x y = (g * (nth j x 0 - nth j y 0)) * k x y.
  Proof using Hl.
    intros H L. unfold sek, sek_row. rewrite H, Nat.eqb_refl. cbn [negb]. destruct (Req_EM_T len 0); [contradiction|]. destruct (Z.eqb_spec (Z.of_nat j) (-1)); [lia|]. cbn [andb orb Z.eqb Pos.eqb]. rewrite Z.max_r by lia. rewrite subl_get by auto. cbn [lift bind]. rewrite sek_gauss by auto. rewrite Z.sgn_neg by lia. field. exact Hl.
  Qed.
  Lemma sek_dd x y i j : length x = length y -> (i < length x)%nat -> (j < length x)%nat ->
    sek len scale (Z.of_nat i) (Z.of_nat j) x y = ((if Nat.eqb i j then g else 0) - g * (nth i x 0 - nth i y 0) * (g * (nth j x 0 - nth j y 0))) * k x y.
  Proof using Hl.
    intros H L M. unfold sek, sek_row. rewrite H, Nat.eqb_refl. cbn [negb]. destruct (Req_EM_T len 0); [contradiction|]. destruct (Z.eqb_spec (Z.of_nat i) (-1)); [lia|]. destruct (Z.eqb_spec (Z.of_nat j) (-1)); [lia|]. cbn [andb orb]. rewrite !subl_get by auto. cbn [lift bind]. rewrite sek_gauss by auto.
    destruct (Z.eqb_spec (Z.of_nat i) (Z.of_nat j)), (Nat.eqb_spec i j); try lia; field; exact Hl.
  Qed.
  Definition move (x : list R) (i : nat) (s : R) : list R := set_nth x i (nth i x 0 + s).
  Lemma k_move_l x y i s : length x = length y -> (i < length x)%nat -> k (move x i s) y = k x y * exp (- (g * (nth i x 0 - nth i y 0)) * s - g / 2 * (s * s)).
  Proof using Hl. intros H L. unfold gauss, move. rewrite sqdist_set_l by auto. rewrite Rmult_assoc, <- exp_plus. f_equal. f_equal. field. exact Hl. Qed.
  Lemma k_move_r x y j t : length x = length y -> (j < length x)%nat -> k x (move y j t) = k x y * exp (g * (nth j x 0 - nth j y 0) * t - g / 2 * (t * t)).
  Proof using Hl. intros H L. unfold gauss, move. rewrite sqdist_set_r by auto. rewrite Rmult_assoc, <- exp_plus. f_equal. f_equal. field. exact Hl. Qed.
  Lemma k_move_lr x y i j s t : length x = length y -> (i < length x)%nat -> (j < length x)%nat ->
    k (move x i s) (move y j t) = k x y * exp (- (g * (nth i x 0 - nth i y 0)) * s - g / 2 * (s * s)) * exp (g * (nth j x 0 - nth j y 0) * t - g / 2 * (t * t)) * exp ((if Nat.eqb i j then g else 0) * (s * t)).
  Proof using Hl.
    intros H L M. unfold gauss, move. rewrite sqdist_set_l by (rewrite ?set_nth_length; auto). rewrite sqdist_set_r by auto. rewrite nth_set by lia. rewrite !Rmult_assoc, <- !exp_plus. f_equal. f_equal.
    destruct (Nat.eqb_spec i j) as [ -> | N ]; field; exact Hl.
  Qed.
  Definition eps (N : nat) : R := / INR (S N).
  Lemma eps_pos N : 0 < eps N.
  Proof. apply Rinv_0_lt_compat. apply lt_0_INR. lia. Qed.
  Lemma eps_cv : Un_cv eps 0.
  Proof.
    intros e He. destruct (archimed_cor1 e He) as (N & H1 & H2). exists N. intros n Hn. unfold R_dist, eps. rewrite Rminus_0_r, Rabs_right by (left; apply eps_pos).
    apply Rle_lt_trans with (/ INR N); [|exact H1]. apply Rinv_le_contravar; [apply lt_0_INR; lia|apply le_INR; lia].
  Qed.
  Lemma der_seq f l u : derivable_pt_lim f 0 l -> Un_cv u 0 -> (forall N, 0 < u N) -> Un_cv (fun N => (f (u N) - f 0) / u N) l.
  Proof.
    intros D U P e He. destruct (D e He) as ((d & Hd) & H). cbn in H. destruct (U d Hd) as (N & HN). exists N. intros n Hn. specialize (HN n Hn). unfold R_dist in *. rewrite Rminus_0_r in HN. specialize (H (u n)). rewrite Rplus_0_l in H. apply H; [specialize (P n); lra|exact HN].
  Qed.
  Lemma quad_exp_deriv a b : derivable_pt_lim (fun s => exp (a * s - b * (s * s))) 0 a.
  Proof.
    assert (derivable_pt_lim (fun s => exp (a * s - b * (s * s))) 0 (exp (a * 0 - b * (0 * 0)) * (a * 1 - b * (1 * 0 + 0 * 1)))) as D;
      [|replace (exp (a * 0 - b * (0 * 0)) * (a * 1 - b * (1 * 0 + 0 * 1))) with a in D by (replace (a * 0 - b * (0 * 0)) with 0 by ring; rewrite exp_0; ring); exact D].
    apply (derivable_pt_lim_comp (fun s => a * s - b * (s * s)) exp); [|apply derivable_pt_lim_exp].
    apply (derivable_pt_lim_minus (fun s => a * s) (fun s => b * (s * s))).
    - apply (derivable_pt_lim_scal id). apply derivable_pt_lim_id.
    - apply (derivable_pt_lim_scal (fun s => s * s)). apply (derivable_pt_lim_mult id id); apply derivable_pt_lim_id.
  Qed.
  Lemma quad_cv a b : Un_cv (fun N => (exp (a * eps N - b * (eps N * eps N)) - 1) / eps N) a.
  Proof.
    pose proof (der_seq _ _ eps (quad_exp_deriv a b) eps_cv eps_pos) as H. cbv beta in H. replace (a * 0 - b * (0 * 0)) with 0 in H by ring. rewrite exp_0 in H. exact H.
  Qed.
  Lemma quad_cv1 a b : Un_cv (fun N => exp (a * eps N - b * (eps N * eps N))) 1.
  Proof.
    apply (Un_cv_ext (fun N => (exp (a * eps N - b * (eps N * eps N)) - 1) / eps N * eps N + 1)). { intro N. pose proof (eps_pos N). field. lra. }
    pose proof (CV_plus _ _ _ _ (CV_mult _ _ _ _ (quad_cv a b) eps_cv) (cv_const 1)) as Q. replace (a * 0 + 1) with 1 in Q by ring. exact Q.
  Qed.
  Lemma prod_cv c : Un_cv (fun N => (exp (c * (eps N * eps N)) - 1) / (eps N * eps N)) c.
  Proof.
    assert (Un_cv (fun N => eps N * eps N) 0) as U by (replace 0 with (0 * 0) by ring; apply CV_mult; apply eps_cv).
    pose proof (der_seq _ _ (fun N => eps N * eps N) (quad_exp_deriv c 0) U (fun N => Rmult_lt_0_compat _ _ (eps_pos N) (eps_pos N))) as H. cbv beta in H.
    eapply Un_cv_ext; [|exact H]. intro N. cbv beta. replace (c * 0 - 0 * (0 * 0)) with 0 by ring. rewrite exp_0. f_equal. f_equal. f_equal. ring.
  Qed.

  (** the four difference quotients *)
  Lemma cv_dv x y i : length x = length y -> (i < length x)%nat -> Un_cv (fun N => (k (move x i (eps N)) y - k x y) / eps N) (sek len scale (Z.of_nat i) (-1) x y).
  Proof using Hl.
    intros H L. rewrite sek_dv by auto. rewrite Rmult_comm. eapply Un_cv_ext; [|apply cv_scal; apply (quad_cv (- (g * (nth i x 0 - nth i y 0))) (g / 2))]. intro N. cbv beta. rewrite k_move_l by auto. set (E := exp _). pose proof (eps_pos N). field. lra.
  Qed.
  Lemma cv_vd x y j : length x = length y -> (j < length x)%nat -> Un_cv (fun N => (k x (move y j (eps N)) - k x y) / eps N) (sek len scale (-1) (Z.of_nat j) x y).
  Proof using Hl.
    intros H L. rewrite sek_vd by auto. rewrite Rmult_comm. eapply Un_cv_ext; [|apply cv_scal; apply (quad_cv (g * (nth j x 0 - nth j y 0)) (g / 2))]. intro N. cbv beta. rewrite k_move_r by auto. set (E := exp _). pose proof (eps_pos N). field. lra.
  Qed.
  Lemma cv_dd x y i j : length x = length y -> (i < length x)%nat -> (j < length x)%nat ->
    Un_cv (fun N => (k (move x i (eps N)) (move y j (eps N)) - k (move x i (eps N)) y - k x (move y j (eps N)) + k x y) / (eps N * eps N)) (sek len scale (Z.of_nat i) (Z.of_nat j) x y).
  Proof using Hl.
    intros H L M. rewrite sek_dd by auto. set (c := if Nat.eqb i j then g else 0). set (a := - (g * (nth i x 0 - nth i y 0))). set (b := g * (nth j x 0 - nth j y 0)).
    replace ((c - g * (nth i x 0 - nth i y 0) * b) * k x y) with (k x y * (a * b + 1 * 1 * c)) by (unfold a; ring).
    apply (Un_cv_ext (fun N => k x y * ((exp (a * eps N - g / 2 * (eps N * eps N)) - 1) / eps N * ((exp (b * eps N - g / 2 * (eps N * eps N)) - 1) / eps N) + exp (a * eps N - g / 2 * (eps N * eps N)) * exp (b * eps N - g / 2 * (eps N * eps N)) * ((exp (c * (eps N * eps N)) - 1) / (eps N * eps N))))).
    - intro N. rewrite k_move_lr, k_move_l, k_move_r by auto. fold c a b. set (A := exp (a * eps N - _)). set (B := exp (b * eps N - _)). set (C := exp (c * _)). pose proof (eps_pos N). field. lra.
    - apply cv_scal. apply CV_plus; [apply CV_mult; apply quad_cv|]. apply CV_mult; [apply CV_mult; apply quad_cv1|apply prod_cv].
  Qed.
End K.
Lemma cv_nonneg u l : Un_cv u l -> (forall N, 0 <= u N) -> 0 <= l.
Proof.
  intros H P. destruct (Rle_lt_dec 0 l) as [|L]; [assumption|]. destruct (H (- l) ltac:(lra)) as (N & HN). specialize (HN N (le_n N)). specialize (P N). unfold R_dist in HN. rewrite Rabs_right in HN by lra. lra.
Qed.
Lemma sek_obs_psd (len scale : R) (d n : nat) (o : nat -> Z * list R) (c : nat -> R) : len <> 0 -> 0 < scale ->
  (forall a, (a < n)%nat -> length (snd (o a)) = d /\ (-1 <= fst (o a) < Z.of_nat d)%Z) ->
  0 <= sumn n (fun a => c a * sumn n (fun b => sek len scale (fst (o a)) (fst (o b)) (snd (o a)) (snd (o b)) * c b)).
Proof.
  intros Hl Hs Ho. set (k := gauss len scale).
  set (m := fun a N => if (fst (o a) =? -1)%Z then snd (o a) else move (snd (o a)) (Z.to_nat (fst (o a))) (eps N)).
  set (al := fun a N => if (fst (o a) =? -1)%Z then 1 else - / eps N). set (be := fun a N => if (fst (o a) =? -1)%Z then 0 else / eps N).
  set (D := fun a b N => al a N * al b N * k (snd (o a)) (snd (o b)) + al a N * be b N * k (snd (o a)) (m b N) + be a N * al b N * k (m a N) (snd (o b)) + be a N * be b N * k (m a N) (m b N)).
  assert (forall a N, (a < n)%nat -> length (m a N) = d) as Lm. { intros a N Ha. unfold m. destruct (Ho a Ha) as [L _]. destruct (fst (o a) =? -1)%Z; [exact L|]. unfold move. rewrite set_nth_length. exact L. }
  apply (cv_nonneg (fun N => sumn n (fun a => c a * sumn n (fun b => D a b N * c b)))).
  - apply cv_sumn. intros a Ha. apply cv_scal. apply (cv_sumn n (fun b N => D a b N * c b)). intros b Hb. apply (Un_cv_ext (fun N => c b * D a b N)); [intro; ring|]. rewrite (Rmult_comm _ (c b)). apply cv_scal.
    destruct (Ho a Ha) as [La [Fa1 Fa2]], (Ho b Hb) as [Lb [Fb1 Fb2]]. assert (length (snd (o a)) = length (snd (o b))) as LL by congruence. unfold D, al, be, m.
    destruct (Z.eqb_spec (fst (o a)) (-1)) as [Ea|Na], (Z.eqb_spec (fst (o b)) (-1)) as [Eb|Nb].
    + rewrite Ea, Eb, sek_vv by auto. eapply Un_cv_ext; [|apply cv_const]. intro N. cbv beta. unfold k. ring.
    + rewrite Ea. assert (sek len scale (-1) (fst (o b)) = sek len scale (-1) (Z.of_nat (Z.to_nat (fst (o b))))) as -> by (f_equal; lia). eapply Un_cv_ext; [|apply cv_vd; auto; lia]. intro N. cbv beta. pose proof (eps_pos N). unfold k. field. lra.
    + rewrite Eb. assert (sek len scale (fst (o a)) (-1) = sek len scale (Z.of_nat (Z.to_nat (fst (o a)))) (-1)) as -> by (f_equal; lia). eapply Un_cv_ext; [|apply cv_dv; auto; lia]. intro N. cbv beta. pose proof (eps_pos N). unfold k. field. lra.
    + assert (sek len scale (fst (o a)) (fst (o b)) = sek len scale (Z.of_nat (Z.to_nat (fst (o a)))) (Z.of_nat (Z.to_nat (fst (o b))))) as -> by (f_equal; lia).
      eapply Un_cv_ext; [|apply cv_dd; auto; lia]. intro N. cbv beta. pose proof (eps_pos N). unfold k. field. lra.
  - intro N. set (x := fun a => if Nat.ltb a n then snd (o a) else m (a - n)%nat N). set (e := fun a => if Nat.ltb a n then c a * al a N else c (a - n)%nat * be (a - n)%nat N).
    assert (forall a, (a < n + n)%nat -> length (x a) = d) as Lx. { intros a Ha. unfold x. destruct (Nat.ltb_spec a n); [apply Ho; auto|apply Lm; lia]. }
    pose proof (kform_nonneg (n + n) d x len scale Lx Hl Hs e) as P. unfold kform in P.
    rewrite (sumn_ext (n + n) _ (fun a => e a * sumn (n + n) (fun b => k (x a) (x b) * e b))) in P.
    2:{ intros a Ha. f_equal. apply sumn_ext. intros b Hb. rewrite sek_gauss by (rewrite ?Lx; auto). reflexivity. }
    rewrite sumn_app in P. rewrite <- sumn_plus in P. erewrite sumn_ext; [exact P|]. intros a Ha. cbv beta. rewrite !sumn_app, <- !sumn_plus. rewrite <- !sumn_scal, <- sumn_plus. apply sumn_ext. intros b Hb. unfold x, e, D.
    destruct (Nat.ltb_spec a n); [|lia]. destruct (Nat.ltb_spec b n); [|lia]. destruct (Nat.ltb_spec (n + a) n); [lia|]. destruct (Nat.ltb_spec (n + b) n); [lia|]. replace (n + a - n)%nat with a by lia. replace (n + b - n)%nat with b by lia. ring.
Qed.
Lemma sek_sym len scale i j x y : len <> 0 -> length x = length y -> (-1 <= i < Z.of_nat (length x))%Z -> (-1 <= j < Z.of_nat (length x))%Z -> sek len scale i j x y = sek len scale j i y x.
Proof.
  intros Hl H Hi Hj. destruct (Z.eq_dec i (-1)) as [ -> | Ni ], (Z.eq_dec j (-1)) as [ -> | Nj ].
  - rewrite !sek_vv by auto. apply gauss_sym, H.
  - replace j with (Z.of_nat (Z.to_nat j)) by lia. rewrite sek_vd, sek_dv by (auto; lia). rewrite (gauss_sym len scale y x) by auto. ring.
  - replace i with (Z.of_nat (Z.to_nat i)) by lia. rewrite sek_vd, sek_dv by (auto; lia). rewrite (gauss_sym len scale y x) by auto. ring.
  - replace i with (Z.of_nat (Z.to_nat i)) by lia. replace j with (Z.of_nat (Z.to_nat j)) by lia. rewrite !sek_dd by (auto; lia). rewrite (gauss_sym len scale y x) by auto. rewrite Nat.eqb_sym. destruct (Nat.eqb (Z.to_nat j) (Z.to_nat i)); ring.
Qed.
