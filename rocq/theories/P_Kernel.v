(** C53: compactly supported kernels *)
From Coq Require Import Reals Lra Lia ZArith List Bool.
From Verif Require Import PyExn Vec LoopsModel LoopsProofs KernelModel KernelSpec KernelProofs.
Import ListNotations.
Open Scope R_scope.

(** product over the coordinates of a point *)
Fixpoint gprod (f : nat -> R -> R) (i : nat) (xs : list R) : R :=
  match xs with [] => 1 | x :: r => f i x * gprod f (S i) r end.
Definition val_of (r : res R) : R := match r with Ok v => v | Err _ => 0 end.
(** normalised difference of two points *)
Definition ndiff (x c : list R) (s : R) : list R := map (fun p => (fst p - snd p) / s) (combine x c).
(** the density the functions evaluate: product of centred B-splines *)
Definition dens (n : nat) (x c : list R) (s : R) : R := gprod (fun _ => bspline n) 0 (ndiff x c s) / s ^ length x.

Lemma gprod_ext f g xs i : (forall j, (j < length xs)%nat -> f (i + j)%nat (nth j xs 0) = g (i + j)%nat (nth j xs 0)) -> gprod f i xs = gprod g i xs.
Proof.
  revert i. induction xs as [|x r IH]; intros i H; cbn; auto. pose proof (H 0%nat ltac:(cbn; lia)) as H0. cbn in H0. rewrite Nat.add_0_r in H0. rewrite H0. f_equal.
  apply IH. intros j J. specialize (H (S j) ltac:(cbn; lia)). cbn in H. replace (i + S j)%nat with (S i + j)%nat in H by lia. exact H.
Qed.
Lemma gprod_nonneg f xs i : (forall j x, 0 <= f j x) -> 0 <= gprod f i xs.
Proof. intros H. revert i. induction xs; intros; cbn; [lra|]. apply Rmult_le_pos; auto. Qed.
Lemma gprod_zero f xs i j : (j < length xs)%nat -> f (i + j)%nat (nth j xs 0) = 0 -> gprod f i xs = 0.
Proof.
  revert i j. induction xs as [|x r IH]; intros i j J E; cbn in *; [lia|]. destruct j as [|j].
  - rewrite Nat.add_0_r in E. rewrite E. ring.
  - rewrite (IH (S i) j); [ring|lia|]. replace (S i + j)%nat with (i + S j)%nat by lia. exact E.
Qed.
Lemma gprod_deriv f g xs i j l : (j < length xs)%nat ->
  derivable_pt_lim (f (i + j)%nat) (nth j xs 0) l -> l = g (i + j)%nat (nth j xs 0) ->
  (forall k, (k < length xs)%nat -> k <> j -> f (i + k)%nat (nth k xs 0) = g (i + k)%nat (nth k xs 0)) ->
  derivable_pt_lim (fun t => gprod f i (set_nth xs j t)) (nth j xs 0) (gprod g i xs).
Proof.
  revert i j. induction xs as [|x r IH]; intros i j J D E O; cbn in J; [lia|]. destruct j as [|j]; cbn [nth set_nth gprod] in *.
  - rewrite Nat.add_0_r in *. subst l. replace (g i x * gprod g (S i) r) with (g i x * gprod f (S i) r + f i x * 0).
    + apply (derivable_pt_lim_mult (f i) (fun _ => gprod f (S i) r)); auto. apply derivable_pt_lim_const.
    + rewrite (gprod_ext f g r (S i)); [ring|]. intros k K. specialize (O (S k) ltac:(cbn; lia) ltac:(lia)). replace (i + S k)%nat with (S i + k)%nat in O by lia. exact O.
  - assert (E0 : f i x = g i x). { specialize (O 0%nat ltac:(cbn; lia) ltac:(lia)). rewrite Nat.add_0_r in O. exact O. } rewrite <- E0.
    apply (derivable_pt_lim_scal (fun t => gprod f (S i) (set_nth r j t))). apply IH; [lia| | |].
    + replace (S i + j)%nat with (i + S j)%nat by lia. exact D.
    + replace (S i + j)%nat with (i + S j)%nat by lia. exact E.
    + intros k K N. specialize (O (S k) ltac:(cbn; lia) ltac:(lia)). replace (i + S k)%nat with (S i + k)%nat in O by lia. exact O.
Qed.
(** sup-norm closeness *)
Definition near (x y : list R) (d : R) := length y = length x /\ forall i, (i < length x)%nat -> Rabs (nth i y 0 - nth i x 0) < d.
Lemma gprod_cont f xs i eps : (forall j x e, 0 < e -> exists d, 0 < d /\ forall y, Rabs (y - x) < d -> Rabs (f j y - f j x) < e) -> 0 < eps ->
  exists d, 0 < d /\ forall ys, near xs ys d -> Rabs (gprod f i ys - gprod f i xs) < eps.
Proof.
  intros C. revert i eps. induction xs as [|x r IH]; intros i eps EP; cbn [gprod].
  - exists 1. split; [lra|]. intros [|] [N _]; [|discriminate]. cbn. rewrite Rminus_eq_0, Rabs_R0. lra.
  - set (A := Rabs (f i x) + 1). set (B := Rabs (gprod f (S i) r) + 1). assert (AP : 1 <= A) by (unfold A; pose proof (Rabs_pos (f i x)); lra). assert (BP : 1 <= B) by (unfold B; pose proof (Rabs_pos (gprod f (S i) r)); lra).
    set (e := Rmin 1 (eps / (2 * (A + B)))). assert (Q : 0 < eps / (2 * (A + B))) by (apply Rdiv_lt_0_compat; lra). assert (E0 : 0 < e) by (apply Rmin_pos; lra). assert (E1 : e <= 1) by apply Rmin_l. assert (E2 : e <= eps / (2 * (A + B))) by apply Rmin_r.
    destruct (C i x e E0) as (d1 & D1 & H1). destruct (IH (S i) e E0) as (d2 & D2 & H2).
    exists (Rmin d1 d2). split; [apply Rmin_pos; auto|]. intros [|y s] [N K]; [discriminate|]. cbn [gprod].
    pose proof (Rmin_l d1 d2). pose proof (Rmin_r d1 d2).
    assert (F1 : Rabs (f i y - f i x) < e). { apply H1. specialize (K 0%nat ltac:(cbn; lia)). cbn in K. lra. }
    assert (F2 : Rabs (gprod f (S i) s - gprod f (S i) r) < e). { apply H2. split; [cbn in N; lia|]. intros k KK. specialize (K (S k) ltac:(cbn; lia)). cbn in K. lra. }
    replace (f i y * gprod f (S i) s - f i x * gprod f (S i) r) with ((f i y - f i x) * (gprod f (S i) s) + f i x * (gprod f (S i) s - gprod f (S i) r)) by ring.
    eapply Rle_lt_trans; [apply Rabs_triang|]. rewrite !Rabs_mult.
    assert (G : Rabs (gprod f (S i) s) <= B). { unfold B. replace (gprod f (S i) s) with ((gprod f (S i) s - gprod f (S i) r) + gprod f (S i) r) by ring. eapply Rle_trans; [apply Rabs_triang|]. lra. }
    pose proof (Rabs_pos (f i y - f i x)). pose proof (Rabs_pos (gprod f (S i) s - gprod f (S i) r)). pose proof (Rabs_pos (f i x)). pose proof (Rabs_pos (gprod f (S i) s)).
    assert (M : e * (A + B) <= eps / 2). { apply Rle_trans with (eps / (2 * (A + B)) * (A + B)); [apply Rmult_le_compat_r; lra|]. right. field. lra. }
    assert (Rabs (f i y - f i x) * Rabs (gprod f (S i) s) <= e * B) by (apply Rmult_le_compat; lra).
    assert (Rabs (f i x) * Rabs (gprod f (S i) s - gprod f (S i) r) <= A * e) by (apply Rmult_le_compat; unfold A; lra). lra.
Qed.

Lemma ndiff_len x c s : length x = length c -> length (ndiff x c s) = length x.
Proof. intros. unfold ndiff. rewrite map_length, combine_length. lia. Qed.
Lemma ndiff_nth x c s i : length x = length c -> (i < length x)%nat -> nth i (ndiff x c s) 0 = (nth i x 0 - nth i c 0) / s.
Proof.
  intros L I. unfold ndiff. set (f := fun p : R * R => (fst p - snd p) / s). rewrite (nth_indep _ 0 (f (0, 0))) by (rewrite map_length, combine_length; lia). rewrite map_nth, combine_nth by auto. reflexivity.
Qed.
Lemma ndiff_set x c s i t : length x = length c -> ndiff (set_nth x i t) c s = set_nth (ndiff x c s) i ((t - nth i c 0) / s).
Proof.
  unfold ndiff. revert c i. induction x as [|a x IH]; intros [|b c] i L; try discriminate; auto. destruct i as [|i]; cbn; auto. f_equal. apply IH. cbn in L; lia.
Qed.
Lemma ndiff_set2 x c s i t : length x = length c -> ndiff x (set_nth c i t) s = set_nth (ndiff x c s) i ((nth i x 0 - t) / s).
Proof.
  unfold ndiff. revert c i. induction x as [|a x IH]; intros [|b c] i L; try discriminate; auto. destruct i as [|i]; cbn; auto. f_equal. apply IH. cbn in L; lia.
Qed.
Lemma ndiff_near x c s y d : 0 < s -> length x = length c -> near x y (d * s) -> near (ndiff x c s) (ndiff y c s) d.
Proof.
  intros S L [N H]. split; [rewrite !ndiff_len; congruence|]. intros i I. rewrite ndiff_len in I by auto. rewrite !ndiff_nth by congruence.
  replace ((nth i y 0 - nth i c 0) / s - (nth i x 0 - nth i c 0) / s) with ((nth i y 0 - nth i x 0) * / s) by (field; lra). rewrite Rabs_mult, (Rabs_right (/ s)) by (left; apply Rinv_0_lt_compat; auto).
  apply (Rmult_lt_reg_r s); auto. rewrite Rmult_assoc, Rinv_l, Rmult_1_r by lra. auto.
Qed.

(** B-spline facts *)
Ltac goB x := unfold bspline, tpow; cbn [knots fold_right fst snd pow]; facts; pps.
Lemma bspline_even n x : (1 <= n <= 4)%nat -> bspline n (- x) = bspline n x.
Proof.
  intros N. assert (n = 1 \/ n = 2 \/ n = 3 \/ n = 4)%nat as [ -> |[ -> |[ -> | -> ]]] by lia.
  - pose proof (csn1 (-x)) as A. pose proof (csn1 x) as B. unfold csn_val in *. rewrite Rabs_Ropp in A. cbn [Z.eqb Pos.eqb] in *. rewrite B in A. injection A as ->. reflexivity.
  - destruct (Req_dec (Rabs x) (1/2)) as [E|E].
    + destruct (csn2_bad x E) as [_ ->]. apply csn2_bad. rewrite Rabs_Ropp. auto.
    + pose proof (csn2 (-x)) as A. pose proof (csn2 x E) as B. rewrite Rabs_Ropp in A. specialize (A E). unfold csn_val in *. rewrite Rabs_Ropp in A. cbn [Z.eqb Pos.eqb] in *. replace ((-x)^2) with (x^2) in A by ring. rewrite B in A. injection A as ->. reflexivity.
  - pose proof (csn3 (-x)) as A. pose proof (csn3 x) as B. unfold csn_val in *. rewrite Rabs_Ropp in A. cbn [Z.eqb Pos.eqb] in *. rewrite B in A. injection A as ->. reflexivity.
  - assert (E : csn_val 4 (-x) = csn_val 4 x) by (unfold csn_val; rewrite Rabs_Ropp; reflexivity).
    destruct (Req_dec (Rabs x) (1/2)) as [E1|E1]; [|destruct (Req_dec (Rabs x) (3/2)) as [E2|E2]].
    + rewrite (proj1 (csn4_bad x (or_introl E1))) in E. rewrite (proj1 (csn4_bad (-x) ltac:(rewrite Rabs_Ropp; auto))) in E. injection E. lra.
    + rewrite (proj1 (csn4_bad x (or_intror E2))) in E. rewrite (proj1 (csn4_bad (-x) ltac:(rewrite Rabs_Ropp; auto))) in E. injection E. lra.
    + rewrite csn4, csn4 in E by (rewrite ?Rabs_Ropp; auto). injection E. auto.
Qed.
Lemma bspline_support n x : (1 <= n <= 4)%nat -> half_support n <= Rabs x -> bspline n x = 0.
Proof.
  intros N H. assert (P : forall y, half_support n <= y -> bspline n (-y) = 0).
  { intros y Y. unfold half_support in Y. assert (n = 1 \/ n = 2 \/ n = 3 \/ n = 4)%nat as [ -> |[ -> |[ -> | -> ]]] by lia;
    cbn [INR] in Y; unfold bspline, tpow; cbn [knots fold_right fst snd]; rewrite !pp_neg by lra; rewrite !pow_i by lia; lra. }
  destruct (Rle_lt_dec 0 x).
  - rewrite Rabs_right in H by lra. rewrite <- bspline_even by auto. auto.
  - rewrite Rabs_left in H by lra. replace x with (- - x) by ring. auto.
Qed.
Lemma bspline_nonneg n x : (1 <= n <= 4)%nat -> 0 <= bspline n x.
Proof.
  intros N. destruct (Rle_lt_dec (half_support n) (Rabs x)) as [H|H]; [rewrite bspline_support by auto; lra|].
  assert (P : forall y, y <= 0 -> - half_support n < y -> 0 <= bspline n y).
  { intros y Y0 Y1. unfold half_support in Y1. assert (n = 1 \/ n = 2 \/ n = 3 \/ n = 4)%nat as [ -> |[ -> |[ -> | -> ]]] by lia; cbn [INR] in Y1.
    - unfold bspline, tpow; cbn [knots fold_right fst snd pow]; facts. pps; lra.
    - unfold bspline, tpow; cbn [knots fold_right fst snd pow]; facts. pps; try lra; nra.
    - destruct (Rle_lt_dec (-1) y).
      + replace (bspline 3 y) with (/ 6 * (3 * (- y)^3 - 6 * (-y)^2 + 4)); [nra|]. unfold bspline, tpow; cbn [knots fold_right fst snd]. rewrite (pp_pos (y - -2)), (pp_pos (y - -1)), (pp_neg (y-0)), (pp_neg (y - 1)), (pp_neg (y - 2)) by lra. facts. field.
      + replace (bspline 3 y) with (/ 6 * (y + 2)^3). * apply Rmult_le_pos; [lra|]. apply pow_le; lra.
        * unfold bspline, tpow; cbn [knots fold_right fst snd]. rewrite (pp_pos (y - -2)), (pp_neg (y - -1)), (pp_neg (y-0)), (pp_neg (y - 1)), (pp_neg (y - 2)) by lra. facts. field.
    - destruct (Rle_lt_dec (-(1/2)) y); [|destruct (Rle_lt_dec (-(3/2)) y)].
      + replace (bspline 4 y) with (/ 192 * (48 * y^4 - 120 * y^2 + 115)).
        * apply Rmult_le_pos; [lra|]. assert (0 <= y^2 <= 1/4) by (cbn; nra). replace (y^4) with (y^2*y^2) by ring. nra.
        * unfold bspline, tpow; cbn [knots fold_right fst snd]. rewrite (pp_pos (y - -(5/2))), (pp_pos (y - -(3/2))), (pp_pos (y- -(1/2))), (pp_neg (y - 1/2)), (pp_neg (y - 3/2)), (pp_neg (y - 5/2)) by lra. facts. field.
      + replace (bspline 4 y) with (/ 24 * ((y + 5/2)^4 - 5 * (y + 3/2)^4)).
        * apply Rmult_le_pos; [lra|]. set (u := y + 3/2). replace (y + 5/2) with (u + 1) by (unfold u; lra). assert (0 <= u <= 1) by (unfold u; lra).
          replace ((u+1)^4 - 5 * u^4) with (1 + 4*u + 6*u^2 + 4*u^3*(1 - u)) by ring. assert (0 <= u^2) by (apply pow_le; lra). assert (0 <= u^3) by (apply pow_le; lra). nra.
        * unfold bspline, tpow; cbn [knots fold_right fst snd]. rewrite (pp_pos (y - -(5/2))), (pp_pos (y - -(3/2))), (pp_neg (y- -(1/2))), (pp_neg (y - 1/2)), (pp_neg (y - 3/2)), (pp_neg (y - 5/2)) by lra. facts. field.
      + replace (bspline 4 y) with (/ 24 * ((y + 5/2)^4)). * apply Rmult_le_pos; [lra|]. apply pow_le; lra.
        * unfold bspline, tpow; cbn [knots fold_right fst snd]. rewrite (pp_pos (y - -(5/2))), (pp_neg (y - -(3/2))), (pp_neg (y- -(1/2))), (pp_neg (y - 1/2)), (pp_neg (y - 3/2)), (pp_neg (y - 5/2)) by lra. facts. field. }
  destruct (Rle_lt_dec 0 x).
  - rewrite Rabs_right in H by lra. rewrite <- bspline_even by auto. apply P; lra.
  - rewrite Rabs_left in H by lra. apply P; lra.
Qed.
(** unit mass: an antiderivative rising from 0 to 1 across the support *)
Lemma bspline_mass n : (1 <= n <= 4)%nat -> exists Phi, (forall x, derivable_pt_lim Phi x (bspline n x)) /\ (forall x, x <= - half_support n -> Phi x = 0) /\ (forall x, half_support n <= x -> Phi x = 1).
Proof.
  intros N. exists (fun x => tpow (S n) (knots n) x / INR (fact (S n))). split; [|split].
  - intros x. unfold bspline.
    apply (deriv_ext _ (fun y => / INR (fact (S n)) * tpow (S n) (knots n) y)); [intros; unfold Rdiv; ring|].
    replace (tpow n (knots n) x / INR (fact n)) with (/ INR (fact (S n)) * (INR (S n) * tpow n (knots n) x)).
    + apply (derivable_pt_lim_scal (tpow (S n) (knots n))). apply tpow_deriv. lia.
    + rewrite fact_simpl, mult_INR. field. split; [apply fact_pos|apply not_0_INR; lia].
  - intros x X. unfold half_support in X. assert (n = 1 \/ n = 2 \/ n = 3 \/ n = 4)%nat as [ -> |[ -> |[ -> | -> ]]] by lia; cbn [INR] in X;
    unfold tpow; cbn [knots fold_right fst snd]; rewrite !pp_neg by lra; rewrite !pow_i by lia; lra.
  - intros x X. unfold half_support in X. assert (n = 1 \/ n = 2 \/ n = 3 \/ n = 4)%nat as [ -> |[ -> |[ -> | -> ]]] by lia; cbn [INR] in X;
    unfold tpow; cbn [knots fold_right fst snd]; rewrite !pp_pos by lra; facts; field.
Qed.
Lemma lip_cont (f : R -> R) x : continuity_pt f x -> forall e, 0 < e -> exists d, 0 < d /\ forall y, Rabs (y - x) < d -> Rabs (f y - f x) < e.
Proof.
  intros C e E. destruct (C e E) as (d & D & H). exists d. split; auto. intros y Y. destruct (Req_dec x y) as [ -> |N]; [rewrite Rminus_eq_0, Rabs_R0; auto|].
  apply (H y). split; [split; [exact I|auto]|exact Y].
Qed.
Lemma bspline_cont n x e : (1 <= n <= 4)%nat -> 0 < e -> exists d, 0 < d /\ forall y, Rabs (y - x) < d -> Rabs (bspline n y - bspline n x) < e.
Proof.
  intros N E. destruct (Nat.eq_dec n 1) as [ -> |N1].
  - exists (e / 4). split; [lra|]. intros y Y. unfold bspline, tpow. cbn [knots fold_right fst snd]. rewrite !pow_1. change (INR (fact 1)) with 1.
    pose proof (pp_lip (y - -1) (x - -1)). pose proof (pp_lip (y - 0) (x - 0)). pose proof (pp_lip (y - 1) (x - 1)).
    replace (y - -1 - (x - -1)) with (y - x) in * by ring. replace (y - 0 - (x - 0)) with (y - x) in * by ring. replace (y - 1 - (x - 1)) with (y - x) in * by ring.
    match goal with |- Rabs ?z < _ => replace z with ((pospart (y - -1) - pospart (x - -1)) + (-2 * (pospart (y - 0) - pospart (x - 0)) + (pospart (y - 1) - pospart (x - 1)))) by field end.
    eapply Rle_lt_trans; [apply Rabs_triang|]. eapply Rle_lt_trans; [apply Rplus_le_compat_l; apply Rabs_triang|]. rewrite Rabs_mult. replace (Rabs (-2)) with 2 by (rewrite Rabs_left; lra). lra.
  - apply lip_cont; auto. apply derivable_continuous_pt. exists (bspline1 n x). apply bspline_deriv. lia.
Qed.

(** ---- compactly_supported_normal ---- *)
Definition csnf (n sd : Z) (i : nat) (x : R) : R := val_of (if (sd =? Z.of_nat i)%Z then csn_dd n x else csn_val n x).
Lemma csn_val_ok n x : (1 <= n <= 4)%Z -> csn_val n x = Ok (val_of (csn_val n x)).
Proof. intros N. assert (n = 1 \/ n = 2 \/ n = 3 \/ n = 4)%Z as [ -> |[ -> |[ -> | -> ]]] by lia; reflexivity. Qed.
Lemma csn_dd_ok n x : (1 <= n <= 4)%Z -> csn_dd n x = Ok (val_of (csn_dd n x)).
Proof. intros N. assert (n = 1 \/ n = 2 \/ n = 3 \/ n = 4)%Z as [ -> |[ -> |[ -> | -> ]]] by lia; reflexivity. Qed.
Lemma csn_loop_prod n sd xs i v : (1 <= n <= 4)%Z -> csn_loop n sd (Z.of_nat i) xs v = Ok (v * gprod (csnf n sd) i xs).
Proof.
  intros N. revert i v. induction xs as [|x r IH]; intros i v; cbn [csn_loop gprod]; [f_equal; ring|].
  replace (if (sd =? Z.of_nat i)%Z then csn_dd n x else csn_val n x) with (Ok (csnf n sd i x)).
  - cbn [bind]. replace (Z.of_nat i + 1)%Z with (Z.of_nat (S i)) by lia. rewrite IH. f_equal. ring.
  - unfold csnf. destruct (sd =? Z.of_nat i)%Z; [rewrite <- csn_dd_ok|rewrite <- csn_val_ok]; auto.
Qed.
Lemma csn_eq x n s c sd : (1 <= n <= 4)%Z -> length c = length x ->
  csn x n s (Some c) sd = Ok (let v := gprod (csnf n sd) 0 (ndiff x c s) / s ^ length x in if (0 <=? sd)%Z then v / s ^ 2 else v).
Proof.
  intros N L. unfold csn. rewrite L, Nat.eqb_refl. cbn [negb]. change 0%Z with (Z.of_nat 0) at 1. rewrite csn_loop_prod by auto. cbn [bind]. fold (ndiff x c s). rewrite Rmult_1_l. reflexivity.
Qed.
Lemma csn_none x n s sd : csn x n s None sd = csn x n s (Some (repeat 0 (length x))) sd.
Proof. reflexivity. Qed.
(** the two glitches: the n=2 code drops the points at distance exactly sigma/2, the n=4 code counts those at sigma/2 and 3 sigma/2 twice *)
Definition off_knots (n : nat) (x c : list R) (s : R) := forall i, (i < length x)%nat ->
  (n = 2%nat -> Rabs (nth i x 0 - nth i c 0) <> s / 2) /\ (n = 4%nat -> Rabs (nth i x 0 - nth i c 0) <> s / 2 /\ Rabs (nth i x 0 - nth i c 0) <> 3 * s / 2).
Lemma Rabs_div a s : 0 < s -> Rabs (a / s) = Rabs a / s.
Proof. intros. unfold Rdiv. rewrite Rabs_mult, (Rabs_right (/ s)); auto. left. apply Rinv_0_lt_compat; auto. Qed.
Lemma csn_val_bspline n x : (1 <= n <= 4)%nat -> (n = 2%nat -> Rabs x <> 1/2) -> (n = 4%nat -> Rabs x <> 1/2 /\ Rabs x <> 3/2) -> csn_val (Z.of_nat n) x = Ok (bspline n x).
Proof.
  intros N A B. assert (n = 1 \/ n = 2 \/ n = 3 \/ n = 4)%nat as [ -> |[ -> |[ -> | -> ]]] by lia.
  - apply csn1. - apply csn2; auto. - apply csn3. - apply csn4; apply B; auto.
Qed.
Lemma div_ne a s k : 0 < s -> a <> k * s -> a / s <> k.
Proof. intros S N E. apply N. rewrite <- E. field. lra. Qed.

(** value away from the glitches: product of B-splines of degree n scaled to sigma, centred at c *)
Theorem C53_normal_value : forall x c n s, 0 < s -> (1 <= n <= 4)%nat -> length c = length x -> off_knots n x c s ->
  csn x (Z.of_nat n) s (Some c) (-1) = Ok (dens n x c s).
Proof.
  intros x c n s SP N L O. rewrite csn_eq by (auto; lia). cbn [Z.leb Z.compare]. f_equal. unfold dens. f_equal. apply gprod_ext. intros j J.
  rewrite ndiff_len in J by auto. rewrite ndiff_nth by auto. unfold csnf. destruct (Z.eqb_spec (-1) (Z.of_nat (0 + j))); [lia|].
  destruct (O j J) as [O2 O4]. rewrite csn_val_bspline; [reflexivity|auto| |]; intros Q; rewrite Rabs_div by auto.
  - apply div_ne; auto. specialize (O2 Q). lra.
  - destruct (O4 Q). split; apply div_ne; auto; lra.
Qed.
Print Assumptions C53_normal_value.
(** the B-splines are the iterated convolutions with the unit box the code's comments name, and have unit mass *)
Theorem C53_bspline_spec : (forall n x, (1 <= n <= 3)%nat -> derivable_pt_lim (bspline (S n)) x (bspline n (x + 1/2) - bspline n (x - 1/2)))
  /\ (forall x, Rabs x < 1 -> bspline 1 x = 1 - Rabs x)
  /\ (forall n x, (1 <= n <= 4)%nat -> half_support n <= Rabs x -> bspline n x = 0)
  /\ (forall n, (1 <= n <= 4)%nat -> exists Phi, (forall x, derivable_pt_lim Phi x (bspline n x)) /\ (forall x, x <= - half_support n -> Phi x = 0) /\ (forall x, half_support n <= x -> Phi x = 1)).
Proof.
  split; [|split; [|split]].
  - intros n x N. rewrite <- bspline_recursion by auto. apply bspline_deriv. lia.
  - intros x H. pose proof (csn1 x) as E. unfold csn_val in E. cbn [Z.eqb Pos.eqb] in E. injection E as <-. unfold ind, ltb. destruct Rlt_dec; lra.
  - intros. apply bspline_support; auto.
  - apply bspline_mass.
Qed.
Print Assumptions C53_bspline_spec.
Lemma csn_val_nonneg n x : (1 <= n <= 4)%nat -> 0 <= val_of (csn_val (Z.of_nat n) x).
Proof.
  intros N. destruct (Req_dec (Rabs x) (1/2)) as [E|E]; [|destruct (Req_dec (Rabs x) (3/2)) as [E'|E']].
  - destruct (Nat.eq_dec n 2) as [ -> |N2]; [|destruct (Nat.eq_dec n 4) as [ -> |N4]].
    + change (Z.of_nat 2) with 2%Z. rewrite (proj1 (csn2_bad x E)). cbn. lra.
    + change (Z.of_nat 4) with 4%Z. destruct (csn4_bad x (or_introl E)) as [ -> ?]. cbn. lra.
    + rewrite csn_val_bspline by (auto; lia). cbn. apply bspline_nonneg; auto.
  - destruct (Nat.eq_dec n 4) as [ -> |N4].
    + change (Z.of_nat 4) with 4%Z. destruct (csn4_bad x (or_intror E')) as [ -> ?]. cbn. lra.
    + rewrite csn_val_bspline by (auto; lia). cbn. apply bspline_nonneg; auto.
  - rewrite csn_val_bspline by auto. cbn. apply bspline_nonneg; auto.
Qed.
(** never negative, for every point including the glitches *)
Theorem C53_normal_nonneg : forall x c n s, 0 < s -> (1 <= n <= 4)%nat -> length c = length x ->
  exists v, csn x (Z.of_nat n) s (Some c) (-1) = Ok v /\ 0 <= v.
Proof.
  intros x c n s SP N L. rewrite csn_eq by (auto; lia). cbn [Z.leb Z.compare]. eexists. split; [reflexivity|].
  apply Rmult_le_pos; [|left; apply Rinv_0_lt_compat, pow_lt; auto]. apply gprod_nonneg. intros j y. unfold csnf. destruct (Z.eqb_spec (-1) (Z.of_nat j)); [lia|]. apply csn_val_nonneg; auto.
Qed.
Print Assumptions C53_normal_nonneg.
(** zero as soon as one coordinate is (n+1)/2 sigma away from the centre *)
Theorem C53_normal_support : forall x c n s i, 0 < s -> (1 <= n <= 4)%nat -> length c = length x -> (i < length x)%nat ->
  (INR n + 1) / 2 * s <= Rabs (nth i x 0 - nth i c 0) -> csn x (Z.of_nat n) s (Some c) (-1) = Ok 0.
Proof.
  intros x c n s i SP N L I H. rewrite csn_eq by (auto; lia). cbn [Z.leb Z.compare]. rewrite (gprod_zero _ _ 0 i); [f_equal; unfold Rdiv; ring|rewrite ndiff_len; auto|].
  rewrite ndiff_nth by auto. unfold csnf. destruct (Z.eqb_spec (-1) (Z.of_nat (0 + i))); [lia|].
  assert (K : half_support n <= Rabs ((nth i x 0 - nth i c 0) / s)). { rewrite Rabs_div by auto. apply (Rmult_le_reg_r s); auto. unfold Rdiv. rewrite (Rmult_assoc (Rabs _)), Rinv_l, Rmult_1_r by lra. exact H. }
  rewrite csn_val_bspline; [cbn; apply bspline_support; auto|auto| |]; intros -> ; unfold half_support in K; cbn [INR] in K; [|split]; intros E; rewrite E in K; lra.
Qed.
Print Assumptions C53_normal_support.
Lemma csn_val_even n x : csn_val n (- x) = csn_val n x.
Proof. unfold csn_val. rewrite Rabs_Ropp. replace ((-x)^2) with (x^2) by ring. reflexivity. Qed.
(** symmetric: exchanging the point and the centre does not change the value *)
Theorem C53_normal_symmetric : forall x c n s, 0 < s -> (1 <= n <= 4)%nat -> length c = length x ->
  csn x (Z.of_nat n) s (Some c) (-1) = csn c (Z.of_nat n) s (Some x) (-1).
Proof.
  intros x c n s SP N L. rewrite !csn_eq by (auto; lia). rewrite L. f_equal. cbn [Z.leb Z.compare]. f_equal.
  assert (Q : forall i a b, length a = length b -> gprod (csnf (Z.of_nat n) (-1)) i (ndiff a b s) = gprod (csnf (Z.of_nat n) (-1)) i (ndiff b a s)).
  { intros i a. revert i. induction a as [|u a IH]; intros i [|w b] E; try discriminate; auto. unfold ndiff in *. cbn [combine map fst snd gprod]. rewrite (IH (S i) b) by (cbn in E; lia). f_equal.
    unfold csnf. destruct (Z.eqb_spec (-1) (Z.of_nat i)); [lia|]. rewrite <- csn_val_even. do 2 f_equal. field. lra. }
  apply Q. auto.
Qed.
Print Assumptions C53_normal_symmetric.
Lemma dens_cont n x c s eps : 0 < s -> (1 <= n <= 4)%nat -> length c = length x -> 0 < eps ->
  exists d, 0 < d /\ forall y, near x y d -> Rabs (dens n y c s - dens n x c s) < eps.
Proof.
  intros SP N L EP. assert (PP : 0 < s ^ length x) by (apply pow_lt; auto).
  destruct (gprod_cont (fun _ => bspline n) (ndiff x c s) 0 (eps * s ^ length x)) as (d & D & H).
  - intros j u e E. apply bspline_cont; auto.
  - apply Rmult_lt_0_compat; auto.
  - exists (d * s). split; [apply Rmult_lt_0_compat; auto|]. intros y Y. specialize (H _ (ndiff_near x c s y d SP (eq_sym L) Y)).
    unfold dens. rewrite (proj1 Y). match goal with |- Rabs ?z < _ => replace z with ((gprod (fun _ => bspline n) 0 (ndiff y c s) - gprod (fun _ => bspline n) 0 (ndiff x c s)) * / s ^ length x) by (unfold Rdiv; ring) end.
    rewrite Rabs_mult, (Rabs_right (/ _)) by (left; apply Rinv_0_lt_compat; auto). apply (Rmult_lt_reg_r (s ^ length x)); auto. rewrite Rmult_assoc, Rinv_l, Rmult_1_r by lra. exact H.
Qed.
(** continuity: for n = 1 and n = 3 everywhere *)
Theorem C53_normal_continuous_odd : forall x c n s eps, 0 < s -> n = 1%nat \/ n = 3%nat -> length c = length x -> 0 < eps ->
  exists d, 0 < d /\ forall y, near x y d -> exists vx vy, csn x (Z.of_nat n) s (Some c) (-1) = Ok vx /\ csn y (Z.of_nat n) s (Some c) (-1) = Ok vy /\ Rabs (vy - vx) < eps.
Proof.
  intros x c n s eps SP N L EP. destruct (dens_cont n x c s eps) as (d & D & H); auto; [lia|]. exists d. split; auto. intros y Y.
  exists (dens n x c s), (dens n y c s). rewrite !C53_normal_value; auto; try lia; try (rewrite (proj1 Y); auto); intros i I; split; intros; lia.
Qed.
Print Assumptions C53_normal_continuous_odd.
(** ... and it fails for n = 2 (value 0 between values near 1/2) and n = 4 (value doubled) *)
Theorem C53_normal_discontinuous_refuted : forall n, n = 2%nat \/ n = 4%nat ->
  exists e, 0 < e /\ forall d, 0 < d -> exists y vx vy, Rabs (y - 1/2) < d /\ csn [1/2] (Z.of_nat n) 1 None (-1) = Ok vx /\ csn [y] (Z.of_nat n) 1 None (-1) = Ok vy /\ e < Rabs (vy - vx).
Proof.
  intros n N. assert (A : Rabs (1/2) = 1/2) by (rewrite Rabs_right; lra).
  assert (EX : forall x, csn [x] (Z.of_nat n) 1 None (-1) = Ok (val_of (csn_val (Z.of_nat n) x))).
  { intros x. rewrite csn_none. rewrite csn_eq by (auto; lia). unfold ndiff. cbn [length repeat combine map fst snd gprod Z.leb Z.compare pow]. f_equal. unfold csnf. cbn [Z.eqb Z.of_nat].
    replace ((x - 0) / 1) with x by field. field. }
  assert (B : 0 < bspline n (1/2)). { destruct N as [ -> | -> ]; [rewrite (proj2 (csn2_bad _ A)); lra| apply (proj2 (csn4_bad _ (or_introl A)))]. }
  assert (V : exists v, csn_val (Z.of_nat n) (1/2) = Ok v /\ Rabs (bspline n (1/2) - v) = bspline n (1/2)).
  { destruct N as [ -> | -> ]; [exists 0|exists (2 * bspline 4 (1/2))]; split.
    - apply (proj1 (csn2_bad _ A)). - rewrite Rminus_0_r. apply Rabs_right. lra.
    - apply (proj1 (csn4_bad _ (or_introl A))). - rewrite Rabs_left; lra. }
  destruct V as (v & V & W). exists (bspline n (1/2) / 2). split; [lra|]. intros d D.
  destruct (bspline_cont n (1/2) (bspline n (1/2) / 2)) as (d' & D' & H); [lia|lra|].
  set (h := Rmin (Rmin d d') 1 / 2). pose proof (Rmin_l (Rmin d d') 1). pose proof (Rmin_r (Rmin d d') 1). pose proof (Rmin_l d d'). pose proof (Rmin_r d d').
  assert (HP : 0 < h <= 1/2) by (unfold h; split; [|lra]; apply Rdiv_lt_0_compat; [|lra]; repeat apply Rmin_pos; lra).
  assert (Y : Rabs (1/2 + h - 1/2) = h) by (replace (1/2 + h - 1/2) with h by ring; apply Rabs_right; lra).
  exists (1/2 + h), v, (bspline n (1/2 + h)). rewrite Y. split; [unfold h; lra|]. rewrite !EX, V. split; [reflexivity|]. split.
  - rewrite csn_val_bspline; [reflexivity|lia| |]; intros; rewrite Rabs_right by lra; [lra|]. split; [lra|]. unfold h. intros Q. assert (Rmin (Rmin d d') 1 = 2) by lra. lra.
  - specialize (H (1/2 + h)). rewrite Y in H. specialize (H ltac:(unfold h; lra)).
    pose proof (Rabs_triang (bspline n (1/2 + h) - v) (bspline n (1/2) - bspline n (1/2 + h))) as T. replace (bspline n (1/2 + h) - v + (bspline n (1/2) - bspline n (1/2 + h))) with (bspline n (1/2) - v) in T by ring.
    rewrite W in T. rewrite (Rabs_minus_sym (bspline n (1/2))) in T. lra.
Qed.
Print Assumptions C53_normal_discontinuous_refuted.
(** the second derivative option, n = 3 and 4 away from the glitches: it is the second derivative of the density along coordinate i *)
Lemma deriv_val f x l l' : l = l' -> derivable_pt_lim f x l' -> derivable_pt_lim f x l.
Proof. intros ->. auto. Qed.
Lemma chain_line (h : R -> R) a s x l : 0 < s -> derivable_pt_lim h ((x - a) / s) l -> derivable_pt_lim (fun t => h ((t - a) / s)) x (l / s).
Proof.
  intros SP D. apply (derivable_pt_lim_comp (fun t => (t - a) / s) h); [|exact D].
  apply (deriv_ext _ (fun t => / s * (t - a))); [intros; unfold Rdiv; ring|]. apply (deriv_val _ _ _ (/ s * (1 - 0))); [ring|]. apply (derivable_pt_lim_scal (fun t => t - a)). apply derivable_pt_lim_minus; [apply derivable_pt_lim_id|apply derivable_pt_lim_const].
Qed.
Lemma chain_line2 (h : R -> R) a s x l : 0 < s -> derivable_pt_lim h ((a - x) / s) l -> derivable_pt_lim (fun t => h ((a - t) / s)) x (- l / s).
Proof.
  intros SP D. replace (- l / s) with (l * (- / s)) by (field; lra). apply (derivable_pt_lim_comp (fun t => (a - t) / s) h); [|exact D].
  apply (deriv_ext _ (fun t => / s * (a - t))); [intros; unfold Rdiv; ring|]. apply (deriv_val _ _ _ (/ s * (0 - 1))); [ring|]. apply (derivable_pt_lim_scal (fun t => a - t)). apply derivable_pt_lim_minus; [apply derivable_pt_lim_const|apply derivable_pt_lim_id].
Qed.

Lemma set_set (l : list R) i a b : set_nth (set_nth l i a) i b = set_nth l i b.
Proof. revert i. induction l as [|x l IH]; intros [|i]; cbn; auto. f_equal. apply IH. Qed.
Lemma nth_set_same (l : list R) i a : (i < length l)%nat -> nth i (set_nth l i a) 0 = a.
Proof. revert i. induction l as [|x l IH]; intros [|i] H; cbn in *; try lia; auto. apply IH. lia. Qed.
Lemma nth_set_other (l : list R) i j a : i <> j -> nth j (set_nth l i a) 0 = nth j l 0.
Proof. revert i j. induction l as [|x l IH]; intros [|i] [|j] H; cbn in *; try lia; auto. Qed.
Lemma set_self (l : list R) i : set_nth l i (nth i l 0) = l.
Proof. revert i. induction l as [|x l IH]; intros [|i]; cbn; auto. f_equal. apply IH. Qed.
(** derivative of a product along coordinate j as a function of t at any t *)
Lemma gprod_line (f g : nat -> R -> R) xs j t : (j < length xs)%nat -> derivable_pt_lim (f j) t (g j t) -> (forall k, k <> j -> forall y, f k y = g k y) ->
  derivable_pt_lim (fun u => gprod f 0 (set_nth xs j u)) t (gprod g 0 (set_nth xs j t)).
Proof.
  intros J D O. pose proof (gprod_deriv f g (set_nth xs j t) 0 j (g j t)) as Q. cbn [Nat.add] in Q. rewrite set_nth_length, nth_set_same in Q by auto.
  apply (deriv_ext _ (fun u => gprod f 0 (set_nth (set_nth xs j t) j u))); [intros; rewrite set_set; reflexivity|]. apply Q; auto.
Qed.
Lemma csn_dd_bspline n x : n = 3%nat \/ n = 4%nat -> (n = 4%nat -> Rabs x <> 1/2 /\ Rabs x <> 3/2) -> csn_dd (Z.of_nat n) x = Ok (bspline2 n x).
Proof. intros [ -> | -> ] H; [apply csn3_dd|apply csn4_dd; apply H; auto]. Qed.
Theorem C53_normal_second_derivative : forall x c n s i, 0 < s -> n = 3%nat \/ n = 4%nat -> length c = length x -> (i < length x)%nat -> off_knots n x c s ->
  exists g v, (forall t, derivable_pt_lim (fun u => dens n (set_nth x i u) c s) t (g t))
   /\ derivable_pt_lim g (nth i x 0) v /\ csn x (Z.of_nat n) s (Some c) (Z.of_nat i) = Ok v.
Proof.
  intros x c n s i SP N L I O. pose proof (pow_lt s (length x) SP) as PP.
  set (f0 := fun (_ : nat) => bspline n). set (f1 := fun j => if Nat.eqb j i then bspline1 n else bspline n). set (f2 := fun j => if Nat.eqb j i then bspline2 n else bspline n).
  set (xn := ndiff x c s). set (a := nth i c 0).
  assert (LX : (i < length xn)%nat) by (unfold xn; rewrite ndiff_len; auto).
  exists (fun t => gprod f1 0 (set_nth xn i ((t - a) / s)) / s / s ^ length x), (gprod f2 0 xn / s / s / s ^ length x). split; [|split].
  - intros t. apply (deriv_ext _ (fun u => / s ^ length x * gprod f0 0 (set_nth xn i ((u - a) / s)))).
    + intros u. unfold dens. rewrite set_nth_length, ndiff_set by auto. unfold Rdiv. rewrite Rmult_comm. reflexivity.
    + match goal with |- derivable_pt_lim _ _ ?v => replace v with (/ s ^ length x * (gprod f1 0 (set_nth xn i ((t - a) / s)) / s)) by (unfold Rdiv; ring) end.
      apply (derivable_pt_lim_scal (fun u => gprod f0 0 (set_nth xn i ((u - a) / s)))).
      apply (chain_line (fun w => gprod f0 0 (set_nth xn i w))); auto. apply gprod_line; auto.
      * unfold f0, f1. rewrite Nat.eqb_refl. apply bspline_deriv. lia.
      * intros k K y. unfold f0, f1. destruct (Nat.eqb_spec k i); [contradiction|reflexivity].
  - apply (deriv_ext _ (fun u => / s ^ length x * / s * gprod f1 0 (set_nth xn i ((u - a) / s)))); [intros; unfold Rdiv; ring|].
    match goal with |- derivable_pt_lim _ _ ?v => replace v with (/ s ^ length x * / s * (gprod f2 0 xn / s)) by (unfold Rdiv; ring) end.
    apply (derivable_pt_lim_scal (fun u => gprod f1 0 (set_nth xn i ((u - a) / s)))).
    apply (chain_line (fun w => gprod f1 0 (set_nth xn i w))); auto.
    assert (E : (nth i x 0 - a) / s = nth i xn 0) by (unfold xn; rewrite ndiff_nth by auto; reflexivity). rewrite E. rewrite <- (set_self xn i) at 2. apply gprod_line; auto.
    + unfold f1, f2. rewrite Nat.eqb_refl. apply bspline1_deriv. lia.
    + intros k K y. unfold f1, f2. destruct (Nat.eqb_spec k i); [contradiction|reflexivity].
  - rewrite csn_eq by (auto; lia). f_equal. destruct (Z.leb_spec 0 (Z.of_nat i)); [|lia]. cbv zeta. fold xn.
    replace (gprod (csnf (Z.of_nat n) (Z.of_nat i)) 0 xn) with (gprod f2 0 xn); [field; split; lra|].
    apply gprod_ext. intros j J. unfold xn in J. rewrite ndiff_len in J by auto. unfold xn. rewrite ndiff_nth by auto. cbn [Nat.add]. unfold f2, csnf.
    destruct (O j J) as [O2 O4].
    assert (K : n = 4%nat -> Rabs ((nth j x 0 - nth j c 0) / s) <> 1/2 /\ Rabs ((nth j x 0 - nth j c 0) / s) <> 3/2).
    { intros Q. rewrite Rabs_div by auto. destruct (O4 Q). split; apply div_ne; auto; lra. }
    destruct (Nat.eqb_spec j i) as [ -> |NE].
    + rewrite Z.eqb_refl. rewrite csn_dd_bspline; auto.
    + destruct (Z.eqb_spec (Z.of_nat i) (Z.of_nat j)); [lia|]. rewrite csn_val_bspline; auto; lia.
Qed.
Print Assumptions C53_normal_second_derivative.
(** an unsupported order raises *)
Theorem C53_normal_bad_order : forall x r c n s sd, (n < 1 \/ 4 < n)%Z -> length c = S (length r) -> csn (x :: r) n s (Some c) sd = Err UnboundLocalError.
Proof.
  intros x r c n s sd N L. unfold csn. cbn [length]. rewrite L, Nat.eqb_refl. cbn [negb]. destruct c as [|c0 c]; [discriminate|]. cbn [combine map csn_loop fst snd].
  destruct (sd =? 0)%Z; [rewrite csn_other_dd|rewrite csn_other]; auto.
Qed.
(** ---- compactly_supported_normal_kernel ---- *)
Definition kf (d0 d1 : Z) (i : nat) : R -> R := kfactor d0 d1 (Z.of_nat i).
Lemma k_loop_prod d0 d1 xs i v : k_loop d0 d1 (Z.of_nat i) xs v = v * gprod (kf d0 d1) i xs.
Proof.
  revert i v. induction xs as [|x r IH]; intros i v; cbn [k_loop gprod]; [ring|]. replace (Z.of_nat i + 1)%Z with (Z.of_nat (S i)) by lia. rewrite IH. unfold kf. ring.
Qed.
Definition order (d0 d1 : Z) : nat := (if (d0 =? -1)%Z then 0 else 1) + (if (d1 =? -1)%Z then 0 else 1).
Lemma kernel_eq x1 x2 len sc d0 d1 : 0 < len -> length x1 = length x2 ->
  kernel x1 x2 len sc d0 d1 = Ok (gprod (kf d0 d1) 0 (ndiff x1 x2 len) / len ^ length x1 * sc / len ^ order d0 d1).
Proof.
  intros LP L. unfold kernel. rewrite L, Nat.eqb_refl. cbn [negb]. fold (ndiff x1 x2 len). pose proof (k_loop_prod d0 d1 (ndiff x1 x2 len) 0 1) as KL. change (Z.of_nat 0) with 0%Z in KL. rewrite KL, Rmult_1_l. f_equal. unfold order.
  pose proof (pow_lt len (length x2) LP).
  destruct (d0 =? -1)%Z, (d1 =? -1)%Z; cbn [andb orb Nat.add pow]; field; repeat split; lra.
Qed.
Lemma kf_spec d0 d1 i x : kf d0 d1 i x = (if (d0 =? Z.of_nat i)%Z then if (d1 =? Z.of_nat i)%Z then - bspline2 3 x else bspline1 3 x else if (d1 =? Z.of_nat i)%Z then - bspline1 3 x else bspline 3 x).
Proof.
  unfold kf, kfactor. destruct (d0 =? Z.of_nat i)%Z, (d1 =? Z.of_nat i)%Z; cbn [negb andb].
  - rewrite <- k3_dd. reflexivity. - rewrite <- k3_d. reflexivity. - rewrite <- k3_d. reflexivity. - rewrite <- k3_val. reflexivity.
Qed.
(** value: the cubic B-spline density between the two points *)
Theorem C53_kernel_value : forall x1 x2 len sc, 0 < len -> length x1 = length x2 -> kernel x1 x2 len sc (-1) (-1) = Ok (sc * dens 3 x1 x2 len).
Proof.
  intros x1 x2 len sc LP L. rewrite kernel_eq by auto. f_equal. unfold dens, order. cbn [Z.eqb Pos.eqb Nat.add pow].
  replace (gprod (kf (-1) (-1)) 0 (ndiff x1 x2 len)) with (gprod (fun _ => bspline 3) 0 (ndiff x1 x2 len)); [field; apply Rgt_not_eq, pow_lt; auto|].
  apply gprod_ext. intros j J. rewrite kf_spec. destruct (Z.eqb_spec (-1) (Z.of_nat (0 + j))); [lia|]. reflexivity.
Qed.
Print Assumptions C53_kernel_value.
Theorem C53_kernel_nonneg_support_symmetric : forall x1 x2 len sc, 0 < len -> 0 <= sc -> length x1 = length x2 ->
  exists v, kernel x1 x2 len sc (-1) (-1) = Ok v /\ kernel x2 x1 len sc (-1) (-1) = Ok v /\ 0 <= v
   /\ (forall i, (i < length x1)%nat -> 2 * len <= Rabs (nth i x1 0 - nth i x2 0) -> v = 0).
Proof.
  intros x1 x2 len sc LP SP L. exists (sc * dens 3 x1 x2 len). rewrite !C53_kernel_value by auto. split; [reflexivity|]. split; [|split].
  - do 2 f_equal. unfold dens. rewrite <- L. f_equal.
    assert (Q : forall i a b, length a = length b -> gprod (fun _ => bspline 3) i (ndiff a b len) = gprod (fun _ => bspline 3) i (ndiff b a len)).
    { intros i a. revert i. induction a as [|u a IH]; intros i [|w b] E; try discriminate; auto. unfold ndiff in *. cbn [combine map fst snd gprod]. rewrite (IH (S i) b) by (cbn in E; lia). f_equal.
      rewrite <- bspline_even by lia. f_equal. field. lra. }
    apply Q. auto.
  - apply Rmult_le_pos; auto. apply Rmult_le_pos; [|left; apply Rinv_0_lt_compat, pow_lt; auto]. apply gprod_nonneg. intros. apply bspline_nonneg; lia.
  - intros i I H. unfold dens. rewrite (gprod_zero _ _ 0 i); [unfold Rdiv; ring|rewrite ndiff_len; auto|]. rewrite ndiff_nth by auto. apply bspline_support; [lia|]. unfold half_support. cbn [INR].
    rewrite Rabs_div by auto. apply (Rmult_le_reg_r len); auto. unfold Rdiv at 2. rewrite Rmult_assoc, Rinv_l by lra. lra.
Qed.
Print Assumptions C53_kernel_nonneg_support_symmetric.
(** the derivative options are the derivatives, everywhere: first argument ... *)
Theorem C53_kernel_derivative_first : forall x1 x2 len sc i, 0 < len -> length x1 = length x2 -> (i < length x1)%nat ->
  derivable_pt_lim (fun t => val_of (kernel (set_nth x1 i t) x2 len sc (-1) (-1))) (nth i x1 0) (val_of (kernel x1 x2 len sc (Z.of_nat i) (-1))).
Proof.
  intros x1 x2 len sc i LP L I. pose proof (pow_lt len (length x1) LP) as PP. set (xn := ndiff x1 x2 len). set (a := nth i x2 0).
  assert (LX : (i < length xn)%nat) by (unfold xn; rewrite ndiff_len; auto).
  apply (deriv_ext _ (fun u => / len ^ length x1 * sc * gprod (kf (-1) (-1)) 0 (set_nth xn i ((u - a) / len)))).
  - intros u. rewrite kernel_eq by (auto; rewrite set_nth_length; auto). cbn [val_of]. rewrite set_nth_length, ndiff_set by auto. cbn. fold a xn. field. lra.
  - rewrite kernel_eq by auto. cbn [val_of]. fold xn. unfold order. destruct (Z.eqb_spec (Z.of_nat i) (-1)); [lia|]. cbn [Z.eqb Pos.eqb Nat.add pow].
    match goal with |- derivable_pt_lim _ _ ?v => replace v with (/ len ^ length x1 * sc * (gprod (kf (Z.of_nat i) (-1)) 0 xn / len)) by (field; split; lra) end.
    apply (derivable_pt_lim_scal (fun u => gprod (kf (-1) (-1)) 0 (set_nth xn i ((u - a) / len)))). apply (chain_line (fun w => gprod (kf (-1) (-1)) 0 (set_nth xn i w))); auto.
    assert (E : (nth i x1 0 - a) / len = nth i xn 0) by (unfold xn; rewrite ndiff_nth by auto; reflexivity). rewrite E. rewrite <- (set_self xn i) at 2. apply gprod_line; auto.
    + rewrite kf_spec. rewrite Z.eqb_refl. destruct (Z.eqb_spec (-1) (Z.of_nat i)); [lia|].
      apply (deriv_ext _ (bspline 3)); [|apply bspline_deriv; lia]. intros y. rewrite kf_spec. destruct (Z.eqb_spec (-1) (Z.of_nat i)); [lia|]. reflexivity.
    + intros k K y. rewrite !kf_spec. destruct (Z.eqb_spec (-1) (Z.of_nat k)); [lia|]. destruct (Z.eqb_spec (Z.of_nat i) (Z.of_nat k)); [lia|]. reflexivity.
Qed.
Print Assumptions C53_kernel_derivative_first.
(** ... and second argument, after no (d = -1) or one (d = i) derivative in the first *)
Theorem C53_kernel_derivative_second : forall x1 x2 len sc d j, 0 < len -> length x1 = length x2 -> (j < length x2)%nat -> (-1 <= d)%Z ->
  derivable_pt_lim (fun t => val_of (kernel x1 (set_nth x2 j t) len sc d (-1))) (nth j x2 0) (val_of (kernel x1 x2 len sc d (Z.of_nat j))).
Proof.
  intros x1 x2 len sc d j LP L J DD. pose proof (pow_lt len (length x1) LP) as PP. set (xn := ndiff x1 x2 len). set (a := nth j x1 0).
  assert (LX : (j < length xn)%nat) by (unfold xn; rewrite ndiff_len; lia). set (q := order d (-1)). pose proof (pow_lt len q LP) as QP.
  apply (deriv_ext _ (fun u => / len ^ length x1 * sc * / len ^ q * gprod (kf d (-1)) 0 (set_nth xn j ((a - u) / len)))).
  - intros u. rewrite kernel_eq by (auto; rewrite set_nth_length; auto). cbn [val_of]. rewrite ndiff_set2 by auto. fold a xn q. field. split; lra.
  - rewrite kernel_eq by auto. cbn [val_of]. fold xn. replace (order d (Z.of_nat j)) with (S q) by (unfold q, order; destruct (Z.eqb_spec (Z.of_nat j) (-1)); [lia|]; destruct (d =? -1)%Z; reflexivity). cbn [pow].
    set (g := fun k y => if Nat.eqb k j then - kf d (Z.of_nat j) k y else kf d (Z.of_nat j) k y).
    assert (GM : forall xs i0 k0, (k0 < length xs)%nat -> (i0 + k0)%nat = j -> gprod g i0 xs = - gprod (kf d (Z.of_nat j)) i0 xs).
    { induction xs as [|y xs IH]; intros i0 k0 K E; cbn [length gprod] in *; [lia|]. destruct k0 as [|k0].
      - replace (gprod g (S i0) xs) with (gprod (kf d (Z.of_nat j)) (S i0) xs). + unfold g. destruct (Nat.eqb_spec i0 j); [ring|lia].
        + apply gprod_ext. intros m M. unfold g. destruct (Nat.eqb_spec (S i0 + m) j); [lia|reflexivity].
      - rewrite (IH (S i0) k0) by lia. unfold g. destruct (Nat.eqb_spec i0 j); [lia|ring]. }
    match goal with |- derivable_pt_lim _ _ ?v => replace v with (/ len ^ length x1 * sc * / len ^ q * (- gprod g 0 xn / len)) by (rewrite (GM xn 0%nat j) by lia; field; repeat split; lra) end.
    apply (derivable_pt_lim_scal (fun u => gprod (kf d (-1)) 0 (set_nth xn j ((a - u) / len)))). apply (chain_line2 (fun w => gprod (kf d (-1)) 0 (set_nth xn j w))); auto.
    assert (E : (a - nth j x2 0) / len = nth j xn 0) by (unfold xn; rewrite ndiff_nth by (auto; lia); reflexivity). rewrite E. rewrite <- (set_self xn j) at 2. apply gprod_line; auto.
    + unfold g. rewrite Nat.eqb_refl. rewrite kf_spec, Z.eqb_refl. destruct (Z.eqb_spec d (Z.of_nat j)).
      * rewrite Ropp_involutive. apply (deriv_ext _ (bspline1 3)); [|apply bspline1_deriv; lia]. intros y. rewrite kf_spec. destruct (Z.eqb_spec (-1) (Z.of_nat j)); [lia|]. destruct (Z.eqb_spec d (Z.of_nat j)); [reflexivity|contradiction].
      * rewrite Ropp_involutive. apply (deriv_ext _ (bspline 3)); [|apply bspline_deriv; lia]. intros y. rewrite kf_spec. destruct (Z.eqb_spec (-1) (Z.of_nat j)); [lia|]. destruct (Z.eqb_spec d (Z.of_nat j)); [contradiction|reflexivity].
    + intros k K y. unfold g. destruct (Nat.eqb_spec k j); [contradiction|]. rewrite !kf_spec. destruct (Z.eqb_spec (-1) (Z.of_nat k)); [lia|]. destruct (Z.eqb_spec (Z.of_nat j) (Z.of_nat k)); [lia|]. reflexivity.
Qed.
Print Assumptions C53_kernel_derivative_second.
Theorem C53_kernel_continuous : forall x1 x2 len sc eps, 0 < len -> length x1 = length x2 -> 0 < eps ->
  exists d, 0 < d /\ forall y1, near x1 y1 d -> Rabs (val_of (kernel y1 x2 len sc (-1) (-1)) - val_of (kernel x1 x2 len sc (-1) (-1))) < eps.
Proof.
  intros x1 x2 len sc eps LP L EP. assert (SP : 0 < Rabs sc + 1) by (pose proof (Rabs_pos sc); lra).
  destruct (dens_cont 3 x1 x2 len (eps / (Rabs sc + 1))) as (d & D & H); [auto|lia|auto|apply Rdiv_lt_0_compat; auto|]. exists d. split; auto. intros y Y. specialize (H y Y).
  rewrite !C53_kernel_value by (auto; rewrite (proj1 Y); auto). cbn [val_of]. rewrite <- Rmult_minus_distr_l, Rabs_mult. pose proof (Rabs_pos sc). pose proof (Rabs_pos (dens 3 y x2 len - dens 3 x1 x2 len)).
  apply Rle_lt_trans with ((Rabs sc + 1) * Rabs (dens 3 y x2 len - dens 3 x1 x2 len)); [apply Rmult_le_compat_r; lra|]. apply Rlt_le_trans with ((Rabs sc + 1) * (eps / (Rabs sc + 1))); [apply Rmult_lt_compat_l; auto|]. right. field. lra.
Qed.
Print Assumptions C53_kernel_continuous.
Example C53_nonvacuous : csn [0] 3 1 None (-1) = Ok (2/3) /\ off_knots 2 [0; 1] [0; 0] 1.
Proof.
  split.
  - rewrite csn_none. change 3%Z with (Z.of_nat 3). cbn [length repeat]. rewrite C53_normal_value; [|lra|lia|reflexivity|intros i I; split; intros; lia]. f_equal. unfold dens, ndiff. cbn [combine map fst snd gprod length pow].
    replace ((0-0)/1) with 0 by field. unfold bspline, tpow; cbn [knots fold_right fst snd]. rewrite (pp_pos (0 - -2)), (pp_pos (0 - -1)), (pp_neg (0-0)), (pp_neg (0 - 1)), (pp_neg (0 - 2)) by lra. facts. field.
  - intros [|[|i]] I; cbn in *; try lia; split; intros; try lia; [rewrite Rminus_0_r, Rabs_R0 | rewrite Rminus_0_r, Rabs_R1]; lra.
Qed.
