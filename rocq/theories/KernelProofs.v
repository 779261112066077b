From Coq Require Import Reals Lra Lia ZArith List Bool.
From Verif Require Import PyExn Vec KernelModel KernelSpec.
Import ListNotations.
Open Scope R_scope.

Lemma pp_pos x : 0 <= x -> pospart x = x. Proof. intros. apply Rmax_left; lra. Qed.
Lemma pp_neg x : x <= 0 -> pospart x = 0. Proof. intros. apply Rmax_right; lra. Qed.
Lemma pp_lip x y : Rabs (pospart x - pospart y) <= Rabs (x - y).
Proof. unfold pospart, Rmax, Rabs. repeat destruct Rle_dec; repeat destruct Rcase_abs; lra. Qed.

(** derivative of a truncated power *)
Lemma glue_deriv f f1 f2 x l (d : posreal) :
  (forall y, x - d < y -> y <= x -> f y = f1 y) -> (forall y, x <= y -> y < x + d -> f y = f2 y) ->
  derivable_pt_lim f1 x l -> derivable_pt_lim f2 x l -> derivable_pt_lim f x l.
Proof.
  intros H1 H2 D1 D2 eps EP. destruct (D1 eps EP) as (d1 & E1). destruct (D2 eps EP) as (d2 & E2).
  assert (DP : 0 < Rmin d (Rmin d1 d2)) by (repeat apply Rmin_pos; apply cond_pos).
  exists (mkposreal _ DP). cbn. intros h NH LH.
  pose proof (Rmin_l d (Rmin d1 d2)). pose proof (Rmin_r d (Rmin d1 d2)). pose proof (Rmin_l d1 d2). pose proof (Rmin_r d1 d2).
  pose proof (Rle_abs h). pose proof (Rle_abs (- h)). rewrite Rabs_Ropp in *. pose proof (cond_pos d).
  destruct (Rle_lt_dec 0 h).
  - rewrite (H2 (x + h)) by lra. rewrite (H2 x) by lra. apply E2; auto. lra.
  - rewrite (H1 (x + h)) by lra. rewrite (H1 x) by lra. apply E1; auto. lra.
Qed.
Lemma deriv_ext f g x l : (forall y, f y = g y) -> derivable_pt_lim g x l -> derivable_pt_lim f x l.
Proof. intros E D eps EP. destruct (D eps EP) as (d & H). exists d. intros h NH LH. rewrite !E. apply H; auto. Qed.
Lemma deriv_ext_loc f g x l (d : posreal) : (forall y, Rabs (y - x) < d -> f y = g y) -> derivable_pt_lim g x l -> derivable_pt_lim f x l.
Proof.
  intros E D. apply (glue_deriv f g g x l d); auto; intros; apply E; unfold Rabs; destruct Rcase_abs; lra.
Qed.
Lemma pow_shift_deriv p k x : derivable_pt_lim (fun y => (y - k) ^ S p) x (INR (S p) * (x - k) ^ p).
Proof.
  replace (INR (S p) * (x - k) ^ p) with (INR (S p) * (x - k) ^ (pred (S p)) * 1) by (cbn [pred]; ring).
  apply (derivable_pt_lim_comp (fun y => y - k) (fun y => y ^ S p)).
  - replace 1 with (1 - 0) by ring. apply derivable_pt_lim_minus; [apply derivable_pt_lim_id | apply derivable_pt_lim_const].
  - apply derivable_pt_lim_pow.
Qed.
Lemma pp_deriv p k x : (1 <= p)%nat \/ x <> k -> derivable_pt_lim (fun y => pospart (y - k) ^ S p) x (INR (S p) * (if Req_EM_T 0 (pospart (x-k)) then 0 else pospart (x - k) ^ p)).
Proof.
  intros C. destruct (total_order_T x k) as [[L|E]|G].
  - rewrite pp_neg by lra. destruct Req_EM_T; [|lra]. rewrite Rmult_0_r.
    assert (DP : 0 < k - x) by lra. apply (deriv_ext_loc _ (fun _ => 0) x 0 (mkposreal _ DP)); [|apply derivable_pt_lim_const].
    cbn. intros y Y. rewrite pp_neg; [cbn; ring|]. unfold Rabs in Y. destruct Rcase_abs; lra.
  - destruct C as [C|C]; [|lra]. subst k. rewrite pp_neg by lra. destruct Req_EM_T; [|lra]. rewrite Rmult_0_r.
    apply (glue_deriv _ (fun _ => 0) (fun y => (y - x) ^ S p) x 0 (mkposreal 1 Rlt_0_1)).
    + intros. rewrite pp_neg by lra. cbn; ring.
    + intros. rewrite pp_pos by lra. reflexivity.
    + apply derivable_pt_lim_const.
    + pose proof (pow_shift_deriv p x x) as D. replace (INR (S p) * (x - x) ^ p) with 0 in D; [exact D|]. replace (x - x) with 0 by ring. rewrite pow_i by lia. ring.
  - rewrite pp_pos by lra. destruct Req_EM_T; [lra|].
    assert (DP : 0 < x - k) by lra. apply (deriv_ext_loc _ (fun y => (y - k) ^ S p) x _ (mkposreal _ DP)); [|apply pow_shift_deriv].
    cbn. intros y Y. rewrite pp_pos; [reflexivity|]. unfold Rabs in Y. destruct Rcase_abs; lra.
Qed.
Lemma pp_deriv1 p k x : (1 <= p)%nat -> derivable_pt_lim (fun y => pospart (y - k) ^ S p) x (INR (S p) * pospart (x - k) ^ p).
Proof.
  intros P. replace (pospart (x - k) ^ p) with (if Req_EM_T 0 (pospart (x-k)) then 0 else pospart (x - k) ^ p); [apply pp_deriv; auto|].
  destruct Req_EM_T as [E|]; [|reflexivity]. rewrite <- E. rewrite pow_i by lia. reflexivity.
Qed.
Lemma tpow_deriv p l x : (1 <= p)%nat -> derivable_pt_lim (tpow (S p) l) x (INR (S p) * tpow p l x).
Proof.
  intros P. induction l as [|[c k] l IH]; cbn [tpow fold_right fst snd].
  - rewrite Rmult_0_r. apply derivable_pt_lim_const.
  - match goal with |- derivable_pt_lim _ _ ?v => replace v with (c * (INR (S p) * pospart (x - k) ^ p) + INR (S p) * tpow p l x) by (unfold tpow; ring) end.
    apply (derivable_pt_lim_plus (fun y => c * pospart (y - k) ^ S p) (tpow (S p) l)); [|exact IH].
    apply (derivable_pt_lim_scal (fun y => pospart (y - k) ^ S p)). apply pp_deriv1; auto.
Qed.
Lemma fact_pos n : INR (fact n) <> 0. Proof. apply INR_fact_neq_0. Qed.
Lemma bspline_deriv n x : (2 <= n)%nat -> derivable_pt_lim (bspline n) x (bspline1 n x).
Proof.
  intros N. unfold bspline, bspline1. destruct n as [|n]; [lia|]. replace (S n - 1)%nat with n by lia.
  apply (deriv_ext _ (fun y => / INR (fact (S n)) * tpow (S n) (knots (S n)) y)); [intros; unfold Rdiv; ring|].
  replace (tpow n (knots (S n)) x / INR (fact n)) with (/ INR (fact (S n)) * (INR (S n) * tpow n (knots (S n)) x)).
  - apply (derivable_pt_lim_scal (tpow (S n) (knots (S n)))). apply tpow_deriv. lia.
  - rewrite fact_simpl, mult_INR. field. split; [apply fact_pos|apply not_0_INR; lia].
Qed.
Lemma bspline1_deriv n x : (3 <= n)%nat -> derivable_pt_lim (bspline1 n) x (bspline2 n x).
Proof.
  intros N. unfold bspline2, bspline1. destruct n as [|[|n]]; try lia. replace (S (S n) - 1)%nat with (S n) by lia. replace (S (S n) - 2)%nat with n by lia.
  set (K := knots (S (S n))).
  apply (deriv_ext _ (fun y => / INR (fact (S n)) * tpow (S n) K y)); [intros; unfold Rdiv; ring|].
  replace (tpow n K x / INR (fact n)) with (/ INR (fact (S n)) * (INR (S n) * tpow n K x)).
  - apply (derivable_pt_lim_scal (tpow (S n) K)). apply tpow_deriv. lia.
  - rewrite fact_simpl, mult_INR. field. split; [apply fact_pos|apply not_0_INR; lia].
Qed.

(** the spec really is the repeated convolution with the unit box: b_{n+1}' (x) = b_n(x+1/2) - b_n(x-1/2), all vanish outside the support *)
Lemma bspline_recursion n x : (1 <= n <= 3)%nat -> bspline1 (S n) x = bspline n (x + 1/2) - bspline n (x - 1/2).
Proof.
  intros N. assert (n = 1 \/ n = 2 \/ n = 3)%nat as [ -> |[ -> | -> ]] by lia; unfold bspline1, bspline, tpow; cbn [Nat.sub knots fold_right fst snd];
  set (F1 := INR (fact _)); assert (F1 <> 0) by (unfold F1; apply fact_pos);
  repeat match goal with |- context [pospart (x + 1/2 - ?k)] => replace (x + 1/2 - k) with (x - (k - 1/2)) by ring end;
  repeat match goal with |- context [pospart (x - 1/2 - ?k)] => replace (x - 1/2 - k) with (x - (k + 1/2)) by ring end.
  - replace (-1 - 1/2) with (-(3/2)) by lra. replace (0 - 1/2) with (-(1/2)) by lra. replace (1 - 1/2) with (1/2) by lra.
    replace (-1 + 1/2) with (-(1/2)) by lra. replace (0 + 1/2) with (1/2) by lra. replace (1 + 1/2) with (3/2) by lra. field. auto.
  - replace (-(3/2) - 1/2) with (-2) by lra. replace (-(1/2) - 1/2) with (-1) by lra. replace (1/2 - 1/2) with 0 by lra. replace (3/2 - 1/2) with 1 by lra.
    replace (-(3/2) + 1/2) with (-1) by lra. replace (-(1/2) + 1/2) with 0 by lra. replace (1/2 + 1/2) with 1 by lra. replace (3/2 + 1/2) with 2 by lra. field. auto.
  - replace (-2 - 1/2) with (-(5/2)) by lra. replace (-1 - 1/2) with (-(3/2)) by lra. replace (0 - 1/2) with (-(1/2)) by lra. replace (1 - 1/2) with (1/2) by lra. replace (2 - 1/2) with (3/2) by lra.
    replace (-2 + 1/2) with (-(3/2)) by lra. replace (-1 + 1/2) with (-(1/2)) by lra. replace (0 + 1/2) with (1/2) by lra. replace (1 + 1/2) with (3/2) by lra. replace (2 + 1/2) with (5/2) by lra. field. auto.
Qed.

(** case analysis tactics *)
Lemma pp_cases x : (0 <= x /\ pospart x = x) \/ (x < 0 /\ pospart x = 0).
Proof. destruct (Rle_lt_dec 0 x); [left|right]; split; auto; [apply pp_pos|apply pp_neg]; lra. Qed.
Ltac pps := repeat match goal with |- context [pospart ?e] => let L := fresh in let E := fresh in destruct (pp_cases e) as [[L E]|[L E]]; rewrite E in *; clear E end.
Ltac inds := unfold ind, ltb, leb; repeat (match goal with |- context [Rlt_dec ?a ?b] => destruct (Rlt_dec a b) | |- context [Rle_dec ?a ?b] => destruct (Rle_dec a b) end; try (exfalso; lra)).
Ltac facts := cbn [fact Nat.mul Nat.add Nat.sub]; repeat match goal with |- context [INR ?k] => let v := eval compute in (Z.of_nat k) in change (INR k) with (INR k) ; rewrite (INR_IZR_INZ k); change (Z.of_nat k) with v end.
(** the coded pieces *)
Ltac absx x := let L := fresh in destruct (Rle_lt_dec 0 x) as [L|L]; [rewrite (Rabs_right x) by lra | rewrite (Rabs_left x) by lra].
Ltac go x := unfold bspline, bspline1, bspline2, tpow; cbn [Nat.sub knots fold_right fst snd pow]; facts; absx x; inds; pps; try (exfalso; lra); try lra; try (solve [field]);
  try (solve [first [replace x with 0 by lra | replace x with 1 by lra | replace x with (-1) by lra | replace x with 2 by lra | replace x with (-2) by lra
    | replace x with (1/2) by lra | replace x with (-(1/2)) by lra | replace x with (3/2) by lra | replace x with (-(3/2)) by lra | replace x with (5/2) by lra | replace x with (-(5/2)) by lra]; lra]).

Lemma k3_val x : ind (ltb (Rabs x) 1) * (3 * Rabs x^3 - 6 * Rabs x^2 + 4) * (1/6) + ind (leb (Rabs x) 2) * ind (leb 1 (Rabs x)) * (- Rabs x^3 + 6 * Rabs x^2 - 12 * Rabs x + 8) * (1/6) = bspline 3 x.
Proof. go x. Qed.

Lemma k3_d x : let a := Rabs x in let sign := ind (leb 0 x) * 1 + ind (ltb x 0) * -1 in
  ind (ltb a 1) * (9 * sign * a^2 - 12 * x) * (1/6) + ind (leb a 2) * ind (leb 1 a) * (-3 * sign * x^2 + 12 * x - 12 * sign) * (1/6) = bspline1 3 x.
Proof. cbv zeta. go x. Qed.
Lemma k3_dd x : let a := Rabs x in
  ind (ltb a 1) * (3*3*2*a - 12) * (1/6) + ind (leb a 2) * ind (leb 1 a) * (-3*2*a + 12) * (1/6) = bspline2 3 x.
Proof. cbv zeta. go x. Qed.
Lemma csn3 x : csn_val 3 x = Ok (bspline 3 x).
Proof. unfold csn_val. cbn [Z.eqb Pos.eqb]. f_equal. apply k3_val. Qed.
Lemma csn3_dd x : csn_dd 3 x = Ok (bspline2 3 x).
Proof. unfold csn_dd. cbn [Z.eqb Pos.eqb]. f_equal. apply k3_dd. Qed.
Lemma csn1 x : csn_val 1 x = Ok (bspline 1 x).
Proof. unfold csn_val. cbn [Z.eqb Pos.eqb]. f_equal. go x. Qed.
Lemma csn2 x : Rabs x <> 1/2 -> csn_val 2 x = Ok (bspline 2 x).
Proof. intros N. unfold csn_val. cbn [Z.eqb Pos.eqb]. f_equal. revert N. go x. Qed.
Lemma csn2_bad x : Rabs x = 1/2 -> csn_val 2 x = Ok 0 /\ bspline 2 x = 1/2.
Proof.
  intros N. unfold csn_val. cbn [Z.eqb Pos.eqb]. split.
  - f_equal. rewrite N. inds; lra.
  - assert (x = 1/2 \/ x = -(1/2)) as [ -> | -> ] by (unfold Rabs in N; destruct Rcase_abs; lra).
    + unfold bspline, tpow; cbn [knots fold_right fst snd pow]. facts. pps; lra.
    + unfold bspline, tpow; cbn [knots fold_right fst snd pow]. facts. pps; lra.
Qed.
Lemma csn4 x : Rabs x <> 1/2 -> Rabs x <> 3/2 -> csn_val 4 x = Ok (bspline 4 x).
Proof. intros N N'. unfold csn_val. cbn [Z.eqb Pos.eqb]. f_equal. revert N N'. go x. Qed.
Lemma csn4_bad x : Rabs x = 1/2 \/ Rabs x = 3/2 -> csn_val 4 x = Ok (2 * bspline 4 x) /\ 0 < bspline 4 x.
Proof.
  intros N.
  assert (x = 1/2 \/ x = -(1/2) \/ x = 3/2 \/ x = -(3/2)) as [ -> |[ -> |[ -> | -> ]]] by (unfold Rabs in N; destruct Rcase_abs, N; lra);
  clear N; unfold csn_val; cbn [Z.eqb Pos.eqb].
  all: split; [f_equal; match goal with |- context [Rabs ?e] => absx e; try lra end; inds; unfold bspline, tpow; cbn [knots fold_right fst snd pow]; facts; pps; lra
   | unfold bspline, tpow; cbn [knots fold_right fst snd pow]; facts; pps; lra].
Qed.
Lemma csn_other n x : (n < 1 \/ 4 < n)%Z -> csn_val n x = Err UnboundLocalError.
Proof. intros N. unfold csn_val. destruct (Z.eqb_spec n 2), (Z.eqb_spec n 1), (Z.eqb_spec n 3), (Z.eqb_spec n 4); try lia. reflexivity. Qed.
Lemma csn_other_dd n x : (n < 1 \/ 4 < n)%Z -> csn_dd n x = Err UnboundLocalError.
Proof. intros N. unfold csn_dd. destruct (Z.eqb_spec n 2), (Z.eqb_spec n 1), (Z.eqb_spec n 3), (Z.eqb_spec n 4); try lia. reflexivity. Qed.
Lemma csn4_dd x : Rabs x <> 1/2 -> Rabs x <> 3/2 -> csn_dd 4 x = Ok (bspline2 4 x).
Proof. intros N N'. unfold csn_dd. cbn [Z.eqb Pos.eqb]. f_equal. revert N N'. go x. Qed.
