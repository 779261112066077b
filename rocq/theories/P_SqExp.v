(** C69: squared_exponential_kernel.  Code: SqExpModel.v *)
From Coq Require Import Reals Lra Psatz ZArith List Bool Lia.
From Verif Require Import PyExn Vec LoopsModel LoopsProofs MatModel MatProofs Subdiv3Proofs BiharmProofs Biharm2Proofs TopoModel SubdivModel SqExpModel SqExpProofs.
Import ListNotations.
Open Scope R_scope.

(** -- specification -- *)
(** squared Euclidean distance; the Gaussian; a point with coordinate i replaced *)
Definition sqdist (x y : list R) : R := sumn (length x) (fun i => (nth i x 0 - nth i y 0) ^ 2).
Definition gauss (len scale : R) (x y : list R) : R := scale * exp (- sqdist x y / (2 * len ^ 2)).
Notation with_coord := set_nth (only parsing).

(** -- proofs -- *)
Lemma sqdist_dot x : forall y, length x = length y -> dotl (subl x y) (subl x y) = sqdist x y.
Proof.
  unfold sqdist. induction x as [|a x IH]; intros [|b y] H; try discriminate; [reflexivity|]. cbn [subl dotl length]. rewrite IH by (cbn in H; lia). replace (S (length x)) with (1 + length x)%nat by lia. rewrite sumn_app. f_equal. unfold sumn. cbn. ring.
Qed.
Lemma sek_gauss x y len scale : length x = length y -> len <> 0 -> sek_val (subl x y) len scale = gauss len scale x y.
Proof. intros H Hl. unfold sek_val, gauss. rewrite sqdist_dot by exact H. f_equal. f_equal. field. exact Hl. Qed.
Lemma subl_nth x : forall y i, length x = length y -> (i < length x)%nat -> nth_error (subl x y) i = Some (nth i x 0 - nth i y 0).
Proof. induction x as [|a x IH]; intros [|b y] [|i] H L; try discriminate; cbn in *; try lia; [reflexivity|]. apply IH; lia. Qed.
Lemma subl_get x y i : length x = length y -> (i < length x)%nat -> getZ (subl x y) (Z.of_nat i) = Some (nth i x 0 - nth i y 0).
Proof.
  intros H L. unfold getZ, norm_index. assert (length (subl x y) = length x) as E. { clear L. revert y H. induction x as [|a x IH]; intros [|b y] H; try discriminate; cbn; [reflexivity|]. f_equal. apply IH. cbn in H. lia. }
  rewrite E. destruct (Z.leb_spec 0 (Z.of_nat i)); [|lia]. destruct (Z.ltb_spec (Z.of_nat i) (Z.of_nat (length x))); [|lia]. cbn [andb]. rewrite Nat2Z.id. apply subl_nth; assumption.
Qed.
Lemma nth_set x i t j : (i < length x)%nat -> nth j (set_nth x i t) 0 = if Nat.eqb j i then t else nth j x 0.
Proof. revert i j. induction x as [|a x IH]; intros [|i] [|j] L; cbn in *; try lia; try reflexivity. apply IH. lia. Qed.
Lemma sqdist_set_l x y i t : length x = length y -> (i < length x)%nat -> sqdist (set_nth x i t) y = (t - nth i y 0) ^ 2 + (sqdist x y - (nth i x 0 - nth i y 0) ^ 2).
Proof.
  intros H L. unfold sqdist. rewrite set_nth_length. assert (forall n (f g : nat -> R), (i < n)%nat -> (forall j, j <> i -> f j = g j) -> sumn n f = f i + (sumn n g - g i)) as G.
  { intros n f g Hi E. rewrite (sumn_ext n f (fun j => g j + (f i - g i) * (if Nat.eqb j i then 1 else 0))).
    - rewrite sumn_plus. rewrite (ElastProofs.pick n (fun _ => f i - g i)) by exact Hi. ring.
    - intros j _. destruct (Nat.eqb_spec j i) as [ -> | N ]; [ring|rewrite E by exact N; ring]. }
  rewrite (G (length x) _ (fun j => (nth j x 0 - nth j y 0) ^ 2) L). - rewrite nth_set, Nat.eqb_refl by exact L. reflexivity.
  - intros j N. rewrite nth_set by exact L. destruct (Nat.eqb_spec j i); [contradiction|reflexivity].
Qed.
Lemma sqdist_sym x y : length x = length y -> sqdist x y = sqdist y x.
Proof. intro H. unfold sqdist. rewrite H. apply sumn_ext. intros. ring. Qed.
Lemma gauss_sym len scale x y : length x = length y -> gauss len scale x y = gauss len scale y x.
Proof. intro H. unfold gauss. rewrite (sqdist_sym x y H). reflexivity. Qed.
Lemma sqdist_set_r x y i t : length x = length y -> (i < length x)%nat -> sqdist x (set_nth y i t) = (t - nth i x 0) ^ 2 + (sqdist x y - (nth i x 0 - nth i y 0) ^ 2).
Proof. intros H L. rewrite sqdist_sym by (rewrite set_nth_length; exact H). rewrite sqdist_set_l by (auto; lia). rewrite (sqdist_sym y x) by auto. ring. Qed.
Lemma deriv_ext f g x l : (forall y, f y = g y) -> derivable_pt_lim g x l -> derivable_pt_lim f x l.
Proof. intros E D eps EP. destruct (D eps EP) as (d & H). exists d. intros h NH LH. rewrite !E. apply H; auto. Qed.
Lemma bump_deriv a r len scale t0 : len <> 0 ->
  derivable_pt_lim (fun t => scale * exp (- ((t - a) ^ 2 + r) / (2 * len ^ 2))) t0 (- (t0 - a) / len ^ 2 * (scale * exp (- ((t0 - a) ^ 2 + r) / (2 * len ^ 2)))).
Proof.
  intro Hl. set (q := fun t => - ((t - a) ^ 2 + r) / (2 * len ^ 2)).
  assert (derivable_pt_lim q t0 (- (t0 - a) / len ^ 2)) as D.
  { assert (forall t, q t = (- / (2 * len ^ 2)) * (t * t) + ((a / len ^ 2) * t + (- (a ^ 2 + r) / (2 * len ^ 2)))) as E by (intro t; unfold q; field; exact Hl).
    replace (- (t0 - a) / len ^ 2) with ((- / (2 * len ^ 2)) * (1 * t0 + t0 * 1) + ((a / len ^ 2) * 1 + 0)) by (field; exact Hl).
    apply (deriv_ext _ _ _ _ E).
    apply derivable_pt_lim_plus; [|apply derivable_pt_lim_plus; [|apply derivable_pt_lim_const]].
    - apply (derivable_pt_lim_scal (fun t => t * t)). apply (derivable_pt_lim_mult id id); apply derivable_pt_lim_id.
    - apply (derivable_pt_lim_scal id). apply derivable_pt_lim_id. }
  replace (- (t0 - a) / len ^ 2 * (scale * exp (- ((t0 - a) ^ 2 + r) / (2 * len ^ 2)))) with (scale * (exp (q t0) * (- (t0 - a) / len ^ 2))) by (unfold q; ring).
  apply (derivable_pt_lim_scal (fun t => exp (q t))). apply (derivable_pt_lim_comp q exp); [exact D|apply derivable_pt_lim_exp].
Qed.

Lemma gauss_d1 len scale x y i t0 : len <> 0 -> length x = length y -> (i < length x)%nat ->
  derivable_pt_lim (fun t => gauss len scale (with_coord x i t) y) t0 (- (t0 - nth i y 0) / len ^ 2 * gauss len scale (with_coord x i t0) y).
Proof.
  intros Hl H L. unfold gauss. rewrite sqdist_set_l by assumption. eapply deriv_ext; [intro t; rewrite sqdist_set_l by assumption; reflexivity|]. apply bump_deriv, Hl.
Qed.
Lemma gauss_d2 len scale x y j t0 : len <> 0 -> length x = length y -> (j < length x)%nat ->
  derivable_pt_lim (fun t => gauss len scale x (with_coord y j t)) t0 ((nth j x 0 - t0) / len ^ 2 * gauss len scale x (with_coord y j t0)).
Proof.
  intros Hl H L. unfold gauss. rewrite sqdist_set_r by assumption. eapply deriv_ext; [intro t; rewrite sqdist_set_r by assumption; reflexivity|].
  replace ((nth j x 0 - t0) / len ^ 2) with (- (t0 - nth j x 0) / len ^ 2) by (field; exact Hl). apply bump_deriv, Hl.
Qed.
Lemma set_same x i : (i < length x)%nat -> set_nth x i (nth i x 0) = x.
Proof. revert i. induction x as [|a x IH]; intros [|i] L; cbn in *; try lia; [reflexivity|]. f_equal. apply IH. lia. Qed.

(** ** the value *)
Theorem C69_value : forall x y len scale, length x = length y -> len <> 0 ->
  sek_row x y len scale (-1) (-1) = Ok (gauss len scale x y) /\
  gauss len scale x y = gauss len scale y x /\
  (0 < scale -> 0 < gauss len scale x y <= scale /\ (gauss len scale x y = scale <-> x = y)).
Proof.
  intros x y len scale H Hl. split; [|split].
  - unfold sek_row. rewrite H, Nat.eqb_refl. cbn [negb]. destruct (Req_EM_T len 0); [contradiction|]. cbn. rewrite sek_gauss by assumption. reflexivity.
  - apply gauss_sym, H.
  - intro Hs. assert (0 <= sqdist x y) as P by (apply sumf_nonneg; intros; apply pow2_ge_0).
    assert (0 < / (2 * len ^ 2)) as L2. { apply Rinv_0_lt_compat. pose proof (Rsqr_pos_lt len Hl) as Q. unfold Rsqr in Q. cbn. lra. }
    assert (gauss len scale x y = scale * exp (- (sqdist x y * / (2 * len ^ 2)))) as E by (unfold gauss; f_equal; f_equal; unfold Rdiv; ring).
    assert (0 <= sqdist x y * / (2 * len ^ 2)) as Q by (apply Rmult_le_pos; lra).
    split.
    + rewrite E. pose proof (exp_pos (- (sqdist x y * / (2 * len ^ 2)))). split; [nra|].
      assert (exp (- (sqdist x y * / (2 * len ^ 2))) <= 1) by (rewrite <- exp_0; destruct Q as [Q|Q]; [left; apply exp_increasing; lra|rewrite <- Q, Ropp_0; lra]). nra.
    + rewrite E. split.
      * intro Z. assert (exp (- (sqdist x y * / (2 * len ^ 2))) = exp 0) as Z2 by (rewrite exp_0; apply (Rmult_eq_reg_l scale); lra). apply exp_inv in Z2.
        assert (sqdist x y = 0) as Z3. { assert (sqdist x y * / (2 * len ^ 2) = 0) as Z4 by lra. apply Rmult_integral in Z4 as [Z4|Z4]; lra. }
        apply (nth_ext x y 0 0 H). intros i Hi. unfold sqdist in Z3.
        assert (forall l, In i l -> sumf (fun i => (nth i x 0 - nth i y 0) ^ 2) l = 0 -> (nth i x 0 - nth i y 0) ^ 2 = 0) as G.
        { induction l as [|k l IH]; intros I S0; [destruct I|]. cbn [sumf] in S0. pose proof (pow2_ge_0 (nth k x 0 - nth k y 0)). assert (0 <= sumf (fun i => (nth i x 0 - nth i y 0) ^ 2) l) by (apply sumf_nonneg; intros; apply pow2_ge_0). destruct I as [ -> | I ]; [lra|]. apply IH; [exact I|lra]. }
        specialize (G (seq 0 (length x)) ltac:(apply in_seq; lia) Z3). apply Rminus_diag_uniq. apply Rsqr_0_uniq. unfold Rsqr. cbn in G. lra.
      * intros ->. assert (sqdist y y = 0) as -> by (apply sumf_zero; intros; ring). rewrite Rmult_0_l, Ropp_0, exp_0. ring.
Qed.
Print Assumptions C69_value.

(** ** the derivative options are the partial derivatives of the Gaussian *)
Theorem C69_derivatives : forall x y len scale, length x = length y -> len <> 0 ->
  (forall i, (i < length x)%nat -> exists v, sek_row x y len scale (Z.of_nat i) (-1) = Ok v /\
     derivable_pt_lim (fun t => gauss len scale (with_coord x i t) y) (nth i x 0) v) /\
  (forall j, (j < length x)%nat -> exists v, sek_row x y len scale (-1) (Z.of_nat j) = Ok v /\
     derivable_pt_lim (fun t => gauss len scale x (with_coord y j t)) (nth j y 0) v) /\
  (forall i j, (i < length x)%nat -> (j < length x)%nat -> exists v D, sek_row x y len scale (Z.of_nat i) (Z.of_nat j) = Ok v /\
     (forall t, derivable_pt_lim (fun u => gauss len scale (with_coord x i t) (with_coord y j u)) (nth j y 0) (D t)) /\
     derivable_pt_lim D (nth i x 0) v).
Proof.
  intros x y len scale H Hl.
  assert (Nat.eqb (length x) (length y) = true) as EL by (rewrite H; apply Nat.eqb_refl).
  assert (forall k, (Z.of_nat k =? -1)%Z = false) as N1 by (intro k; apply Z.eqb_neq; lia).
  split; [|split].
  - intros i Li. eexists. split.
    + unfold sek_row. rewrite EL. cbn [negb]. destruct (Req_EM_T len 0); [contradiction|]. rewrite N1. cbn [andb orb Z.eqb Pos.eqb]. replace (Z.max (Z.of_nat i) (-1)) with (Z.of_nat i) by lia. rewrite subl_get by assumption. cbn [lift bind].
      replace (Z.sgn (Z.of_nat i - -1)) with 1%Z by lia. reflexivity.
    + rewrite sek_gauss by assumption. pose proof (gauss_d1 len scale x y i (nth i x 0) Hl H Li) as D. rewrite set_same in D by exact Li.
      replace (- IZR 1 * (1 / len ^ 2) * (nth i x 0 - nth i y 0) * gauss len scale x y) with (- (nth i x 0 - nth i y 0) / len ^ 2 * gauss len scale x y) by (field; exact Hl). exact D.
  - intros j Lj. eexists. split.
    + unfold sek_row. rewrite EL. cbn [negb]. destruct (Req_EM_T len 0); [contradiction|]. rewrite N1. cbn [andb orb Z.eqb Pos.eqb]. replace (Z.max (-1) (Z.of_nat j)) with (Z.of_nat j) by lia. rewrite subl_get by assumption. cbn [lift bind].
      replace (Z.sgn (-1 - Z.of_nat j)) with (-1)%Z by lia. reflexivity.
    + rewrite sek_gauss by assumption. pose proof (gauss_d2 len scale x y j (nth j y 0) Hl H Lj) as D. rewrite set_same in D by lia.
      replace (- IZR (-1) * (1 / len ^ 2) * (nth j x 0 - nth j y 0) * gauss len scale x y) with ((nth j x 0 - nth j y 0) / len ^ 2 * gauss len scale x y) by (field; exact Hl). exact D.
  - intros i j Li Lj. eexists. exists (fun t => (nth j (with_coord x i t) 0 - nth j y 0) / len ^ 2 * gauss len scale (with_coord x i t) y). split; [|split].
    + unfold sek_row. rewrite EL. cbn [negb]. destruct (Req_EM_T len 0); [contradiction|]. rewrite !N1. cbn [andb orb]. rewrite !subl_get by assumption. cbn [lift bind]. reflexivity.
    + intro t. pose proof (gauss_d2 len scale (with_coord x i t) y j (nth j y 0) Hl) as D. rewrite !set_nth_length in D. specialize (D H Lj). rewrite set_same in D by lia. exact D.
    + rewrite sek_gauss by assumption. pose proof (gauss_d1 len scale x y i (nth i x 0) Hl H Li) as D. rewrite set_same in D by exact Li.
      destruct (Z.eqb_spec (Z.of_nat i) (Z.of_nat j)) as [E|N].
      * assert (i = j) as <- by lia.
        eapply deriv_ext. { intro t. rewrite nth_set, Nat.eqb_refl by exact Li. reflexivity. }
        assert (derivable_pt_lim (fun t => (t - nth i y 0) / len ^ 2) (nth i x 0) (/ len ^ 2)) as D1.
        { eapply deriv_ext. { intro t. replace ((t - nth i y 0) / len ^ 2) with (/ len ^ 2 * t + - nth i y 0 / len ^ 2) by (field; exact Hl). reflexivity. }
          replace (/ len ^ 2) with (/ len ^ 2 * 1 + 0) at 1 by ring. apply derivable_pt_lim_plus; [|apply derivable_pt_lim_const]. apply (derivable_pt_lim_scal id). apply derivable_pt_lim_id. }
        pose proof (derivable_pt_lim_mult _ _ _ _ _ D1 D) as M. cbv beta in M. rewrite set_same in M by exact Li.
        match goal with |- derivable_pt_lim _ _ ?v => match type of M with derivable_pt_lim _ _ ?w => replace v with w by (field; exact Hl) end end. exact M.
      * assert (j <> i) as NE by lia. eapply deriv_ext. { intro t. rewrite nth_set by exact Li. destruct (Nat.eqb_spec j i); [contradiction|reflexivity]. }
        pose proof (derivable_pt_lim_scal _ ((nth j x 0 - nth j y 0) / len ^ 2) _ _ D) as M.
        match goal with |- derivable_pt_lim _ _ ?v => match type of M with derivable_pt_lim _ _ ?w => replace v with w by (field; exact Hl) end end. exact M.
Qed.
Print Assumptions C69_derivatives.

(** ** arrays: row by row, one length for all rows or one per row *)
Theorem C69_rows : forall X1 X2 L scale indi indj vs,
  squared_exponential_kernel X1 X2 L scale indi indj = Ok vs ->
  length X1 = length X2 /\ length vs = length X1 /\
  forall k, (k < length X1)%nat -> sek_row (nth k X1 []) (nth k X2 []) (match L with LScalar l => l | LVec l => nth k l 0 end) scale indi indj = Ok (nth k vs 0).
Proof.
  intros X1 X2 L scale indi indj vs E. unfold squared_exponential_kernel in E.
  assert (forall X1 X2 L vs, sek_rows X1 X2 L scale indi indj = Ok vs -> length X1 = length X2 /\ length vs = length X1 /\ forall k, (k < length X1)%nat -> sek_row (nth k X1 []) (nth k X2 []) (nth k L 0) scale indi indj = Ok (nth k vs 0)) as G.
  { clear. induction X1 as [|x X1 IH]; intros [|y X2] [|l L] vs E; cbn in E; try discriminate.
    - injection E as <-. cbn. repeat split; auto. intros; lia.
    - destruct (sek_row x y l scale indi indj) as [v|] eqn:Ev; [|discriminate]. cbn in E. destruct (sek_rows X1 X2 L scale indi indj) as [ws|] eqn:Ew; [|discriminate]. cbn in E. injection E as <-. destruct (IH _ _ _ Ew) as (A & B & C). cbn. repeat split; try lia. intros [|k] Hk; [exact Ev|apply C; lia]. }
  destruct (G _ _ _ _ E) as (A & B & C). split; [exact A|]. split; [exact B|]. intros k Hk. specialize (C k Hk). destruct L as [l|l]; [|exact C]. rewrite <- C. f_equal. symmetry. clear - Hk. revert k Hk. induction (length X1) as [|n IH]; intros [|k] Hk; try lia; cbn; [reflexivity|]. apply IH. lia.
Qed.
Print Assumptions C69_rows.
Theorem C69_rows_total : forall d X1 X2 L scale indi indj, length X1 = length X2 -> (forall x, In x (X1 ++ X2) -> length x = d) ->
  match L with LScalar l => l <> 0 | LVec l => length l = length X1 /\ forall r, In r l -> r <> 0 end ->
  (-1 <= indi < Z.of_nat d)%Z -> (-1 <= indj < Z.of_nat d)%Z -> exists vs, squared_exponential_kernel X1 X2 L scale indi indj = Ok vs.
Proof.
  intros d X1 X2 L scale indi indj HL HD HLen Hi Hj. unfold squared_exponential_kernel.
  assert (forall X1 X2 L, length X1 = length X2 -> (forall x, In x (X1 ++ X2) -> length x = d) -> length L = length X1 -> (forall r, In r L -> r <> 0) -> exists vs, sek_rows X1 X2 L scale indi indj = Ok vs) as G.
  { clear - Hi Hj. induction X1 as [|x X1 IH]; intros [|y X2] [|l L] H D HL HN; try discriminate; [eexists; reflexivity|]. cbn [sek_rows].
    assert (length x = d) as Lx by (apply D; left; reflexivity). assert (length y = d) as Ly by (apply D; apply in_or_app; right; left; reflexivity).
    assert (l <> 0) as Nl by (apply HN; left; reflexivity).
    assert (exists v, sek_row x y l scale indi indj = Ok v) as (v & ->).
    { assert (forall k, (0 <= k < Z.of_nat d)%Z -> exists i, k = Z.of_nat i /\ (i < length x)%nat) as NAT by (intros k Hk; exists (Z.to_nat k); lia).
      destruct (Z.eq_dec indi (-1)) as [ -> | Ni ], (Z.eq_dec indj (-1)) as [ -> | Nj ].
      - eexists. apply C69_value; [congruence|exact Nl].
      - destruct (NAT indj) as (j & -> & Lj); [lia|]. destruct (proj1 (proj2 (C69_derivatives x y l scale ltac:(congruence) Nl)) j Lj) as (v & E & _). eauto.
      - destruct (NAT indi) as (i & -> & Li); [lia|]. destruct (proj1 (C69_derivatives x y l scale ltac:(congruence) Nl) i Li) as (v & E & _). eauto.
      - destruct (NAT indi) as (i & -> & Li); [lia|]. destruct (NAT indj) as (j & -> & Lj); [lia|]. destruct (proj2 (proj2 (C69_derivatives x y l scale ltac:(congruence) Nl)) i j Li Lj) as (v & D2 & E & _). eauto. }
    cbn [bind]. destruct (IH X2 L) as (vs & ->); [cbn in H; lia| |cbn in HL; lia|intros; apply HN; right; assumption|cbn; eauto].
    intros z Hz. apply D. cbn. right. apply in_app_iff in Hz as [Hz|Hz]; apply in_app_iff; [left; exact Hz|right; right; exact Hz]. }
  destruct L as [l|l].
  - apply G; auto; [apply repeat_length|]. intros r Hr. apply repeat_spec in Hr. subst r. exact HLen.
  - destruct HLen. apply G; auto.
Qed.

(** ** the kernel matrix of any points is positive semidefinite, and definite for distinct points *)
Theorem C69_positive_definite : forall d (X : list (list R)) len scale, (forall x, In x X -> length x = d) -> len <> 0 -> 0 < scale ->
  let n := length X in
  exists K : nat -> nat -> R, (forall a b, (a < n)%nat -> (b < n)%nat -> sek_row (nth a X []) (nth b X []) len scale (-1) (-1) = Ok (K a b)) /\
    (forall c : nat -> R, 0 <= sumn n (fun a => c a * sumn n (fun b => K a b * c b))) /\
    (NoDup X -> forall c : nat -> R, sumn n (fun a => c a * sumn n (fun b => K a b * c b)) = 0 -> forall a, (a < n)%nat -> c a = 0).
Proof.
  intros d X len scale HX Hl Hs n. set (x := fun a => nth a X []). assert (forall a, (a < n)%nat -> length (x a) = d) as Hx by (intros a Ha; apply HX, nth_In, Ha).
  exists (fun a b => sek_val (subl (x a) (x b)) len scale). split; [|split].
  - intros a b Ha Hb. unfold sek_row. fold (x a) (x b). rewrite !Hx by assumption. rewrite Nat.eqb_refl. cbn [negb]. destruct (Req_EM_T len 0); [contradiction|]. reflexivity.
  - intro c. apply (kform_nonneg n d x len scale Hx Hl Hs c).
  - intros ND c Z. apply (kform_definite n d x len scale Hx Hl Hs c); [|exact Z]. intros a b Ha Hb E. unfold x in E. eapply (proj1 (NoDup_nth X []) ND); eauto.
Qed.
Print Assumptions C69_positive_definite.

Example C69_nonvacuous : exists v, squared_exponential_kernel [[0; 1]; [2; 0]] [[0; 0]; [1; 1]] (LScalar 1) 3 (-1) (-1) = Ok v /\ nth 0 v 0 = 3 * exp (- (1 / 2)).
Proof.
  destruct (C69_rows_total 2 [[0; 1]; [2; 0]] [[0; 0]; [1; 1]] (LScalar 1) 3 (-1) (-1)) as (v & E); cbn; auto; try lia; try lra. { intros x H. intuition (subst; reflexivity). }
  exists v. split; [exact E|]. destruct (C69_rows _ _ _ _ _ _ _ E) as (_ & _ & H). specialize (H 0%nat ltac:(cbn; lia)). cbn [nth] in H. destruct (C69_value [0; 1] [0; 0] 1 3 eq_refl ltac:(lra)) as [V _]. rewrite V in H. injection H as H. rewrite <- H. unfold gauss, sqdist. cbn. f_equal. f_equal. unfold sumn. cbn. field.
Qed.
