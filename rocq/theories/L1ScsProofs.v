From Coq Require Import Reals Lra Psatz.
From Verif Require Import MatModel MatProofs Subdiv3Proofs BiharmProofs Biharm2Proofs NumpyModel PyExn ElastModel L1Model L1Proofs L1Spec.
Open Scope R_scope.

Definition gm (a : l1_args) (n : nat) : nat := (nr (the_G a n) / ad a)%nat.
Definition rest (a : l1_args) (n : nat) (u : list R) : R :=
  / 2 * match aQ a, aL a with Some Q, _ => quadratic Q u | None, Some L => sumn (nc L) (fun j => (sumn (nr L) (fun i => at_ L i j * nth i u 0)) ^ 2) | None, None => 0 end
  + match ac a with Some c => sumn n (fun i => nth i c 0 * nth i u 0) | None => 0 end.
Definition gnorm (a : l1_args) (n : nat) (u : list R) (i : nat) : R := enorm (ad a) (fun j => mv (the_G a n) u (ad a * i + j)%nat).
Lemma objective_split a n u : objective a n u = sumn (gm a n) (gnorm a n u) + rest a n u.
Proof. unfold objective, rest, mixed_norm, gm, gnorm. ring. Qed.

Lemma valid_G a n : valid a n -> def_G a n = the_G a n /\ nr (the_G a n) = (ad a * gm a n)%nat.
Proof.
  intros [D (C & m & E) _ _ _ _ _ _ _]. split; [reflexivity|]. unfold gm. rewrite E, (Nat.mul_comm (ad a) m), Nat.div_mul by lia. lia.
Qed.
Lemma fold_max_ge l : forall x, (x <= fold_left Z.max l x)%Z /\ (forall y, In y l -> (y <= fold_left Z.max l x)%Z).
Proof.
  induction l as [|z l IH]; intros x; cbn; [split; [lia|tauto]|]. destruct (IH (Z.max x z)) as (A & B). split; [lia|]. intros y [<-|I]; [lia|auto].
Qed.
Lemma fold_max_in l : forall x, In (fold_left Z.max l x) (x :: l).
Proof.
  induction l as [|z l IH]; intros x; cbn; [auto|]. destruct (IH (Z.max x z)) as [E|I]; [|auto]. destruct (Z.max_spec x z) as [[_ M]|[_ M]]; rewrite M in *; auto.
Qed.
Lemma infer_ok a n : valid a n -> infer_n a = Ok n.
Proof.
  intros [D (C & _) VQ VQL VL VC VK VA VN]. unfold infer_n, the_G in *. destruct (aG a) as [G|]; [congruence|]. destruct (aQ a) as [Q|]; [destruct (VQ Q eq_refl) as (_ & -> & _); auto|].
  destruct VN as [?|[?|[(L & E & H)|(E & VN)]]]; try congruence.
  - rewrite E. congruence.
  - rewrite E. destruct (ac a) as [c|]; [rewrite (VC c eq_refl); auto|]. destruct (aA a) as [A|]; [destruct (ab a); [destruct VA as (-> & _); auto|contradiction]|].
    destruct VN as [?|[?|(k & Ek & I)]]; try congruence. rewrite Ek in *. destruct (ay a) as [y|]; [|contradiction]. destruct VK as (_ & F). rewrite Forall_forall in F.
    destruct k as [|k0 k]; [destruct I|]. cbn [Zmax_list lift bind]. destruct (fold_max_ge k k0) as (G1 & G2). pose proof (F _ (fold_max_in k k0)) as G3.
    f_equal. destruct I as [I|I]; [|apply G2 in I]; lia.
Qed.
Lemma check_ok a n : valid a n -> check_shapes a n (ad a) (gm a n) (the_G a n) (def_c a n) = Ok tt.
Proof.
  intros V. destruct (valid_G a n V) as (_ & EG). destruct V as [D (C & _) VQ VQL VL VC VK VA VN]. unfold check_shapes.
  assert (E1 : length (def_c a n) = n) by (unfold def_c; destruct (ac a); [auto|apply repeat_length]). rewrite E1, Nat.eqb_refl. cbn [assert_ bind].
  rewrite EG, (Nat.mul_comm (ad a)), Nat.mod_mul by lia. cbn [Nat.eqb assert_ bind]. rewrite Nat.mul_comm, Nat.eqb_refl, C, Nat.eqb_refl. cbn [andb assert_ bind].
  destruct (ak a) as [k|], (ay a) as [y|]; try contradiction; cbn [is_none Bool.eqb assert_ bind]; [destruct VK as (-> & _); rewrite Nat.eqb_refl; cbn [assert_ bind]|];
    destruct (aA a) as [A|], (ab a) as [b|]; try contradiction; cbn [is_none Bool.eqb assert_ bind]; auto; destruct VA as (-> & -> & ->); rewrite !Nat.eqb_refl; auto.
Qed.
Lemma nth_firstn_lt (x : list R) n j : (j < n)%nat -> nth j (firstn n x) 0 = nth j x 0.
Proof. revert n j. induction x as [|y x IH]; intros n j H; [rewrite firstn_nil; auto|]. destruct n; [lia|]. destruct j; cbn; auto. apply IH. lia. Qed.
Lemma mv_rowsum M x i : mv M x i = rowsum M (X x) i. Proof. reflexivity. Qed.
Lemma rs_first M (x : list R) n i : nc M = n -> rowsum M (X x) i = mv M (firstn n x) i.
Proof. intros E. unfold mv. apply sumn_ext. intros j Hj. rewrite nth_firstn_lt by lia. auto. Qed.

(** quadratic forms *)
Lemma upper_full n (P : nat -> nat -> R) x : (forall i j, P i j = P j i) ->
  sumn n (fun i => P i i * x i * x i) + 2 * sumn n (fun i => sumn i (fun j => P j i * x j * x i)) = sumn n (fun i => x i * sumn n (fun j => P i j * x j)).
Proof.
  intros SY. induction n as [|n IH]; [cbn; ring|]. rewrite !sumn_S, (sumn_ext n (fun i => x i * sumn (S n) (fun j => P i j * x j)) (fun i => x i * sumn n (fun j => P i j * x j) + P n i * x i * x n)).
  - rewrite sumn_plus, <- IH. assert (E1 : sumn n (fun j => P j n * x j * x n) = sumn n (fun i => P n i * x i * x n)) by (apply sumn_ext; intros; rewrite SY; ring).
    assert (E2 : x n * sumn n (fun j => P n j * x j) = sumn n (fun i => P n i * x i * x n)) by (rewrite <- sumn_scal; apply sumn_ext; intros; ring).
    rewrite E1, Rmult_plus_distr_l with (r1 := x n), E2. ring.
  - intros i Hi. rewrite sumn_S, (SY i n). ring.
Qed.
Lemma upper_sym P x : nr P = nc P -> symmetric P -> upper_quadratic P x = quadratic P x.
Proof. intros E S. unfold upper_quadratic, quadratic, mv. rewrite <- E. apply (upper_full (nr P) (at_ P) (fun i => nth i x 0)). auto. Qed.
Lemma bd_sym Q m : nr Q = nc Q -> symmetric Q -> symmetric (block_diag2 Q (zeros m m)).
Proof.
  intros E S i j. unfold block_diag2, zeros. cbn [at_ nr nc]. rewrite E. destruct (Nat.ltb_spec i (nc Q)), (Nat.ltb_spec j (nc Q)); auto; apply S.
Qed.
Lemma bd_quad Q m n x : nr Q = n -> nc Q = n -> quadratic (block_diag2 Q (zeros m m)) x = quadratic Q (firstn n x).
Proof.
  intros E1 E2. unfold quadratic at 1. replace (nr (block_diag2 Q (zeros m m))) with (n + m)%nat by (cbn; lia). rewrite sumn_app.
  rewrite (sumn_ext m _ (fun _ => 0)). 2:{ intros i _. rewrite mv_rowsum, rs_bd. destruct (Nat.ltb_spec (n + i) (nr Q)); [lia|]. rewrite rs_zeros. ring. }
  unfold sumn at 2. rewrite sumf_zero by auto. rewrite Rplus_0_r. unfold quadratic. rewrite E1. apply sumn_ext. intros i Hi. rewrite mv_rowsum, rs_bd. destruct (Nat.ltb_spec i (nr Q)); [|lia].
  rewrite (rs_first _ _ n) by auto. rewrite nth_firstn_lt by lia. auto.
Qed.
(** u^T (L L^T) u = |L^T u|^2 *)
Lemma gram_form n p (L : nat -> nat -> R) u : sumn n (fun i => u i * sumn n (fun j => sumn p (fun k => L i k * L j k) * u j)) = sumn p (fun k => (sumn n (fun i => L i k * u i)) ^ 2).
Proof.
  transitivity (sumn n (fun i => sumn p (fun k => L i k * u i * sumn n (fun j => L j k * u j)))).
  - apply sumn_ext. intros i _. rewrite <- sumn_scal. rewrite (sumn_ext p _ (fun k => sumn n (fun j => u i * (L i k * L j k * u j)))) by (intros k _; rewrite <- sumn_scal; apply sumn_ext; intros; ring).
    rewrite sumn_swap. apply sumn_ext. intros j _. rewrite <- sumn_scal_r, <- sumn_scal. apply sumn_ext. intros; ring.
  - rewrite sumn_swap. apply sumn_ext. intros k _. rewrite sumn_scal_r. ring.
Qed.
Lemma mul_LLt L : exists q, mul L (transpose L) = Ok q /\ nr q = nr L /\ nc q = nr L /\ symmetric q /\ forall u, quadratic q u = sumn (nc L) (fun j => (sumn (nr L) (fun i => at_ L i j * nth i u 0)) ^ 2).
Proof.
  unfold mul, transpose. cbn [nc nr]. rewrite Nat.eqb_refl. eexists. split; [reflexivity|]. cbn [nr nc]. split; auto. split; auto. split.
  - intros i j. cbn. apply sumn_ext. intros. ring.
  - intros u. unfold quadratic, mv. cbn [nr nc at_]. apply (gram_form (nr L) (nc L) (at_ L) (fun i => nth i u 0)).
Qed.

(** the epigraph argument *)
Lemma sumn_le n f g : (forall i, (i < n)%nat -> f i <= g i) -> sumn n f <= sumn n g.
Proof. intros H. unfold sumn. apply sumf_le. intros i I. apply in_seq in I. apply H. lia. Qed.
Lemma nth_app_add (l r : list R) i : nth (length l + i) (l ++ r) 0 = nth i r 0.
Proof. rewrite app_nth2 by lia. f_equal. lia. Qed.
Lemma nth_rep0 k i : nth i (repeat 0 k) 0 = 0.
Proof. destruct (Nat.lt_ge_cases i k); [apply nth_repeat|apply nth_overflow; rewrite repeat_length; lia]. Qed.
Lemma nth_rep1 k i : (i < k)%nat -> nth i (repeat 1 k) 0 = 1.
Proof. intros H. rewrite (nth_indep _ 0 1) by (rewrite repeat_length; auto). apply nth_repeat. Qed.
Lemma krows_ok n k : Forall (fun i => (0 <= i < Z.of_nat n)%Z) k -> exists K, k_rows n k = Ok K /\ nr K = length k /\ nc K = n.
Proof.
  intros F. unfold k_rows. replace (forallb _ k) with true; [eexists; split; [reflexivity|auto]|]. symmetry. apply forallb_forall. intros x I. rewrite Forall_forall in F. apply F in I.
  apply andb_true_intro. split; [apply Z.leb_le|apply Z.ltb_lt]; lia.
Qed.
(** a block row with an optional first block of n columns and m zero columns *)
Lemma blk_ok m n o : (forall M, o = Some M -> nc M = n) -> exists B, blk m n o = Ok B /\ nr B = match o with Some M => nr M | None => 0%nat end /\ nc B = (n + m)%nat
  /\ (forall M x i, o = Some M -> rowsum B x i = rowsum M x i).
Proof.
  intros H. destruct o as [M|]; cbn [blk].
  - destruct (hs_ok M (zeros (nr M) m) eq_refl) as (C & E & R1 & R2 & R3). exists C. split; auto. split; auto. split; [rewrite R2, (H M eq_refl); auto|]. intros M' x i Q. injection Q as <-.
    rewrite R3, rs_zeros. ring.
  - eexists. split; [reflexivity|]. split; auto. split; auto. discriminate.
Qed.
Lemma enorm_1 v : enorm 1 v = Rabs (v 0%nat).
Proof. unfold enorm. cbn. rewrite Rplus_0_r. apply sqrt_Rsqr_abs. Qed.
Lemma enorm_ext k v w : (forall j, (j < k)%nat -> v j = w j) -> enorm k v = enorm k w.
Proof. intros H. unfold enorm. f_equal. apply sumn_ext. intros j Hj. rewrite H; auto. Qed.
Lemma in_socs_blocks d m off s : in_socs off (repeat (d + 1)%nat m) s <-> forall i, (i < m)%nat -> enorm d (fun j => s (off + i * (d + 1) + 1 + j)%nat) <= s (off + i * (d + 1))%nat.
Proof.
  revert off. induction m as [|m IH]; intros off; cbn [repeat in_socs]; [split; [intros; lia|auto]|]. rewrite IH. replace (d + 1 - 1)%nat with d by lia. split.
  - intros (H & K) [|i] Hi; [rewrite (enorm_ext d _ (fun j => s (off + 1 + j)%nat)) by (intros; f_equal; lia); replace (off + 0 * (d + 1))%nat with off by lia; auto|].
    specialize (K i ltac:(lia)). rewrite (enorm_ext d _ (fun j => s (off + (d + 1) + i * (d + 1) + 1 + j)%nat)) by (intros; f_equal; lia). replace (off + S i * (d + 1))%nat with (off + (d + 1) + i * (d + 1))%nat by lia. auto.
  - intros H. split.
    + specialize (H 0%nat ltac:(lia)). rewrite (enorm_ext d _ (fun j => s (off + 1 + j)%nat)) in H by (intros; f_equal; lia). replace (off + 0 * (d + 1))%nat with off in H by lia. auto.
    + intros i Hi. specialize (H (S i) ltac:(lia)). rewrite (enorm_ext d _ (fun j => s (off + (d + 1) + i * (d + 1) + 1 + j)%nat)) in H by (intros; f_equal; lia).
      replace (off + S i * (d + 1))%nat with (off + (d + 1) + i * (d + 1))%nat in H by lia. auto.
Qed.

Lemma sum_repeat k m : fold_right Nat.add 0%nat (repeat k m) = (m * k)%nat.
Proof. induction m as [|m IH]; cbn; [auto|rewrite IH; auto]. Qed.
Lemma scs_prog a n : valid a n -> (ad a = 1 \/ 0 < gm a n)%nat -> exists p, scs_build a = Ok (n, p) /\ scs_well_formed p /\ nc (s_A p) = (n + gm a n)%nat
  /\ (forall x, length x = (n + gm a n)%nat -> (scs_feasible p x <-> feasible a (firstn n x) /\ forall i, (i < gm a n)%nat -> 0 <= nth (n + i) x 0 /\ gnorm a n (firstn n x) i <= nth (n + i) x 0))
  /\ (forall x, length x = (n + gm a n)%nat -> scs_value p x = rest a n (firstn n x) + sumn (gm a n) (fun i => nth (n + i) x 0)).
Proof.
  intros V DM. pose proof (infer_ok a n V) as IN. pose proof (check_ok a n V) as CK. destruct (valid_G a n V) as (DG & RG). destruct V as [D (CG & _) VQ VQL VL VC VK VA VN].
  unfold scs_build. rewrite IN. cbn [bind]. rewrite DG. fold (gm a n). set (m := gm a n) in *. set (G := the_G a n) in *. set (d := ad a) in *.
  destruct (Nat.eqb_spec d 0); [lia|].
  replace (is_none (aQ a) || is_none (aL a)) with true by (destruct VQL as [->| ->]; cbn; rewrite ?orb_true_r; auto). cbn [assert_ bind].
  (* the quadratic term *)
  assert (EQ : exists Qo, (match aL a with Some L => do q <- mul L (transpose L); Ok (Some q) | None => Ok (aQ a) end) = Ok Qo
     /\ (forall Q, Qo = Some Q -> nr Q = n /\ nc Q = n /\ symmetric Q)
     /\ forall u, match Qo with Some Q => quadratic Q u | None => 0 end = match aQ a, aL a with Some Q, _ => quadratic Q u | None, Some L => sumn (nc L) (fun j => (sumn (nr L) (fun i => at_ L i j * nth i u 0)) ^ 2) | None, None => 0 end).
  { destruct (aL a) as [L|] eqn:EL.
    - destruct (mul_LLt L) as (q & Eq & R1 & R2 & R3 & R4). rewrite Eq. cbn [bind]. exists (Some q). split; auto. split.
      + intros Q H. injection H as <-. rewrite R1, R2, (VL L eq_refl). auto.
      + intros u. destruct VQL as [->|?]; [|discriminate]. apply R4.
    - exists (aQ a). split; [auto|]. split; [auto|]. intros u. destruct (aQ a); reflexivity. }
  destruct EQ as (Qo & -> & SQ & QV). cbn [bind]. rewrite CK. cbn [bind].
  replace (sq_shape Qo n) with true. 2:{ unfold sq_shape. destruct Qo as [Q|]; auto. destruct (SQ Q eq_refl) as (-> & -> & _). rewrite Nat.eqb_refl. auto. }
  cbn [assert_ bind].
  (* the fixed entries *)
  set (kl := match ak a with Some k => k | None => [] end). set (yl := match ay a with Some y => y | None => [] end).
  assert (EK : exists Ko, (match ak a with Some k => do x <- k_rows n k; Ok (Some x) | None => Ok None end) = Ok Ko /\ (forall K, Ko = Some K -> nc K = n)
     /\ match Ko with Some K => nr K | None => 0%nat end = length kl /\ (forall x i, (i < length kl)%nat -> exists K, Ko = Some K /\ rowsum K x i = x (Z.to_nat (nth i kl 0%Z)))
     /\ length yl = length kl /\ forall i, (i < length kl)%nat -> (Z.to_nat (nth i kl 0%Z) < n)%nat).
  { unfold kl, yl. destruct (ak a) as [k|], (ay a) as [y|]; try contradiction.
    - destruct VK as (LK & FK). destruct (krows_ok n k FK) as (K & EK & R1 & R2). rewrite EK. cbn [bind]. exists (Some K). split; auto.
      split; [intros ? H; injection H as <-; auto|]. split; auto. split; [|split; [auto|]].
      + intros x i Hi. exists K. split; auto. apply (rs_krows n k K x i EK Hi).
      + intros i Hi. apply (rs_krows n k K (fun _ => 0) i EK Hi).
    - exists None. split; auto. split; [discriminate|]. cbn. split; auto. split; [intros; lia|]. split; auto. intros; lia. }
  destruct EK as (Ko & -> & KC & KR & KS & LY & KB). cbn [bind].
  set (an := match aA a with Some A => nr A | None => 0%nat end).
  destruct (blk_ok m n (aA a)) as (B0 & -> & R0 & C0 & S0). { intros M E. rewrite E in VA. destruct (ab a); [tauto|contradiction]. }
  destruct (blk_ok m n Ko KC) as (B1 & -> & R1 & C1 & S1). cbn [bind].
  destruct (hs_ok (zeros m n) (neg (ident 1 m)) eq_refl) as (B2 & -> & R2 & C2 & S2). cbn [bind]. cbn [zeros neg ident nr nc] in R2, C2.
  unfold vstack3. destruct (vs_ok B0 B1) as (A0a & -> & Ra & Ca & Sa & Sa'); [lia|]. cbn [bind]. destruct (vs_ok A0a B2) as (A0 & -> & R3 & C3 & S3 & S3'); [lia|]. cbn [bind].
  (* the cone rows *)
  assert (EC : exists B3, (if Nat.eqb d 1 then do g0 <- hstack2 G (neg (ident 1 m)); do g1 <- hstack2 (neg G) (neg (ident 1 m)); vstack2 g0 g1
            else if Nat.eqb m 0 then Err ValueError else Ok (pick_rows (gperm d m) (neg (block_diag2 G (ident 1 m))))) = Ok B3 /\ nc B3 = (n + m)%nat
      /\ (d = 1%nat -> nr B3 = (m + m)%nat /\ forall x i, (i < m)%nat -> rowsum B3 x i = rowsum G x i - x (n + i)%nat /\ rowsum B3 x (m + i)%nat = - rowsum G x i - x (n + i)%nat)
      /\ (d <> 1%nat -> nr B3 = (m * (d + 1))%nat /\ forall x i, (i < m)%nat -> rowsum B3 x (i * (d + 1)) = - x (n + i)%nat /\ forall j, (j < d)%nat -> rowsum B3 x (i * (d + 1) + 1 + j) = - rowsum G x (d * i + j))).
  { destruct (Nat.eqb_spec d 1) as [D1|D1].
    - destruct (hs_ok G (neg (ident 1 m))) as (g0 & -> & Q1 & Q2 & Q3). { cbn. lia. }
      destruct (hs_ok (neg G) (neg (ident 1 m))) as (g1 & -> & P1 & P2 & P3). { cbn. lia. } cbn [bind]. cbn [neg ident nr nc] in Q1, Q2, P1, P2.
      destruct (vs_ok g0 g1) as (g & Eg & T1 & T2 & T3 & T4); [lia|]. exists g. split; [exact Eg|]. split; [lia|]. split; [|intros; lia]. intros _. split; [lia|]. intros x i Hi. split.
      + rewrite T3 by lia. rewrite Q3, rs_neg, rs_ident by auto. rewrite CG. ring.
      + replace (m + i)%nat with (nr g0 + i)%nat by lia. rewrite T4, P3, !rs_neg, rs_ident by auto. cbn [neg nc]. rewrite CG. ring.
    - destruct (Nat.eqb_spec m 0); [lia|]. eexists. split; [reflexivity|]. split; [cbn; lia|]. split; [intros; lia|]. intros _. split; [cbn; apply gperm_len|]. intros x i Hi.
      assert (PK : forall j, (j < d + 1)%nat -> rowsum (pick_rows (gperm d m) (neg (block_diag2 G (ident 1 m)))) x (i * (d + 1) + j) = - rowsum (block_diag2 G (ident 1 m)) x (match j with O => d * m + i | S j => d * i + j end)%nat).
      { intros j Hj. rewrite rs_pick, gperm_nth, rs_neg by auto. auto. }
      split.
      + replace (i * (d + 1))%nat with (i * (d + 1) + 0)%nat by lia. rewrite PK, rs_bd by lia. destruct (Nat.ltb_spec (d * m + i) (nr G)); [lia|]. rewrite rs_ident by lia. rewrite CG. replace (d * m + i - nr G)%nat with i by lia. reflexivity.
      + intros j Hj. replace (i * (d + 1) + 1 + j)%nat with (i * (d + 1) + S j)%nat by lia. rewrite PK, rs_bd by lia. destruct (Nat.ltb_spec (d * i + j) (nr G)); [auto|nia]. }
  destruct EC as (B3 & -> & CB3 & SD1 & SD2). cbn [bind]. destruct (vs_ok A0 B3) as (A1 & -> & RA1 & CA1 & SA1 & SA1'); [lia|]. cbn [bind].
  eexists. split; [reflexivity|].
  set (bl := match ab a with Some b => map (fun i => at_ b i 0%nat) (seq 0 (nr b)) | None => [] end).
  assert (LB : length bl = an). { unfold bl, an. destruct (aA a), (ab a); try contradiction; auto. rewrite map_length, seq_length. tauto. }
  assert (NZ : (an + match ak a with Some k => length k | None => 0 end = an + length kl)%nat) by (unfold kl; destruct (ak a); auto).
  fold yl. fold an in R0 |- *. rewrite NZ.
  assert (RR : nr A1 = (an + length kl + m + nr B3)%nat) by lia.
  assert (RC : nr B3 = ((if Nat.eqb d 1 then 2 * m else 0) + fold_right Nat.add 0 (if Nat.eqb d 1 then [] else repeat (d + 1) m))%nat).
  { destruct (Nat.eqb_spec d 1) as [E1|E1]; [destruct (SD1 E1) as (-> & _); cbn; lia|]. destruct (SD2 E1) as (-> & _). rewrite sum_repeat. reflexivity. }
  assert (LC : length (def_c a n) = n) by (unfold def_c; destruct (ac a); [auto|apply repeat_length]).
  split; [|split; [|split]].
  - unfold scs_well_formed. cbn [s_b s_A s_c s_P s_z s_l s_q]. rewrite !app_length, !repeat_length. split; [lia|]. split; [lia|]. split; [|split; [lia|]].
    + intros P HP. destruct Qo as [Q|]; [|discriminate]. injection HP as <-. destruct (SQ Q eq_refl) as (E1 & E2 & _). cbn. lia.
    + destruct (Nat.eqb d 1); [constructor|]. apply Forall_forall. intros k I. apply repeat_spec in I. lia.
  - cbn [s_A]. lia.
  - intros x Lx. set (u := firstn n x).
    (* the slack of every row *)
    set (p := {| s_P := _ |}). assert (SL : forall i, slack p x i = nth i (s_b p) 0 - rowsum A1 (X x) i) by reflexivity.
    assert (SB : s_b p = (bl ++ yl) ++ repeat 0 (nr A1 - length (bl ++ yl))) by reflexivity.
    assert (T1 : forall A b i, aA a = Some A -> ab a = Some b -> (i < an)%nat -> slack p x i = at_ b i 0%nat - mv A u i).
    { intros A b i EA EB Hi. rewrite SL, SB, <- app_assoc, app_nth1 by lia. unfold bl. rewrite EB. unfold an in Hi. rewrite EA in Hi, VA. rewrite EB in VA. destruct VA as (VA1 & VA2 & _).
      rewrite (nth_indep _ _ (at_ b 0%nat 0%nat)) by (rewrite map_length, seq_length; lia). rewrite (map_nth (fun i => at_ b i 0%nat)), seq_nth by lia. f_equal.
      rewrite SA1 by (unfold an in *; rewrite EA in *; lia). rewrite S3 by (unfold an in *; rewrite EA in *; lia). rewrite Sa by (unfold an in *; rewrite EA in *; lia). rewrite (S0 A) by auto. apply rs_first; auto. }
    assert (T2 : forall i, (i < length kl)%nat -> slack p x (an + i)%nat = nth i yl 0 - nth (Z.to_nat (nth i kl 0%Z)) u 0).
    { intros i Hi. rewrite SL, SB, <- app_assoc. rewrite <- LB at 1. rewrite nth_app_add, app_nth1 by lia. f_equal. rewrite SA1, S3 by lia. rewrite <- R0 at 1. rewrite Sa'. destruct (KS (X x) i Hi) as (K & EK & RK).
      rewrite (S1 K), RK by auto. unfold u. rewrite nth_firstn_lt; auto. }
    assert (T0 : forall i, (length (bl ++ yl) <= i)%nat -> nth i (s_b p) 0 = 0). { intros i Hi. rewrite SB, app_nth2 by lia. apply nth_rep0. }
    rewrite app_length in T0.
    assert (T3 : forall i, (i < m)%nat -> slack p x (an + length kl + i)%nat = nth (n + i) x 0).
    { intros i Hi. rewrite SL, T0 by lia. rewrite SA1 by lia. replace (an + length kl + i)%nat with (nr A0a + i)%nat by lia. rewrite S3', S2, rs_zeros, rs_neg, rs_ident by auto. cbn [zeros nc]. unfold X. ring. }
    assert (T4 : forall i, slack p x (an + length kl + m + i)%nat = - rowsum B3 (X x) i).
    { intros i. rewrite SL, T0 by lia. replace (an + length kl + m + i)%nat with (nr A0 + i)%nat by lia. rewrite SA1'. ring. }
    unfold scs_feasible. cbn [p s_A s_z s_l s_q]. fold p.
    assert (GU : forall i, rowsum G (X x) i = mv G u i) by (intros; apply rs_first; auto).
    assert (CONE : (forall i, (i < (if Nat.eqb d 1 then 2 * m else 0))%nat -> 0 <= slack p x (an + length kl + m + i)%nat) /\ in_socs (an + length kl + (m + (if Nat.eqb d 1 then 2 * m else 0))) (if Nat.eqb d 1 then [] else repeat (d + 1)%nat m) (slack p x)
        <-> forall i, (i < m)%nat -> gnorm a n u i <= nth (n + i) x 0).
    { unfold gnorm. fold d G. destruct (Nat.eqb_spec d 1) as [E1|E1].
      - destruct (SD1 E1) as (_ & SD). rewrite E1. cbn [in_socs].
        assert (EN : forall i, enorm 1 (fun j => mv G u (1 * i + j)%nat) = Rabs (mv G u i)) by (intros; rewrite enorm_1; do 2 f_equal; lia).
        split.
        + intros (H & _) i Hi. rewrite EN. pose proof (H i ltac:(lia)) as H1. pose proof (H (m + i)%nat ltac:(lia)) as H2. destruct (SD (X x) i Hi) as (Q1 & Q2). rewrite T4, Q1, GU in H1. rewrite T4, Q2, GU in H2. unfold X in *. apply Rabs_le. lra.
        + intros H. split; auto. intros i Hi. destruct (Nat.lt_ge_cases i m) as [L|L].
          * specialize (H i L). rewrite EN in H. rewrite T4. destruct (SD (X x) i L) as (-> & _). rewrite GU. unfold X. pose proof (Rle_abs (mv G u i)). lra.
          * specialize (H (i - m)%nat ltac:(lia)). rewrite EN in H. rewrite T4. replace i with (m + (i - m))%nat at 1 by lia. destruct (SD (X x) (i - m)%nat ltac:(lia)) as (_ & ->). rewrite GU. unfold X.
            pose proof (Rle_abs (- mv G u (i - m))) as Q. rewrite Rabs_Ropp in Q. lra.
      - destruct (SD2 E1) as (_ & SD). rewrite Nat.add_0_r, in_socs_blocks.
        assert (K : forall i, (i < m)%nat -> (enorm d (fun j => slack p x (an + length kl + m + i * (d + 1) + 1 + j)%nat) = enorm d (fun j => mv G u (d * i + j)%nat)) /\ slack p x (an + length kl + m + i * (d + 1))%nat = nth (n + i) x 0).
        { intros i Hi. destruct (SD (X x) i Hi) as (Q1 & Q2). split.
          - apply enorm_ext. intros j Hj. replace (an + length kl + m + i * (d + 1) + 1 + j)%nat with (an + length kl + m + (i * (d + 1) + 1 + j))%nat by lia. rewrite T4, Q2, GU by auto. ring.
          - rewrite T4, Q1. unfold X. ring. }
        split.
        + intros (_ & H) i Hi. destruct (K i Hi) as (K1 & K2). specialize (H i Hi). rewrite <- K1, <- K2.
          exact H.
        + intros H. split; [intros; lia|]. intros i Hi. destruct (K i Hi) as (K1 & K2). specialize (H i Hi). rewrite <- K1, <- K2 in H.
          exact H. }
    split.
    + intros (_ & HZ & HL & HQ). split.
      * split.
        -- intros k y Ek Ey j Hj. assert (kl = k) by (unfold kl; rewrite Ek; auto). assert (yl = y) by (unfold yl; rewrite Ey; auto). subst k y. specialize (HZ (an + j)%nat ltac:(lia)). rewrite T2 in HZ by auto. lra.
        -- intros A b EA EB i Hi. assert (Hi' : (i < an)%nat) by (unfold an; rewrite EA; auto). specialize (HZ i ltac:(lia)). rewrite (T1 A b i EA EB Hi') in HZ. lra.
      * intros i Hi. split; [rewrite <- T3 by auto; apply HL; lia|]. apply CONE; auto. split; [|exact HQ]. intros k Hk. specialize (HL (m + k)%nat ltac:(lia)). rewrite Nat.add_assoc in HL. auto.
    + intros ((FK & FA) & HC). assert (CN : forall i, (i < m)%nat -> gnorm a n u i <= nth (n + i) x 0) by (intros i Hi; apply HC; auto). apply CONE in CN as (CN1 & CN2).
      split; [lia|]. split; [|split; [|exact CN2]].
      * intros i Hi. destruct (Nat.lt_ge_cases i an) as [L|L].
        -- destruct (aA a) as [A|] eqn:EA; [|unfold an in L; lia]. destruct (ab a) as [b|] eqn:EB; [|contradiction]. rewrite (T1 A b i eq_refl eq_refl L), (FA A b eq_refl eq_refl i); [ring|]. unfold an in L. auto.
        -- replace i with (an + (i - an))%nat by lia. assert (Hk : (i - an < length kl)%nat) by lia. rewrite T2 by auto. unfold kl, yl in *. destruct (ak a) as [k|]; [|cbn in Hk; lia]. destruct (ay a) as [y|]; [|contradiction].
           rewrite (FK k y eq_refl eq_refl) by auto. ring.
      * intros i Hi. destruct (Nat.lt_ge_cases i m) as [L|L]; [rewrite T3 by auto; apply HC; auto|]. replace (an + length kl + i)%nat with (an + length kl + m + (i - m))%nat by lia. apply CN1. lia.
  - intros x Lx. unfold scs_value, rest. cbn [s_P s_c]. rewrite <- QV. rewrite app_length, repeat_length, LC, sumn_app.
    assert (E1 : match match Qo with Some Q => Some (block_diag2 Q (zeros m m)) | None => None end with Some P => upper_quadratic P x | None => 0 end = match Qo with Some Q => quadratic Q (firstn n x) | None => 0 end).
    { destruct Qo as [Q|]; auto. destruct (SQ Q eq_refl) as (E1 & E2 & E3). rewrite upper_sym; [|cbn; lia|apply bd_sym; [lia|auto]]. apply bd_quad; auto. }
    rewrite E1. rewrite (sumn_ext m _ (fun i => nth (n + i) x 0)). 2:{ intros i Hi. replace (n + i)%nat with (length (def_c a n) + i)%nat by lia. rewrite nth_app_add, nth_rep1 by auto. ring. }
    assert (E2 : sumn n (fun i => nth i (def_c a n ++ repeat 1 m) 0 * nth i x 0) = match ac a with Some c => sumn n (fun i => nth i c 0 * nth i (firstn n x) 0) | None => 0 end).
    { unfold def_c. destruct (ac a) as [c|] eqn:Ec.
      - apply sumn_ext. intros i Hi. rewrite app_nth1 by (rewrite (VC c eq_refl); auto). rewrite nth_firstn_lt by auto. auto.
      - unfold sumn. apply sumf_zero. intros i I. apply in_seq in I. rewrite app_nth1 by (rewrite repeat_length; lia). rewrite nth_repeat. ring. }
    rewrite E2. ring.
Qed.
