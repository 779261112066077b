(** lemmas for C78: interpolation, density, gradient *)
From Coq Require Import Reals Lra Lia ZArith List Bool Psatz Permutation.
From Verif Require Import NumpyModel NumpyProofs PyExn Vec MatModel MatProofs SubdivModel MatFunModel P_MatFun GridMeshModel GridMeshProofs GridNbModel GridNbProofs FdModel FdProofs P_Fd
  KernelModel KernelSpec KernelProofs P_Kernel EigModel SolveModel LoopSubProofs BiharmProofs Biharm2Proofs Subdiv3Proofs CutProofs PsrModel PsrSpec PsrNbProofs PsrProofs Psr2Proofs.
Import ListNotations.
Open Scope R_scope.

Lemma pos_ravel gs : forall idx, pos gs idx = ravelF gs idx.
Proof. induction gs as [|g gs IH]; intros [|i idx]; cbn; auto; rewrite IH; auto. Qed.
Lemma zprod_fold gs : fold_right Z.mul 1%Z gs = zprod gs.
Proof. reflexivity. Qed.
(** ** interpolation *)
Lemma mulv_ext n M f g i : (forall j, (0 <= j < Z.of_nat n)%Z -> f j = g j) -> mulv n M f i = mulv n M g i.
Proof. intros H. unfold mulv. apply sumn_ext. intros j Hj. rewrite H by lia. auto. Qed.
Lemma frac1 x c e : 0 < e -> (x - (c + IZR (flo ((x - c) / e)) * e)) / e = (x - c) / e - IZR (flo ((x - c) / e)).
Proof. intros. field. lra. Qed.
Definition dims (gs : list Z) : Prop := length gs = 2%nat \/ length gs = 3%nat.
Lemma interp_ok P gs h c : dims gs -> length h = length gs -> length c = length gs -> Forall (fun e => 0 < e) h -> exists W, interp P gs h c = Ok W /\
  forall i p f, nth_error P i = Some p -> Forall (fun g => (0 < g)%Z) gs -> in_box gs h c p -> mulv (Z.to_nat (zprod gs)) W f (Z.of_nat i) = lerp c h p (fun idx => f (ravelF gs idx)).
Proof.
  intros [D|D] Lh Lc Ph.
  - destruct gs as [|g0 [|g1 [|]]]; try discriminate. destruct h as [|h0 [|h1 [|]]]; try discriminate. destruct c as [|c0 [|c1 [|]]]; try discriminate.
    inversion Ph as [|? ? P0 Ph1]; subst. inversion Ph1 as [|? ? P1 _]; subst. unfold interp. rewrite fd2_ok. eexists. split; [reflexivity|]. intros i p f Hp Gp B.
    destruct p as [|x [|y [|]]]; cbn in B; try tauto. destruct B as (B0 & B1 & _). inversion Gp as [|? ? G0 Gp1]; subst. inversion Gp1 as [|? ? G1 _]; subst.
    replace (Z.to_nat (zprod [g0; g1])) with (Z.to_nat (g0 * g1)) by (f_equal; cbn; ring).
    rewrite (mulv_ext _ _ f (fun j => (fun a b => f (a + g0 * b)%Z) (j mod g0)%Z (j / g0)%Z)) by (intros j Hj; cbv beta; f_equal; rewrite (Z.div_mod j g0) at 1 by lia; ring).
    rewrite (W2_apply _ g0 g1 (h0, h1) (c0, c1) P0 P1 (fun a b => f (a + g0 * b)%Z) i (x, y)).
    + cbn [corners2 sumf fst snd w01 Z.eqb]. rewrite !frac1 by auto. cbn [lerp ravelF]. fold (flo ((x - c0) / h0)). fold (flo ((y - c1) / h1)). set (a := flo _). set (b := flo ((y - c1) / h1)).
      rewrite !Z.add_0_r, !Z.mul_0_r, !Z.add_0_r. ring.
    + exact (map_nth_error _ _ _ Hp).
    + rewrite minus_IZR in B0, B1. split; cbn; lra.
  - destruct gs as [|g0 [|g1 [|g2 [|]]]]; try discriminate. destruct h as [|h0 [|h1 [|h2 [|]]]]; try discriminate. destruct c as [|c0 [|c1 [|c2 [|]]]]; try discriminate.
    inversion Ph as [|? ? P0 Ph1]; subst. inversion Ph1 as [|? ? P1 Ph2]; subst. inversion Ph2 as [|? ? P2 _]; subst. unfold interp. rewrite fd3_ok. eexists. split; [reflexivity|]. intros i p f Hp Gp B.
    destruct p as [|x [|y [|z [|]]]]; cbn in B; try tauto. destruct B as (B0 & B1 & B2 & _). inversion Gp as [|? ? G0 Gp1]; subst. inversion Gp1 as [|? ? G1 Gp2]; subst. inversion Gp2 as [|? ? G2 _]; subst.
    replace (Z.to_nat (zprod [g0; g1; g2])) with (Z.to_nat (g0 * g1 * g2)) by (f_equal; cbn; ring).
    rewrite (mulv_ext _ _ f (fun j => (fun a b c => f (a + g0 * (b + g1 * c))%Z) (j mod g0)%Z ((j / g0) mod g1)%Z (j / g0 / g1)%Z)).
    2:{ intros j Hj. cbv beta. f_equal. rewrite (Z.div_mod j g0) at 1 by lia. rewrite (Z.div_mod (j / g0) g1) at 1 by lia. ring. }
    rewrite (W3_apply _ g0 g1 g2 (h0, h1, h2) (c0, c1, c2) P0 P1 P2 (fun a b c => f (a + g0 * (b + g1 * c))%Z) i (x, y, z)).
    + cbn [corners3 sumf X Y Zc fst snd w01 Z.eqb]. rewrite !frac1 by auto. cbn [lerp ravelF]. fold (flo ((x - c0) / h0)). fold (flo ((y - c1) / h1)). fold (flo ((z - c2) / h2)). set (a := flo _). set (b := flo ((y - c1) / h1)). set (d := flo ((z - c2) / h2)).
      rewrite !Z.add_0_r, !Z.mul_0_r, !Z.add_0_r. ring.
    + exact (map_nth_error _ _ _ Hp).
    + rewrite minus_IZR in B0, B1, B2. unfold inbox3. cbn. lra.
Qed.
Lemma lerp_ext c : forall h p F G, (forall r, F r = G r) -> lerp c h p F = lerp c h p G.
Proof. induction c as [|a c IH]; intros [|e h] [|x p] F G H; cbn [lerp]; auto. cbv zeta. f_equal; f_equal; apply IH; auto. Qed.
(** only positions of the grid matter *)
Lemma lerp_grid gs : forall h c p F G, Forall (fun e => 0 < e) h -> in_box gs h c p -> (forall idx, on_grid gs idx -> F idx = G idx) -> lerp c h p F = lerp c h p G.
Proof.
  induction gs as [|g gs IH]; intros [|e h] [|a c] [|x p] F G Ph B H; cbn [in_box] in B; try tauto; cbn [lerp]; [apply H; constructor|].
  destruct B as [B0 B]. inversion Ph as [|? ? Pe Ph']; subst. set (k := Int_part ((x - a) / e)). pose proof (flo_spec ((x - a) / e)) as [F1 F2]. change (flo ((x - a) / e)) with k in F1, F2.
  assert (E0 : (x - a) / e * e = x - a) by (field; lra). rewrite minus_IZR in B0.
  assert (K0 : (0 <= k)%Z). { apply Z.lt_succ_r. apply lt_IZR. rewrite succ_IZR. apply (Rmult_lt_reg_r e); auto. nra. }
  assert (K1 : IZR k <= IZR g - 1). { apply (Rmult_le_reg_r e); auto. nra. }
  assert (K2 : (k < g)%Z) by (apply lt_IZR; lra).
  rewrite (IH h c p (fun r => F (k :: r)) (fun r => G (k :: r))) by (auto; intros; apply H; constructor; auto; lia).
  destruct (Z.eq_dec (k + 1) g) as [Q|Q].
  - assert (T : (x - a) / e - IZR k = 0). { assert (IZR k = IZR g - 1) by (rewrite <- Q, plus_IZR; lra). apply Rle_antisym; [|lra]. apply (Rmult_le_reg_r e); auto. rewrite Rmult_minus_distr_r, E0. nra. }
    rewrite T. ring.
  - rewrite (IH h c p (fun r => F ((k + 1)%Z :: r)) (fun r => G ((k + 1)%Z :: r))) by (auto; intros; apply H; constructor; auto; lia). reflexivity.
Qed.
Lemma frac_range x : 0 <= x - IZR (Int_part x) < 1.
Proof. pose proof (flo_spec x) as [A B]. change (flo x) with (Int_part x) in A, B. lra. Qed.
Lemma lerp_plus c : forall h p F G, lerp c h p (fun r => F r + G r) = lerp c h p F + lerp c h p G.
Proof. induction c as [|a c IH]; intros [|e h] [|x p] F G; cbn [lerp]; auto. cbv zeta. rewrite !IH. ring. Qed.
Lemma lerp_scal c : forall h p k F, lerp c h p (fun r => k * F r) = k * lerp c h p F.
Proof. induction c as [|a c IH]; intros [|e h] [|x p] k F; cbn [lerp]; auto. cbv zeta. rewrite !IH. ring. Qed.
Lemma lerp_const c : forall h p k, lerp c h p (fun _ => k) = k.
Proof. induction c as [|a c IH]; intros [|e h] [|x p] k; cbn [lerp]; auto. cbv zeta. rewrite !IH. ring. Qed.
Lemma lerp_mono c : forall h p F G, (forall r, F r <= G r) -> lerp c h p F <= lerp c h p G.
Proof.
  induction c as [|a c IH]; intros [|e h] [|x p] F G H; cbn [lerp]; auto. cbv zeta. pose proof (frac_range ((x - a) / e)).
  apply Rplus_le_compat; apply Rmult_le_compat_l; try lra; apply IH; auto.
Qed.
Lemma lerp_nonneg c h p F : (forall r, 0 <= F r) -> 0 <= lerp c h p F.
Proof. intros. rewrite <- (lerp_const c h p 0). apply lerp_mono. auto. Qed.
Lemma delta_range idx r : 0 <= delta idx r.
Proof. unfold delta. destruct (list_eq_dec _ _ _); lra. Qed.
(** spreading a unit to the nodes and interpolating back at the same point *)
Lemma lerp_self c : forall h p, 0 < lerp c h p (fun idx => lerp c h p (delta idx)).
Proof.
  induction c as [|a c IH]; intros [|e h] [|x p]; try (cbn [lerp]; unfold delta; destruct (list_eq_dec _ _ _); [lra|congruence]).
  cbn [lerp]. cbv zeta. set (k := Int_part ((x - a) / e)). pose proof (frac_range ((x - a) / e)) as T. fold k in T. set (t := (x - a) / e - IZR k) in *. clearbody t.
  assert (D : forall m m' r r', delta (m :: r) (m' :: r') = if Z.eq_dec m' m then delta r r' else 0).
  { intros. unfold delta. destruct (list_eq_dec Z.eq_dec (m' :: r') (m :: r)), (Z.eq_dec m' m), (list_eq_dec Z.eq_dec r' r); try congruence. }
  assert (E : forall m r, lerp c h p (fun r' => delta (m :: r) (m :: r')) = lerp c h p (delta r)) by (intros; apply lerp_ext; intros; rewrite D; destruct (Z.eq_dec m m); congruence).
  assert (E' : forall m m' r, m' <> m -> lerp c h p (fun r' => delta (m :: r) (m' :: r')) = 0) by (intros; rewrite <- (lerp_const c h p 0); apply lerp_ext; intros; rewrite D; destruct (Z.eq_dec m' m); congruence).
  rewrite (lerp_ext c h p (fun r => (1 - t) * lerp c h p (fun r0 => delta (k :: r) (k :: r0)) + t * lerp c h p (fun r0 => delta (k :: r) ((k + 1)%Z :: r0))) (fun r => (1 - t) * lerp c h p (delta r))) by (intros; rewrite E, E' by lia; ring).
  rewrite (lerp_ext c h p (fun r => (1 - t) * lerp c h p (fun r0 => delta ((k + 1)%Z :: r) (k :: r0)) + t * lerp c h p (fun r0 => delta ((k + 1)%Z :: r) ((k + 1)%Z :: r0))) (fun r => t * lerp c h p (delta r))) by (intros; rewrite E, E' by lia; ring).
  rewrite !lerp_scal. pose proof (IH h p) as I0. set (s := lerp c h p _) in *. clearbody s. assert (0 < (1 - t) * (1 - t) + t * t) by nra. nra.
Qed.
Lemma sumn_delta n i (f : nat -> R) : (i < n)%nat -> sumn n (fun j => (if Nat.eqb i j then 1 else 0) * f j) = f i.
Proof.
  induction n as [|n IH]; intros H; [lia|]. rewrite sumn_S. destruct (Nat.eq_dec i n) as [->|N].
  - rewrite Nat.eqb_refl. unfold sumn. rewrite sumf_zero; [ring|]. intros j Hj. apply in_seq in Hj. destruct (Nat.eqb_spec n j); [lia|ring].
  - rewrite IH by lia. destruct (Nat.eqb_spec i n); [lia|ring].
Qed.
Lemma mulv_pick n M i j : (j < n)%nat -> mulv n M (fun k => if (k =? Z.of_nat j)%Z then 1 else 0) i = entry M i (Z.of_nat j).
Proof.
  intros Hj. unfold mulv. rewrite (sumn_ext n _ (fun k => (if Nat.eqb j k then 1 else 0) * entry M i (Z.of_nat k))).
  - rewrite sumn_delta; auto.
  - intros k Hk. destruct (Nat.eqb_spec j k) as [<-|N]; [rewrite Z.eqb_refl; ring|]. destruct (Z.eqb_spec (Z.of_nat k) (Z.of_nat j)); [lia|ring].
Qed.

(** ** density *)
Lemma zipw_lower c : forall h, zipw (fun c h => c - 1 / 2 * h) c h = lower c h.
Proof. unfold zipw. induction c as [|a c IH]; intros [|e h]; cbn [combine map lower fst snd]; auto. rewrite IH. f_equal. lra. Qed.
Lemma gs1_map gs : map (Z.add 1) gs = map (fun g => g + 1)%Z gs.
Proof. apply map_ext. intros. lia. Qed.
Lemma volume_fold h : fold_right Rmult 1 h = volume h.
Proof. reflexivity. Qed.
Lemma volume_pos h : Forall (fun e => 0 < e) h -> 0 < volume h.
Proof. induction 1; cbn; [lra|]. apply Rmult_lt_0_compat; auto. Qed.
Lemma lower_length c : forall h, length h = length c -> length (lower c h) = length c.
Proof. induction c as [|a c IH]; intros [|e h]; cbn; intros; try lia. rewrite IH; lia. Qed.
Lemma nth_nonneg l j : (forall x, In x l -> 0 <= x) -> 0 <= nth j l 0.
Proof. intros H. destruct (nth_in_or_default j l 0) as [I| ->]; [auto|lra]. Qed.
Lemma sumn_nonneg n f : (forall i, (i < n)%nat -> 0 <= f i) -> 0 <= sumn n f.
Proof. induction n as [|n IH]; intros H; [unfold sumn; cbn; lra|]. rewrite sumn_S. pose proof (H n ltac:(lia)). pose proof (IH ltac:(intros; apply H; lia)). lra. Qed.
Lemma sumn_ge n f i : (forall i, (i < n)%nat -> 0 <= f i) -> (i < n)%nat -> f i <= sumn n f.
Proof.
  induction n as [|n IH]; intros H L; [lia|]. rewrite sumn_S. pose proof (H n ltac:(lia)). destruct (Nat.eq_dec i n) as [->|N].
  - pose proof (sumn_nonneg n f ltac:(intros; apply H; lia)). lra.
  - pose proof (IH ltac:(intros; apply H; lia) ltac:(lia)). lra.
Qed.
Lemma nth_map_seq f n j : (j < n)%nat -> nth j (map f (seq 0 n)) 0 = f j.
Proof. intros H. rewrite (nth_indep _ 0 (f 0%nat)) by (rewrite map_length, seq_length; lia). rewrite map_nth, seq_nth by lia. auto. Qed.
Lemma density_ok blur (P : list (list R)) gs h c : dims gs -> length h = length gs -> length c = length gs -> Forall (fun e => 0 < e) h -> Forall (fun g => (0 < g)%Z) gs -> exists dens, density blur P gs h c = Ok dens /\
  ((forall p, In p P -> in_box (map (fun g => g + 1)%Z gs) h (lower c h) p) -> is_density blur gs h c P dens /\ (blurs blur -> forall i, (i < length P)%nat -> 0 < dens i)).
Proof.
  intros D Lh Lc Ph Gp. unfold density. rewrite gs1_map, zipw_lower. set (gs1 := map (fun g => g + 1)%Z gs). set (c' := lower c h).
  assert (L1 : length gs1 = length gs) by apply map_length.
  assert (D1 : dims gs1) by (unfold dims; rewrite L1; auto). assert (Lc' : length c' = length gs1) by (unfold c'; rewrite lower_length; lia).
  assert (G1 : Forall (fun g => (0 < g)%Z) gs1) by (unfold gs1; clear - Gp; induction Gp; cbn; constructor; auto; lia).
  destruct (interp_ok P gs1 h c' D1 ltac:(lia) Lc' Ph) as (W & EW & HW). rewrite EW. cbn [bind]. eexists. split; [reflexivity|]. intros B.
  set (n := Z.to_nat (zprod gs1)) in *. set (img := map _ (seq 0 n)).
  assert (EN : forall i idx, (i < length P)%nat -> on_grid gs1 idx -> entry W (Z.of_nat i) (ravelF gs1 idx) = lerp c' h (nth i P []) (delta idx)).
  { intros i idx Li Gi. pose proof (nth_error_nth' P [] Li) as Ep. pose proof (ravel_bound gs1 idx Gi) as RB. pose proof (B _ (nth_error_In _ _ Ep)) as Bp.
    replace (ravelF gs1 idx) with (Z.of_nat (Z.to_nat (ravelF gs1 idx))) by lia. rewrite <- (mulv_pick n) by (unfold n; lia). unfold n. rewrite (HW i (nth i P [])) by auto.
    apply (lerp_grid gs1); auto. intros k Gk. rewrite Z2Nat.id by lia. unfold delta. destruct (Z.eqb_spec (ravelF gs1 k) (ravelF gs1 idx)) as [E|E], (list_eq_dec Z.eq_dec k idx) as [Q|Q]; auto.
    - exfalso. apply Q. apply (ravel_inj gs1); auto.
    - exfalso. apply E. congruence. }
  assert (IM : forall idx, on_grid gs1 idx -> val_at gs1 img idx = splat c' h P idx).
  { intros idx Gi. pose proof (ravel_bound gs1 idx Gi) as RB. unfold val_at. rewrite (pos_ravel gs1 idx). unfold img.
    rewrite nth_map_seq by (unfold n; lia). rewrite Z2Nat.id by lia. unfold splat. rewrite volume_fold. f_equal. apply sumn_ext. intros i Li. rewrite EN by auto. ring. }
  assert (ID : is_density blur gs h c P (fun i => mulv n W (fun j => nth (Z.to_nat j) (blur gs1 img) 0) (Z.of_nat i))).
  { exists img. fold gs1 c'. split; [unfold img; rewrite map_length, seq_length; reflexivity|]. split; [exact IM|]. intros i p Ep. unfold n. rewrite (HW i p) by (auto; apply B, (nth_error_In _ _ Ep)).
    apply lerp_ext. intros r. unfold val_at. rewrite (pos_ravel gs1 r). reflexivity. }
  split; [exact ID|]. intros BL i Li. destruct ID as (_ & _ & _ & _). pose proof (nth_error_nth' P [] Li) as Ep. set (p := nth i P []) in *. pose proof (B _ (nth_error_In _ _ Ep)) as Bp. unfold n. rewrite (HW i p) by auto.
  destruct (BL gs1) as (k & Kp & HB). assert (VP := volume_pos h Ph).
  assert (IN : forall x, In x img -> 0 <= x).
  { intros x I. destruct (In_nth _ _ 0 I) as (j & Lj & <-). unfold img in Lj. rewrite map_length, seq_length in Lj. destruct (ravel_unravel_ex gs1 (Z.of_nat j) G1 ltac:(unfold n in Lj; lia)) as (idx & Gi & E).
    replace j with (Z.to_nat (ravelF gs1 idx)) by lia. rewrite <- (pos_ravel gs1 idx). fold (val_at gs1 img idx). rewrite IM by auto. unfold splat. apply Rmult_le_pos; [|left; apply Rinv_0_lt_compat; auto].
    apply sumn_nonneg. intros. apply lerp_nonneg. intros. apply delta_range. }
  apply Rlt_le_trans with (lerp c' h p (fun idx => k * (1 / volume h) * lerp c' h p (delta idx))).
  { rewrite lerp_scal. apply Rmult_lt_0_compat; [apply Rmult_lt_0_compat; auto; apply Rdiv_lt_0_compat; lra|]. apply lerp_self. }
  apply Rle_trans with (lerp c' h p (fun idx => k * val_at gs1 img idx)).
  { rewrite (lerp_grid gs1 h c' p (fun idx => k * val_at gs1 img idx) (fun idx => k * splat c' h P idx)) by (auto; intros; rewrite IM; auto). apply lerp_mono. intros r. unfold splat.
    replace (k * (1 / volume h) * lerp c' h p (delta r)) with (k * (lerp c' h p (delta r) / volume h)) by (field; lra). apply Rmult_le_compat_l; [lra|]. apply Rmult_le_compat_r; [left; apply Rinv_0_lt_compat; auto|].
    apply (sumn_ge (length P) (fun i => lerp c' h (nth i P []) (delta r)) i); auto. intros. apply lerp_nonneg. intros. apply delta_range. }
  apply lerp_mono. intros r. unfold val_at. rewrite (pos_ravel gs1 r). apply HB. exact IN.
Qed.
(** ** gradient *)
Fixpoint eoff (gs : list Z) (d : nat) : Z := match d with O => 0%Z | S d => (eoff gs d + zprod (fewer d gs))%Z end.
Lemma grad_ok gs h : dims gs -> length h = length gs -> Forall (fun e => 0 < e) h -> Forall (fun g => (0 < g)%Z) gs -> exists G, fd_grad_l gs h = Ok G /\
  forall f d idx, (d < length gs)%nat -> on_grid (fewer d gs) idx -> mulv (Z.to_nat (zprod gs)) G f (eoff gs d + ravelF (fewer d gs) idx) = diff d h (fun idx => f (ravelF gs idx)) idx.
Proof.
  intros [D|D] Lh Ph Gp.
  - destruct gs as [|nx [|ny [|]]]; try discriminate. destruct h as [|h0 [|h1 [|]]]; try discriminate. inversion Ph as [|? ? P0 Ph1]; subst. inversion Ph1 as [|? ? P1 _]; subst.
    inversion Gp as [|? ? G0 Gp1]; subst. inversion Gp1 as [|? ? G1 _]; subst. destruct (C23_partial_2d nx ny (h0, h1)) as (Dx & Dy & E0 & E1 & A0 & A1); try lia; auto. cbn [fst snd] in A0, A1.
    exists (Dx ++ shift_rows ((nx - 1) * ny) Dy). split; [unfold fd_grad_l, fd_grad2; rewrite E0, E1; reflexivity|].
    apply csr_rows in E0 as [R0 C0]. apply csr_rows in E1 as [R1 C1]. cbn [fst snd] in R0, R1, C0, C1.
    replace (Z.to_nat (zprod [nx; ny])) with (Z.to_nat (nx * ny)) by (f_equal; cbn; ring).
    intros f d idx Hd Gi. destruct d as [|[|d]]; [| |cbn in Hd; lia].
    + cbn [fewer] in *. inversion Gi as [|? x ? ? Rx Gi1]; subst. inversion Gi1 as [|? y ? ? Ry Gi2]; subst. inversion Gi2; subst. cbn [eoff ravelF].
      replace (0 + (x + (nx - 1) * (y + ny * 0)))%Z with (x + (nx - 1) * y)%Z by ring. rewrite mulv_app_lt; auto; [|intros t I; apply R1 in I; lia|nia]. rewrite A0 by auto.
      unfold diff. cbn [next nth ravelF]. f_equal. f_equal; f_equal; ring.
    + cbn [fewer] in *. inversion Gi as [|? x ? ? Rx Gi1]; subst. inversion Gi1 as [|? y ? ? Ry Gi2]; subst. inversion Gi2; subst. cbn [eoff ravelF fewer zprod fold_right].
      replace (0 + (nx - 1) * (ny * 1) + (x + nx * (y + (ny - 1) * 0)))%Z with ((nx - 1) * ny + (x + nx * y))%Z by ring. rewrite mulv_app_ge; auto; [|intros t I; apply R0 in I; lia|nia]. rewrite A1 by auto.
      unfold diff. cbn [next nth ravelF]. f_equal. f_equal; f_equal; ring.
  - destruct gs as [|nx [|ny [|nz [|]]]]; try discriminate. destruct h as [|h0 [|h1 [|h2 [|]]]]; try discriminate.
    inversion Gp as [|? ? G0 Gp1]; subst. inversion Gp1 as [|? ? G1 Gp2]; subst. inversion Gp2 as [|? ? G2 _]; subst. destruct (C23_partial_3d nx ny nz (h0, h1, h2)) as (Dx & Dy & Dz & E0 & E1 & E2 & A0 & A1 & A2); try lia; auto. cbn [X Y Zc fst snd] in A0, A1, A2.
    eexists. split; [unfold fd_grad_l, fd_grad3; rewrite E0, E1, E2; reflexivity|].
    apply csr_rows in E0 as [R0 C0]. apply csr_rows in E1 as [R1 C1]. apply csr_rows in E2 as [R2 C2].
    replace (Z.to_nat (zprod [nx; ny; nz])) with (Z.to_nat (nx * ny * nz)) by (f_equal; cbn; ring). set (N := Z.to_nat (nx * ny * nz)) in *. set (mx := ((nx - 1) * ny * nz)%Z) in *. set (my := (nx * (ny - 1) * nz)%Z) in *.
    assert (Pxy : (0 <= (nx - 1) * ny)%Z) by nia. assert (Pmx : (0 <= mx)%Z) by (unfold mx; nia). assert (Pyz : (0 <= (ny - 1) * nz)%Z) by nia. assert (Pmy : (0 <= my)%Z) by (unfold my; nia).
    assert (CB : cols_in N (Dy ++ shift_rows my Dz)).
    { intros t I. apply in_app_iff in I as [I|I]; auto. apply in_map_iff in I as (u & <- & I). apply C2 in I. exact I. }
    assert (SH : forall f r, mulv N (Dx ++ shift_rows mx Dy ++ shift_rows (mx + my) Dz) f r = mulv N (Dx ++ shift_rows mx (Dy ++ shift_rows my Dz)) f r).
    { intros g r. f_equal. f_equal. unfold shift_rows. rewrite map_app, map_map. f_equal. apply map_ext. intros t. unfold trow, tcol, tval. cbn [fst snd]. f_equal. f_equal. lia. }
    intros f d idx Hd Gi. rewrite SH. destruct d as [|[|[|d]]]; [| | |cbn in Hd; lia]; cbn [fewer] in *; inversion Gi as [|? x ? ? Rx Gi1]; subst; inversion Gi1 as [|? y ? ? Ry Gi2]; subst; inversion Gi2 as [|? z ? ? Rz Gi3]; subst; inversion Gi3; subst; cbn [eoff ravelF fewer zprod fold_right].
    + replace (0 + (x + (nx - 1) * (y + ny * (z + nz * 0))))%Z with (x + (nx - 1) * (y + ny * z))%Z by ring. assert (0 <= y + ny * z < ny * nz)%Z by nia.
      rewrite mulv_app_lt; auto; [|intros t I; apply in_app_iff in I as [I|I]; [apply R1 in I; lia | apply in_map_iff in I as (u & <- & I); apply R2 in I; unfold trow at 1; cbn [fst]; lia]|unfold mx; nia].
      rewrite A0 by auto. unfold diff. cbn [next nth ravelF]. f_equal. f_equal; f_equal; ring.
    + replace (0 + (nx - 1) * (ny * (nz * 1)) + (x + nx * (y + (ny - 1) * (z + nz * 0))))%Z with (mx + (x + nx * (y + (ny - 1) * z)))%Z by (unfold mx; ring). assert (0 <= y + (ny - 1) * z < (ny - 1) * nz)%Z by nia.
      rewrite mulv_app_ge; auto; [|intros t I; apply R0 in I; lia|nia]. rewrite mulv_app_lt; auto; [|intros t I; apply R2 in I; lia|unfold my; nia].
      rewrite A1 by auto. unfold diff. cbn [next nth ravelF]. f_equal. f_equal; f_equal; ring.
    + replace (0 + (nx - 1) * (ny * (nz * 1)) + nx * ((ny - 1) * (nz * 1)) + (x + nx * (y + ny * (z + (nz - 1) * 0))))%Z with (mx + (my + (x + nx * (y + ny * z))))%Z by (unfold mx, my; ring). assert (0 <= y + ny * z < ny * (nz - 1))%Z by nia.
      rewrite mulv_app_ge; auto; [|intros t I; apply R0 in I; lia|nia]. rewrite mulv_app_ge; auto; [|intros t I; apply R1 in I; lia|nia].
      rewrite A2 by auto. unfold diff. cbn [next nth ravelF]. f_equal. f_equal; f_equal; ring.
Qed.
