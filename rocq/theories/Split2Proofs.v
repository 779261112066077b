(** Lemmas for P_Split: one split keeps the mesh an oriented edge-manifold and its tables coherent *)
From Coq Require Import Reals Lra List Arith Bool Lia.
From Verif Require Import Vec SplitModel SplitProofs.
Import ListNotations.
Open Scope nat_scope.

Section Step.
  Variables (n m k H i uei : nat) (st : state).
  Let M := m + 2 * i. Let N := n + i. Let K := k + 3 * i. Let w := n + i.
  Hypothesis (HO : omesh (F st) M N) (HC : coherent (F st) M K H (ed st)) (HH : M + 2 <= H) (HU : uei < K) (HS : size (ed st) uei = 2) (HZ : forall u, K <= u -> size (ed st) u = 2).
  Variables (f0 c0 f1 c1 : nat).
  Hypothesis (Lf0 : f0 < M) (Lc0 : c0 < 3) (Lf1 : f1 < M) (Lc1 : c1 < 3) (S0 : slot (ed st) uei 0 = f0 + c0 * H) (S1 : slot (ed st) uei 1 = f1 + c1 * H)
    (E0 : EMAP (ed st) (f0 + c0 * H) = uei) (E1 : EMAP (ed st) (f1 + c1 * H) = uei) (HR : he (F st) f0 c0 = swap (he (F st) f1 c1)).
  Variables (c0' c0'' c1' c1'' v1 v2 v3 v4 : nat).
  Hypothesis (D0 : c0' = (c0 + 1) mod 3) (D0' : c0'' = (c0 + 2) mod 3) (D1 : c1' = (c1 + 1) mod 3) (D1' : c1'' = (c1 + 2) mod 3)
    (V1 : v1 = F st f0 c0') (V2 : v2 = F st f0 c0'') (V4 : v4 = F st f0 c0) (V3 : v3 = F st f1 c1).
  Variable st' : state.
  Hypothesis (HST : st' = split_one n m k H i uei st).

  Lemma mods : (c0' < 3 /\ c0'' < 3 /\ c0 <> c0' /\ c0 <> c0'' /\ c0' <> c0'' /\ (c0' + 1) mod 3 = c0'' /\ (c0' + 2) mod 3 = c0 /\ (c0'' + 1) mod 3 = c0 /\ (c0'' + 2) mod 3 = c0' /\ forall d, d < 3 -> d = c0 \/ d = c0' \/ d = c0'')
    /\ (c1' < 3 /\ c1'' < 3 /\ c1 <> c1' /\ c1 <> c1'' /\ c1' <> c1'' /\ (c1' + 1) mod 3 = c1'' /\ (c1' + 2) mod 3 = c1 /\ (c1'' + 1) mod 3 = c1 /\ (c1'' + 2) mod 3 = c1' /\ forall d, d < 3 -> d = c1 \/ d = c1' \/ d = c1'').
  Proof. pose proof (mod3 c0 Lc0) as A. pose proof (mod3 c1 Lc1) as B. cbv zeta in A, B. rewrite <- D0, <- D0' in A. rewrite <- D1, <- D1' in B. tauto. Qed.
  Lemma Fn : F st' f0 c0 = v4 /\ F st' f0 c0' = v1 /\ F st' f0 c0'' = w /\ F st' f1 c1 = v3 /\ F st' f1 c1' = w /\ F st' f1 c1'' = v1
    /\ F st' M 0 = v2 /\ F st' M 1 = w /\ F st' M 2 = v3 /\ F st' (M + 1) 0 = v2 /\ F st' (M + 1) 1 = v4 /\ F st' (M + 1) 2 = w
    /\ forall f c, f < M -> f <> f0 -> f <> f1 -> F st' f c = F st f c.
  Proof. pose proof (F_new n m k H i uei st HO HH HU HS f0 c0 f1 c1 Lf0 Lc0 Lf1 Lc1 S0 S1 E0 E1 HR) as A. unfold faces_new in A. rewrite <- D0, <- D0', <- D1, <- D1', <- HST in A. rewrite <- V1, <- V2, <- V3, <- V4 in A. exact A. Qed.
  Let em (s : state) f c := EMAP (ed s) (f + c * H).
  Lemma En : em st' f0 c0 = uei /\ em st' f0 c0' = K + 1 /\ em st' f0 c0'' = em st f0 c0'' /\ em st' f1 c1 = uei /\ em st' f1 c1' = em st f1 c1' /\ em st' f1 c1'' = K
    /\ em st' M 0 = K /\ em st' M 1 = em st f1 c1'' /\ em st' M 2 = K + 2 /\ em st' (M + 1) 0 = K + 1 /\ em st' (M + 1) 1 = K + 2 /\ em st' (M + 1) 2 = em st f0 c0'
    /\ forall f c, f < M -> f <> f0 -> f <> f1 -> em st' f c = em st f c.
  Proof. pose proof (E_new n m k H i uei st HO HH HU HS f0 c0 f1 c1 Lf0 Lc0 Lf1 Lc1 S0 S1 E0 E1 HR) as A. unfold maps_new in A. rewrite <- D0, <- D0', <- D1, <- D1', <- HST in A. exact A. Qed.
  Definition mv (h : nat) : nat := if Nat.eqb h (f0 + c0' * H) then M + 1 + 2 * H else if Nat.eqb h (f1 + c1'' * H) then M + 1 * H else h.
  Lemma Sn : (forall u, u < K -> slot (ed st') u 0 = mv (slot (ed st) u 0)) /\ (forall u, u < K -> size (ed st) u = 2 -> slot (ed st') u 1 = mv (slot (ed st) u 1))
    /\ slot (ed st') K 0 = f1 + c1'' * H /\ slot (ed st') K 1 = M + 0 * H /\ slot (ed st') (K + 1) 0 = f0 + c0' * H /\ slot (ed st') (K + 1) 1 = M + 1 + 0 * H /\ slot (ed st') (K + 2) 0 = M + 2 * H /\ slot (ed st') (K + 2) 1 = M + 1 + 1 * H.
  Proof. pose proof (S_new n m k H i uei st HO HC HH HU HS f0 c0 f1 c1 Lf0 Lc0 Lf1 Lc1 S0 S1 E0 E1 HR) as A. unfold slots_new, moved in A. rewrite <- D0, <- D1', <- HST in A. exact A. Qed.
  Lemma Un : uE (ed st') uei = (w, v1) /\ uE (ed st') K = (w, v3) /\ uE (ed st') (K + 1) = (w, v4) /\ uE (ed st') (K + 2) = (w, v2) /\ forall u, u < K -> u <> uei -> uE (ed st') u = uE (ed st) u.
  Proof.
    rewrite HST. unfold split_one. cbn [ed uE]. rewrite S0, S1, !enc_mod, !enc_div by lia. rewrite <- D0, <- D0', <- V1, <- V2, <- V3, <- V4. fold K w. unfold set1.
    repeat split; intros; decide_eqb.
  Qed.
  Lemma vv : v1 <> v2 /\ v1 <> v4 /\ v2 <> v4 /\ v1 <> v3 /\ v2 <> v3 /\ v4 <> v3 /\ v1 < N /\ v2 < N /\ v3 < N /\ v4 < N.
  Proof. pose proof (vs n m i st HO f0 c0 f1 c1 Lf0 Lc0 Lf1 Lc1 HR) as A. rewrite <- D0, <- D0', <- V1, <- V2, <- V3, <- V4 in A. exact A. Qed.
  Lemma vb : F st f1 c1' = v2 /\ F st f1 c1'' = v1.
  Proof. pose proof (v21 st f0 c0 f1 c1 HR) as A. rewrite <- D0, <- D0', <- D1, <- D1', <- V1, <- V2 in A. exact A. Qed.
  Lemma ne01 : f0 <> f1. Proof. exact (f01 n m H i uei st HO f0 c0 f1 c1 Lc0 Lf1 Lc1 S1 E1 HR). Qed.

  (** every half-edge afterwards is an old one that was not split, possibly moved to another face, or one of the eight new ones *)
  Definition new_half (f c : nat) (e : nat * nat) (o u : nat) : Prop :=
    In (f, c, e, o, u) [(f0, c0, (v1, w), v4, uei); (f0, c0', (w, v4), v1, K + 1); (f1, c1, (w, v1), v3, uei); (f1, c1'', (v3, w), v1, K);
                        (M, 0, (w, v3), v2, K); (M, 2, (v2, w), v3, K + 2); (M + 1, 0, (v4, w), v2, K + 1); (M + 1, 1, (w, v2), v4, K + 2)].
  Definition old_half (f c : nat) : Prop := exists g d, g < M /\ d < 3 /\ (g, d) <> (f0, c0) /\ (g, d) <> (f1, c1) /\ he (F st') f c = he (F st) g d /\ em st' f c = em st g d /\ mv (g + d * H) = f + c * H
    /\ ((g <> f0 /\ g <> f1 /\ f = g /\ c = d /\ F st' f c = F st g d) \/ (F st' f c = w /\ In (he (F st) g d) [(v4, v1); (v1, v3); (v3, v2); (v2, v4)])).
  Ltac cmods := pose proof mods as ((Q1 & Q2 & Q3 & Q4 & Q5 & Q6 & Q7 & Q8 & Q9 & QQ) & (R1 & R2 & R3 & R4 & R5 & R6 & R7 & R8 & R9 & RR)).
  Lemma mv_id g d : g < M -> (g, d) <> (f0, c0') -> (g, d) <> (f1, c1'') -> mv (g + d * H) = g + d * H.
  Proof. intros L A B. unfold mv. destruct (Nat.eqb_spec (g + d * H) (f0 + c0' * H)) as [E|E]; [apply enc_inj in E; try lia; destruct E; congruence|]. destruct (Nat.eqb_spec (g + d * H) (f1 + c1'' * H)) as [E'|E']; [apply enc_inj in E'; try lia; destruct E'; congruence|]. auto. Qed.
  Lemma mv_e4 : mv (f0 + c0' * H) = M + 1 + 2 * H. Proof. unfold mv. rewrite Nat.eqb_refl. auto. Qed.
  Lemma mv_e3 : mv (f1 + c1'' * H) = M + 1 * H.
  Proof. pose proof ne01. unfold mv. destruct (Nat.eqb_spec (f1 + c1'' * H) (f0 + c0' * H)) as [E|E]; [apply enc_inj in E; lia|]. rewrite Nat.eqb_refl. auto. Qed.

  Lemma hes : he (F st') f0 c0 = (v1, w) /\ he (F st') f0 c0' = (w, v4) /\ he (F st') f0 c0'' = (v4, v1) /\ he (F st') f1 c1 = (w, v1) /\ he (F st') f1 c1' = (v1, v3) /\ he (F st') f1 c1'' = (v3, w)
    /\ he (F st') M 0 = (w, v3) /\ he (F st') M 1 = (v3, v2) /\ he (F st') M 2 = (v2, w) /\ he (F st') (M + 1) 0 = (v4, w) /\ he (F st') (M + 1) 1 = (w, v2) /\ he (F st') (M + 1) 2 = (v2, v4)
    /\ he (F st) f0 c0 = (v1, v2) /\ he (F st) f1 c1 = (v2, v1) /\ he (F st) f0 c0' = (v2, v4) /\ he (F st) f0 c0'' = (v4, v1) /\ he (F st) f1 c1' = (v1, v3) /\ he (F st) f1 c1'' = (v3, v2).
  Proof.
    cmods. destruct Fn as (A1 & A2 & A3 & A4 & A5 & A6 & A7 & A8 & A9 & A10 & A11 & A12 & AO). pose proof vb as (VB1 & VB2). unfold he.
    rewrite Q6, Q7, Q8, Q9, R6, R7, R8, R9, <- D0, <- D0', <- D1, <- D1'. change ((0 + 1) mod 3) with 1. change ((0 + 2) mod 3) with 2. change ((1 + 1) mod 3) with 2. change ((1 + 2) mod 3) with 0. change ((2 + 1) mod 3) with 0. change ((2 + 2) mod 3) with 1.
    rewrite A1, A2, A3, A4, A5, A6, A7, A8, A9, A10, A11, A12, VB1, VB2, <- V1, <- V2, <- V3, <- V4. repeat split; reflexivity.
  Qed.
  Lemma he_other f c : f < M -> f <> f0 -> f <> f1 -> he (F st') f c = he (F st) f c.
  Proof. destruct Fn as (_ & _ & _ & _ & _ & _ & _ & _ & _ & _ & _ & _ & AO). intros. unfold he. rewrite !AO by auto. auto. Qed.
  Lemma ltM f : f < M + 2 -> f = f0 \/ f = f1 \/ f = M \/ f = M + 1 \/ (f < M /\ f <> f0 /\ f <> f1).
  Proof. intros. destruct (Nat.eq_dec f f0); [auto|]. destruct (Nat.eq_dec f f1); [auto|]. lia. Qed.

  Lemma classify f c : f < M + 2 -> c < 3 -> old_half f c \/ new_half f c (he (F st') f c) (F st' f c) (em st' f c).
  Proof.
    intros Lf Lc. cmods. destruct Fn as (A1 & A2 & A3 & A4 & A5 & A6 & A7 & A8 & A9 & A10 & A11 & A12 & AO). destruct En as (B1 & B2 & B3 & B4 & B5 & B6 & B7 & B8 & B9 & B10 & B11 & B12 & BO).
    destruct hes as (H1 & H2 & H3 & H4 & H5 & H6 & H7 & H8 & H9 & H10 & H11 & H12 & G1 & G2 & G3 & G4 & G5 & G6). pose proof ne01 as NE.
    assert (PR : forall a b c d : nat, a <> c \/ b <> d -> (a, b) <> (c, d)) by (intros a b x d [X|X] E; injection E as; congruence).
    pose proof mv_e4 as X4. pose proof mv_e3 as X3. pose proof mv_id as XI. pose proof he_other as XO. pose proof (ltM f Lf) as LM. clearbody em. clear HO HC HU HS HZ HR HST D0 D0' D1 D1' S0 S1 E0 E1.
    destruct LM as [->|[->|[->|[->|(N1 & N2 & N3)]]]].
    - destruct (QQ c Lc) as [->|[->| ->]].
      + right. unfold new_half. rewrite H1, A1, B1. cbn [In]. tauto.
      + right. unfold new_half. rewrite H2, A2, B2. cbn [In]. tauto.
      + left. exists f0, c0''. rewrite H3, G4, B3, A3. split; [auto|]. split; [auto|]. split; [apply PR; auto|]. split; [apply PR; auto|]. split; [auto|]. split; [auto|]. split; [apply XI; auto|]. right. cbn [In]. tauto.
    - destruct (RR c Lc) as [->|[->| ->]].
      + right. unfold new_half. rewrite H4, A4, B4. cbn [In]. tauto.
      + left. exists f1, c1'. rewrite H5, G5, B5, A5. split; [auto|]. split; [auto|]. split; [apply PR; auto|]. split; [apply PR; auto|]. split; [auto|]. split; [auto|]. split; [apply XI; auto|]. right. cbn [In]. tauto.
      + right. unfold new_half. rewrite H6, A6, B6. cbn [In]. tauto.
    - assert (c = 0 \/ c = 1 \/ c = 2) as [->|[->| ->]] by (clear -Lc; lia).
      + right. unfold new_half. rewrite H7, A7, B7. cbn [In]. tauto.
      + left. exists f1, c1''. rewrite H8, G6, B8, A8. split; [auto|]. split; [auto|]. split; [apply PR; auto|]. split; [apply PR; auto|]. split; [auto|]. split; [auto|]. split; [exact X3|]. right. cbn [In]. tauto.
      + right. unfold new_half. rewrite H9, A9, B9. cbn [In]. tauto.
    - assert (c = 0 \/ c = 1 \/ c = 2) as [->|[->| ->]] by (clear -Lc; lia).
      + right. unfold new_half. rewrite H10, A10, B10. cbn [In]. tauto.
      + right. unfold new_half. rewrite H11, A11, B11. cbn [In]. tauto.
      + left. exists f0, c0'. rewrite H12, G3, B12, A12. split; [auto|]. split; [auto|]. split; [apply PR; auto|]. split; [apply PR; auto|]. split; [auto|]. split; [auto|]. split; [exact X4|]. right. cbn [In]. tauto.
    - left. exists f, c. rewrite XO, BO, AO by auto. split; [auto|]. split; [auto|]. split; [apply PR; auto|]. split; [apply PR; auto|]. split; [auto|]. split; [auto|]. split; [apply XI; auto|]. left. auto.
  Qed.
  (** an old half-edge that was not split is found again *)
  Lemma found g d : g < M -> d < 3 -> (g, d) <> (f0, c0) -> (g, d) <> (f1, c1) -> exists f c, f < M + 2 /\ c < 3 /\ mv (g + d * H) = f + c * H /\ he (F st') f c = he (F st) g d /\ em st' f c = em st g d.
  Proof.
    intros Lg Ld NA NB. cmods. destruct En as (B1 & B2 & B3 & B4 & B5 & B6 & B7 & B8 & B9 & B10 & B11 & B12 & BO).
    destruct hes as (H1 & H2 & H3 & H4 & H5 & H6 & H7 & H8 & H9 & H10 & H11 & H12 & G1 & G2 & G3 & G4 & G5 & G6). pose proof ne01 as NE.
    assert (PR : forall a b c d : nat, a <> c \/ b <> d -> (a, b) <> (c, d)) by (intros a b x y [X|X] E; injection E as; congruence).
    pose proof mv_e4 as X4. pose proof mv_e3 as X3. pose proof mv_id as XI. pose proof he_other as XO. clearbody em.
    assert (LM : forall f, f < M -> f < M + 2) by (intros; lia). assert (LM' : M < M + 2 /\ M + 1 < M + 2) by lia. clear HO HC HU HS HZ HR HST D0 D0' D1 D1' S0 S1 E0 E1.
    destruct (Nat.eq_dec g f0) as [->|N0]; [|destruct (Nat.eq_dec g f1) as [->|N1]].
    - destruct (QQ d Ld) as [->|[->| ->]]; [congruence| |].
      + exists (M + 1), 2. rewrite X4, H12, G3, B12. repeat split; auto; tauto.
      + exists f0, c0''. rewrite XI, H3, G4, B3 by (auto; apply PR; auto). repeat split; auto.
    - destruct (RR d Ld) as [->|[->| ->]]; [congruence| |].
      + exists f1, c1'. rewrite XI, H5, G5, B5 by (auto; apply PR; auto). repeat split; auto.
      + exists M, 1. rewrite X3, H8, G6, B8. repeat split; auto; tauto.
    - exists g, d. rewrite XI, XO, BO by (auto; apply PR; auto). repeat split; auto.
  Qed.

  Lemma vw : v1 <> w /\ v2 <> w /\ v3 <> w /\ v4 <> w.
  Proof. destruct vv as (_ & _ & _ & _ & _ & _ & L1 & L2 & L3 & L4). change N with w in *. clear -L1 L2 L3 L4. lia. Qed.
  Lemma new_w f c e o u : new_half f c e o u -> fst e = w \/ snd e = w.
  Proof. unfold new_half. cbn [In]. intros Q. decompose [or] Q; try tauto; match goal with X : _ = _ |- _ => injection X as; subst end; cbn [fst snd]; tauto. Qed.
  Lemma old_w g d : g < M -> d < 3 -> fst (he (F st) g d) <> w /\ snd (he (F st) g d) <> w.
  Proof. intros A B. destruct (mod3 d B) as (X1 & X2 & _). unfold he. cbn [fst snd]. pose proof (om_range _ _ _ HO g _ A X1). pose proof (om_range _ _ _ HO g _ A X2). unfold w, N in *. lia. Qed.
  Lemma step_range f c : f < M + 2 -> c < 3 -> F st' f c < N + 1.
  Proof.
    intros Lf Lc. pose proof vv as (_ & _ & _ & _ & _ & _ & L1 & L2 & L3 & L4). assert (LW : w < N + 1) by (change N with w; clear; lia). destruct (classify f c Lf Lc) as [(g & d & Lg & Ld & _ & _ & _ & _ & _ & [(_ & _ & _ & _ & ->)|(-> & _)])|Q].
    - pose proof (om_range _ _ _ HO g d Lg Ld). lia.
    - auto.
    - unfold new_half in Q. cbn [In] in Q. assert (X : forall a b x y z a' b' x' y' z', (a, b, x, y, z) = (a', b', x', y', z') :> (nat * nat * (nat * nat) * nat * nat) -> y = y') by (intros; congruence).
      assert (Y : F st' f c = v1 \/ F st' f c = v2 \/ F st' f c = v3 \/ F st' f c = v4) by (decompose [or] Q; try tauto; match goal with Z : (_, _, _, _, _) = _ |- _ => apply X in Z; rewrite <- Z; tauto end). clear -Y L1 L2 L3 L4. lia.
  Qed.
  Lemma step_dist f c d : f < M + 2 -> c < 3 -> d < 3 -> F st' f c = F st' f d -> c = d.
  Proof.
    intros Lf Lc Ld E. cmods. destruct Fn as (A1 & A2 & A3 & A4 & A5 & A6 & A7 & A8 & A9 & A10 & A11 & A12 & AO). pose proof vv as (Z1 & Z2 & Z3 & Z4 & Z5 & Z6 & L1 & L2 & L3 & L4). pose proof (om_dist _ _ _ HO) as OD. pose proof (ltM f Lf) as LM.
    pose proof vw as (W1 & W2 & W3 & W4).
    clear HO HC HU HS HZ HR HST D0 D0' D1 D1' S0 S1 E0 E1. assert (T3 : forall x, x < 3 -> x = 0 \/ x = 1 \/ x = 2) by (clear; intros; lia).
    destruct LM as [->|[->|[->|[->|(N1 & N2 & N3)]]]].
    - destruct (QQ c Lc) as [->|[->| ->]], (QQ d Ld) as [->|[->| ->]]; auto; congruence.
    - destruct (RR c Lc) as [->|[->| ->]], (RR d Ld) as [->|[->| ->]]; auto; congruence.
    - destruct (T3 c Lc) as [->|[->| ->]], (T3 d Ld) as [->|[->| ->]]; auto; congruence.
    - destruct (T3 c Lc) as [->|[->| ->]], (T3 d Ld) as [->|[->| ->]]; auto; congruence.
    - rewrite !AO in E by auto. eapply OD; eauto.
  Qed.
  Ltac newcases Q := unfold new_half in Q; cbn [In] in Q; destruct Q as [Q|[Q|[Q|[Q|[Q|[Q|[Q|[Q|[]]]]]]]]]; injection Q as; subst.
  Lemma step_inj f c g d : f < M + 2 -> c < 3 -> g < M + 2 -> d < 3 -> he (F st') f c = he (F st') g d -> f = g /\ c = d.
  Proof.
    intros Lf Lc Lg Ld E. pose proof (classify f c Lf Lc) as Cf. pose proof (classify g d Lg Ld) as Cg.
    destruct Cf as [(a & b & La & Lb & NA & NB & HE & _ & MV & _)|Qf].
    - destruct Cg as [(a' & b' & La' & Lb' & NA' & NB' & HE' & _ & MV' & _)|Qg].
      + assert (EQ : a = a' /\ b = b') by (apply (om_inj _ _ _ HO); auto; congruence). destruct EQ as (-> & ->). apply (enc_inj H); [clear -Lf HH; lia|clear -Lg HH; lia|congruence].
      + exfalso. apply new_w in Qg. rewrite <- E, HE in Qg. pose proof (old_w a b La Lb). tauto.
    - destruct Cg as [(a' & b' & La' & Lb' & NA' & NB' & HE' & _ & MV' & _)|Qg].
      + exfalso. apply new_w in Qf. rewrite E, HE' in Qf. pose proof (old_w a' b' La' Lb'). tauto.
      + pose proof vv as (Z1 & Z2 & Z3 & Z4 & Z5 & Z6 & L1 & L2 & L3 & L4).
        pose proof vw as (W1 & W2 & W3 & W4).
        remember (he (F st') f c) as hf eqn:X1. remember (he (F st') g d) as hg eqn:X2. remember (F st' f c) as of_ eqn:X3. remember (F st' g d) as og eqn:X4. remember (em st' f c) as uf eqn:X5. remember (em st' g d) as ug eqn:X6.
        clear X1 X2 X3 X4 X5 X6 HO HC HU HS HZ HR HST D0 D0' D1 D1' S0 S1 E0 E1 L1 L2 L3 L4 V1 V2 V3 V4. clearbody M K w.
        unfold new_half in Qf, Qg. cbn [In] in Qf, Qg.
        assert (IJ : forall a b x y z a' b' x' y' z', (a, b, x, y, z) = (a', b', x', y', z') :> (nat * nat * (nat * nat) * nat * nat) -> a = a' /\ b = b' /\ x = x') by (intros ? ? ? ? ? ? ? ? ? ? X; injection X as; auto).
        destruct Qf as [Qf|[Qf|[Qf|[Qf|[Qf|[Qf|[Qf|[Qf|[]]]]]]]]]; apply IJ in Qf; destruct Qf as (P1 & P2 & P3);
        (destruct Qg as [Qg|[Qg|[Qg|[Qg|[Qg|[Qg|[Qg|[Qg|[]]]]]]]]]; apply IJ in Qg; destruct Qg as (P4 & P5 & P6)); first [split; congruence | exfalso; congruence].
  Qed.
  Lemma step_opp f c g d : f < M + 2 -> c < 3 -> g < M + 2 -> d < 3 -> he (F st') f c = swap (he (F st') g d) -> F st' f c <> F st' g d.
  Proof.
    intros Lf Lc Lg Ld E. pose proof (classify f c Lf Lc) as Cf. pose proof (classify g d Lg Ld) as Cg.
    pose proof vv as (Z1 & Z2 & Z3 & Z4 & Z5 & Z6 & L1 & L2 & L3 & L4).
    pose proof vw as (W1 & W2 & W3 & W4).
    destruct Cf as [(a & b & La & Lb & NA & NB & HE & _ & MV & OP)|Qf].
    - destruct Cg as [(a' & b' & La' & Lb' & NA' & NB' & HE' & _ & MV' & OP')|Qg].
      + assert (RA : F st a b < N) by (apply (om_range _ _ _ HO); auto). assert (RB : F st a' b' < N) by (apply (om_range _ _ _ HO); auto). assert (Ww : w = N) by reflexivity.
        destruct OP as [(_ & _ & _ & _ & ->)|(-> & IN)]; destruct OP' as [(_ & _ & _ & _ & ->)|(-> & IN')]; try (clear -RA RB Ww; lia).
        * apply (om_opp _ _ _ HO); auto. congruence.
        * exfalso. rewrite HE, HE' in E. rewrite E in IN. unfold swap in IN. clear -IN IN' Z1 Z2 Z3 Z4 Z5 Z6. destruct (he (F st) a' b') as [p q]. cbn [In fst snd] in IN, IN'.
          assert (IJ : forall a b c d : nat, (a, b) = (c, d) -> a = c /\ b = d) by (intros ? ? ? ? X; injection X as; auto).
          destruct IN as [Q|[Q|[Q|[Q|[]]]]]; apply IJ in Q; destruct Q; (destruct IN' as [Q'|[Q'|[Q'|[Q'|[]]]]]; apply IJ in Q'; destruct Q'); congruence.
      + exfalso. apply new_w in Qg. rewrite HE in E. assert (X : he (F st') g d = swap (he (F st) a b)) by (rewrite E; destruct (he (F st') g d); reflexivity). rewrite X in Qg. unfold swap in Qg. cbn [fst snd] in Qg. pose proof (old_w a b La Lb). tauto.
    - destruct Cg as [(a' & b' & La' & Lb' & NA' & NB' & HE' & _ & MV' & _)|Qg].
      + exfalso. apply new_w in Qf. rewrite E, HE' in Qf. unfold swap in Qf. cbn [fst snd] in Qf. pose proof (old_w a' b' La' Lb'). tauto.
      + remember (he (F st') f c) as hf eqn:X1. remember (he (F st') g d) as hg eqn:X2. remember (F st' f c) as of_ eqn:X3. remember (F st' g d) as og eqn:X4. remember (em st' f c) as uf eqn:X5. remember (em st' g d) as ug eqn:X6.
        clear X1 X2 X3 X4 X5 X6 HO HC HU HS HZ HR HST D0 D0' D1 D1' S0 S1 E0 E1 L1 L2 L3 L4 V1 V2 V3 V4. clearbody M K w. unfold swap in E. destruct hg as [p q]. cbn [fst snd] in E.
        unfold new_half in Qf, Qg. cbn [In] in Qf, Qg.
        assert (IJ : forall a b x y z a' b' x' y' z', (a, b, x, y, z) = (a', b', x', y', z') :> (nat * nat * (nat * nat) * nat * nat) -> x = x' /\ y = y') by (intros ? ? ? ? ? ? ? ? ? ? X; injection X as; auto).
        destruct Qf as [Qf|[Qf|[Qf|[Qf|[Qf|[Qf|[Qf|[Qf|[]]]]]]]]]; apply IJ in Qf; destruct Qf as (P3 & P4);
        (destruct Qg as [Qg|[Qg|[Qg|[Qg|[Qg|[Qg|[Qg|[Qg|[]]]]]]]]]; apply IJ in Qg; destruct Qg as (P6 & P7)); congruence.
  Qed.
  Lemma step_omesh : omesh (F st') (M + 2) (N + 1).
  Proof. split; [apply step_range|apply step_dist|apply step_inj|apply step_opp]. Qed.

  Lemma size_same : size (ed st') = size (ed st). Proof. rewrite HST. reflexivity. Qed.
  Lemma not_uei g d u : EMAP (ed st) (g + d * H) = u -> u <> uei -> (g, d) <> (f0, c0) /\ (g, d) <> (f1, c1).
  Proof. intros A B. split; intros E; injection E as -> ->; congruence. Qed.
  Lemma step_coherent : coherent (F st') (M + 2) (K + 3) H (ed st').
  Proof.
    cmods. destruct En as (B1 & B2 & B3 & B4 & B5 & B6 & B7 & B8 & B9 & B10 & B11 & B12 & BO). destruct Sn as (T1 & T2 & K1 & K2 & K3 & K4 & K5 & K6). destruct Un as (U1 & U2 & U3 & U4 & UO).
    destruct hes as (H1 & H2 & H3 & H4 & H5 & H6 & H7 & H8 & H9 & H10 & H11 & H12 & G1 & G2 & G3 & G4 & G5 & G6). pose proof ne01 as NE. pose proof size_same as SS.
    assert (PR : forall a b c d : nat, a <> c \/ b <> d -> (a, b) <> (c, d)) by (intros a b x y [X|X] E; injection E as; congruence).
    assert (ZK : size (ed st) K = 2 /\ size (ed st) (K + 1) = 2 /\ size (ed st) (K + 2) = 2) by (repeat split; apply HZ; clear; lia). destruct ZK as (ZK0 & ZK1 & ZK2).
    assert (SU0 : slot (ed st') uei 0 = f0 + c0 * H) by (rewrite T1, S0 by auto; apply mv_id; auto; apply PR; auto).
    assert (SU1 : slot (ed st') uei 1 = f1 + c1 * H) by (rewrite T2, S1 by auto; apply mv_id; auto; apply PR; auto).
    assert (FM0 : f0 < M + 2) by (clear -Lf0; lia). assert (FM1 : f1 < M + 2) by (clear -Lf1; lia). assert (MM : M < M + 2 /\ M + 1 < M + 2) by (clear; lia). destruct MM as (MM0 & MM1).
    split.
    - intros f c Lf Lc. destruct (classify f c Lf Lc) as [(g & d & Lg & Ld & NA & NB & HE & EE & MV & _)|Q].
      + destruct (co_map _ _ _ _ _ HC g d Lg Ld) as (X1 & X2). change (EMAP (ed st') (f + c * H)) with (em st' f c). rewrite EE. unfold em. cbv zeta. split; [clear -X1; cbv zeta in X1; lia|]. rewrite SS, <- MV. destruct X2 as [X2|(X2 & X3)]; [left; rewrite T1, X2 by auto; auto|right; split; [auto|]; rewrite T2, X3 by auto; auto].
      + cbv zeta. change (EMAP (ed st') (f + c * H)) with (em st' f c). rewrite SS. remember (em st' f c) as u eqn:EU. clear EU.
        assert (IJ : forall a b x y z a' b' x' y' z', (a, b, x, y, z) = (a', b', x', y', z') :> (nat * nat * (nat * nat) * nat * nat) -> a' = a /\ b' = b /\ z' = z) by (intros ? ? ? ? ? ? ? ? ? ? X; injection X as; auto).
        unfold new_half in Q. cbn [In] in Q. destruct Q as [Q|[Q|[Q|[Q|[Q|[Q|[Q|[Q|[]]]]]]]]]; apply IJ in Q; destruct Q as (-> & -> & ->); (split; [clear -HU; lia|]); auto.
    - intros u Hu. destruct (Nat.eq_dec u uei) as [->|NU]; [|destruct (Nat.eq_dec u K) as [->|NK]; [|destruct (Nat.eq_dec u (K + 1)) as [->|NK1]; [|destruct (Nat.eq_dec u (K + 2)) as [->|NK2]]]].
      + exists f0, c0. repeat split; auto. right. rewrite U1, H1. reflexivity.
      + exists f1, c1''. repeat split; auto. right. rewrite U2, H6. reflexivity.
      + exists f0, c0'. repeat split; auto. left. rewrite U3, H2. reflexivity.
      + exists M, 2. repeat split; auto. right. rewrite U4, H9. reflexivity.
      + assert (Lu : u < K) by (clear -Hu NK NK1 NK2; lia). destruct (co_one _ _ _ _ _ HC u Lu) as (g & d & Lg & Ld & SE & EE & UU). destruct (not_uei g d u EE NU) as (NA & NB). destruct (found g d Lg Ld NA NB) as (f & c & Lf & Lc & MV & HE & EM).
        exists f, c. rewrite T1, SE, MV, HE, UO by auto. repeat split; auto. unfold em in EM. congruence.
    - intros u Hu SZ. rewrite SS in SZ. destruct (Nat.eq_dec u uei) as [->|NU]; [|destruct (Nat.eq_dec u K) as [->|NK]; [|destruct (Nat.eq_dec u (K + 1)) as [->|NK1]; [|destruct (Nat.eq_dec u (K + 2)) as [->|NK2]]]].
      + exists f0, c0, f1, c1. rewrite H1, H4. repeat split; auto.
      + exists f1, c1'', M, 0. rewrite H6, H7. repeat split; auto.
      + exists f0, c0', (M + 1), 0. rewrite H2, H10. repeat split; auto.
      + exists M, 2, (M + 1), 1. rewrite H9, H11. repeat split; auto.
      + assert (Lu : u < K) by (clear -Hu NK NK1 NK2; lia). destruct (co_two _ _ _ _ _ HC u Lu SZ) as (g & d & g' & d' & Lg & Ld & Lg' & Ld' & SE & SE' & EE' & RV). destruct (co_one _ _ _ _ _ HC u Lu) as (g2 & d2 & Lg2 & Ld2 & SE2 & EE2 & _).
        assert (EE : EMAP (ed st) (g + d * H) = u) by (rewrite <- SE, SE2; auto).
        destruct (not_uei g d u EE NU) as (NA & NB). destruct (found g d Lg Ld NA NB) as (f & c & Lf & Lc & MV & HE & EM). destruct (not_uei g' d' u EE' NU) as (NA' & NB'). destruct (found g' d' Lg' Ld' NA' NB') as (f' & c' & Lf' & Lc' & MV' & HE' & EM').
        exists f, c, f', c'. rewrite T1, T2, SE, SE', MV, MV', HE, HE' by auto. repeat split; auto. unfold em in EM'. congruence.
  Qed.
  (** which directed edges there are *)
  Lemma step_edges x y : (exists f c, f < M + 2 /\ c < 3 /\ he (F st') f c = (x, y)) <->
    ((exists f c, f < M /\ c < 3 /\ he (F st) f c = (x, y)) /\ (x, y) <> (v1, v2) /\ (x, y) <> (v2, v1)) \/ In (x, y) [(v1, w); (w, v2); (v2, w); (w, v1); (w, v3); (v3, w); (w, v4); (v4, w)].
  Proof.
    destruct hes as (H1 & H2 & H3 & H4 & H5 & H6 & H7 & H8 & H9 & H10 & H11 & H12 & G1 & G2 & G3 & G4 & G5 & G6). pose proof (om_inj _ _ _ HO) as OI. split.
    - intros (f & c & Lf & Lc & E). destruct (classify f c Lf Lc) as [(g & d & Lg & Ld & NA & NB & HE & EE & MV & _)|Q].
      + left. split; [exists g, d; repeat split; auto; congruence|]. split; intros X; rewrite X in E; rewrite HE in E.
        * destruct (OI g d f0 c0 Lg Ld Lf0 Lc0 ltac:(congruence)) as (-> & ->). congruence.
        * destruct (OI g d f1 c1 Lg Ld Lf1 Lc1 ltac:(congruence)) as (-> & ->). congruence.
      + right. rewrite <- E. assert (IJ : forall a b x y z a' b' x' y' z', (a, b, x, y, z) = (a', b', x', y', z') :> (nat * nat * (nat * nat) * nat * nat) -> x' = x) by (intros ? ? ? ? ? ? ? ? ? ? X; injection X as; auto).
        unfold new_half in Q. cbn [In] in Q. destruct Q as [Q|[Q|[Q|[Q|[Q|[Q|[Q|[Q|[]]]]]]]]]; apply IJ in Q; rewrite Q; cbn [In]; tauto.
    - assert (FM0 : f0 < M + 2) by (clear -Lf0; lia). assert (FM1 : f1 < M + 2) by (clear -Lf1; lia). assert (MM : M < M + 2 /\ M + 1 < M + 2) by (clear; lia). destruct MM as (MM0 & MM1). cmods.
      intros [((g & d & Lg & Ld & E) & N1 & N2)|Q].
      + assert (NA : (g, d) <> (f0, c0)) by (intros X; injection X as -> ->; congruence). assert (NB : (g, d) <> (f1, c1)) by (intros X; injection X as -> ->; congruence).
        destruct (found g d Lg Ld NA NB) as (f & c & Lf & Lc & _ & HE & _). exists f, c. repeat split; auto. congruence.
      + cbn [In] in Q. destruct Q as [Q|[Q|[Q|[Q|[Q|[Q|[Q|[Q|[]]]]]]]]]; rewrite <- Q; [exists f0, c0|exists (M + 1), 1|exists M, 2|exists f1, c1|exists M, 0|exists f1, c1''|exists f0, c0'|exists (M + 1), 0]; repeat split; auto.
  Qed.
End Step.
