(** Lemmas for P_Flip: the contract of igl::flip_edge can be met *)
From Coq Require Import Reals Lra List Arith Bool Lia ZArith.
From Verif Require Import Vec SplitModel SplitProofs Split3Proofs Split4Proofs FlipModel FlipProofs Flip2Proofs.
Import ListNotations.
Open Scope nat_scope.

Lemma igl_flip_ok : flip_ok igl_flip.
Proof.
  intros F e M N K u f1 c1 f2 c2 HO HC ON LU SU L1 K1 L2 K2 S0 S1 N34 N43.
  destruct (co_one _ _ _ _ _ HC u LU) as (g1 & d1 & X1 & X2 & X3 & E1 & UE1). rewrite S0 in X3. apply enc_inj in X3; auto. destruct X3 as (<- & <-).
  destruct (co_two _ _ _ _ _ HC u LU SU) as (g1 & d1 & g2 & d2 & Y1 & Y2 & Y3 & Y4 & Y5 & Y6 & E2 & HR). rewrite S0 in Y5. rewrite S1 in Y6. apply enc_inj in Y5; auto. apply enc_inj in Y6; auto. destruct Y5 as (<- & <-), Y6 as (<- & <-). clear X1 X2 Y1 Y2 Y3 Y4 UE1.
  remember ((c1 + 1) mod 3) as c1' eqn:D1. remember ((c1 + 2) mod 3) as c1'' eqn:D1'. remember ((c2 + 1) mod 3) as c2' eqn:D2. remember ((c2 + 2) mod 3) as c2'' eqn:D2'.
  remember (F f1 c1') as v1 eqn:V1. remember (F f1 c1'') as v2 eqn:V2. remember (F f1 c1) as v4 eqn:V4. remember (F f2 c2) as v3 eqn:V3.
  pose proof (fne F M N f1 c1 f2 c2 HO L1 K1 K2 HR c1' c1'' c2' c2'' v1 v2 D1 D1' D2 D2' V1 V2) as NE.
  remember (igl_flip F e M u) as r eqn:ER. unfold igl_flip in ER. rewrite S0, S1, !enc_mod, !enc_div in ER by auto. rewrite <- D1, <- D1', <- D2, <- D2', <- V1, <- V2, <- V3, <- V4 in ER.
  assert (HF : flipped F (fst r) M f1 c1 f2 c2).
  { unfold flipped. cbv zeta. rewrite <- D1, <- D1', <- V1, <- V2, <- V3, <- V4, ER. cbn [fst]. rewrite Nat.eqb_refl. assert (f2 =? f1 = false) as -> by (apply Nat.eqb_neq; auto). rewrite Nat.eqb_refl. repeat split. intros f c Lf A B Lc. destruct (Nat.eqb_spec f f1), (Nat.eqb_spec f f2); try congruence. }
  split; [exact HF|].
  destruct (fmods c1 c2 K1 K2 c1' c1'' c2' c2'' D1 D1' D2 D2') as ((P1 & P2 & P3 & P4 & P5 & P6 & P7 & P8 & P9 & PP) & (Q1 & Q2 & Q3 & Q4 & Q5 & Q6 & Q7 & Q8 & Q9 & QQ)).
  destruct (fold_he F f1 c1 f2 c2 K1 K2 HR c1' c1'' c2' c2'' v1 v2 v3 v4 D1 D1' D2 D2' V1 V2 V4 V3) as (H1 & H2 & H3 & H4 & H5 & H6).
  destruct (fnew_he F (fst r) M f1 c1 f2 c2 c1' c1'' v1 v2 v3 v4 D1 D1' V1 V2 V4 V3 HF) as (G1 & G2 & G3 & G4 & G5 & G6).
  pose proof (fother F (fst r) M f1 c1 f2 c2 c1' c1'' v1 v2 v3 v4 D1 D1' V1 V2 V4 V3 HF) as FO.
  set (mv := fun h => if Nat.eqb h (f1 + c1' * M) then f2 + 2 * M else if Nat.eqb h (f1 + c1'' * M) then f1 + 1 * M else if Nat.eqb h (f2 + c2' * M) then f1 + 2 * M else if Nat.eqb h (f2 + c2'' * M) then f2 + 1 * M else h).
  assert (NQ : forall a b x y, a < M -> x < M -> a <> x \/ b <> y -> (a + b * M =? x + y * M) = false) by (intros a b x y La Lx D; apply Nat.eqb_neq; intros E; apply enc_inj in E; auto; destruct E; destruct D; auto).
  assert (MV : mv (f1 + c1' * M) = f2 + 2 * M /\ mv (f1 + c1'' * M) = f1 + 1 * M /\ mv (f2 + c2' * M) = f1 + 2 * M /\ mv (f2 + c2'' * M) = f2 + 1 * M /\ forall f c, f < M -> f <> f1 -> f <> f2 -> mv (f + c * M) = f + c * M).
  { unfold mv. repeat split; [rewrite Nat.eqb_refl; auto|rewrite NQ, Nat.eqb_refl by auto; auto|rewrite !NQ, Nat.eqb_refl by auto; auto|rewrite !NQ, Nat.eqb_refl by auto; auto|intros f c Lf A B; rewrite !NQ by auto; auto]. }
  assert (EM : EMAP (snd r) (f1 + 0 * M) = u /\ EMAP (snd r) (f1 + 1 * M) = EMAP e (f1 + c1'' * M) /\ EMAP (snd r) (f1 + 2 * M) = EMAP e (f2 + c2' * M) /\ EMAP (snd r) (f2 + 0 * M) = u /\ EMAP (snd r) (f2 + 1 * M) = EMAP e (f2 + c2'' * M) /\ EMAP (snd r) (f2 + 2 * M) = EMAP e (f1 + c1' * M)
    /\ forall f c, f < M -> f <> f1 -> f <> f2 -> EMAP (snd r) (f + c * M) = EMAP e (f + c * M)).
  { assert (IR : forall a, (a =? a) = true) by apply Nat.eqb_refl. assert (NA : (f1 =? f2) = false) by (apply Nat.eqb_neq; auto). assert (NB : (f2 =? f1) = false) by (apply Nat.eqb_neq; auto).
    rewrite ER. cbn [snd EMAP]. repeat split; [..|intros f c Lf A B]; rewrite !set1_enc by auto; rewrite ?IR, ?NA, ?NB; try reflexivity. apply Nat.eqb_neq in A, B. rewrite A, B. reflexivity. }
  assert (SL : forall w j, w <> u -> slot (snd r) w j = mv (slot e w j)) by (intros w j NW; rewrite ER; cbn [snd slot]; destruct (Nat.eqb_spec w u); [congruence|reflexivity]).
  assert (SLU : slot (snd r) u 0 = f1 /\ slot (snd r) u 1 = f2) by (rewrite ER; cbn [snd slot]; rewrite Nat.eqb_refl; auto).
  assert (SZ : size (snd r) = size e) by (rewrite ER; reflexivity). assert (UN : uE (snd r) = set1 (uE e) u (v3, v4)) by (rewrite ER; reflexivity). clearbody mv. clear ER.
  (** where an old half-edge went *)
  assert (FOUND : forall f c, f < M -> c < 3 -> EMAP e (f + c * M) <> u -> exists g d, g < M /\ d < 3 /\ mv (f + c * M) = g + d * M /\ he (fst r) g d = he F f c /\ EMAP (snd r) (g + d * M) = EMAP e (f + c * M)).
  { intros f c Lf Lc NU. destruct MV as (M1 & M2 & M3 & M4 & MO). destruct EM as (T1 & T2 & T3 & T4 & T5 & T6 & TO). destruct (fcases M f1 f2 f Lf) as [->|[->|(A & B)]].
    - destruct (PP c Lc) as [->|[->| ->]]; [congruence|exists f2, 2|exists f1, 1]; repeat split; auto; congruence.
    - destruct (QQ c Lc) as [->|[->| ->]]; [congruence|exists f1, 2|exists f2, 1]; repeat split; auto; congruence.
    - exists f, c. rewrite MO, FO, TO by auto. auto. }
  assert (NU : forall f c, f < M -> c < 3 -> (f, c) <> (f1, c1) -> (f, c) <> (f2, c2) -> EMAP e (f + c * M) <> u).
  { intros f c Lf Lc A B E. destruct (co_map _ _ _ _ _ HC f c Lf Lc) as (_ & Q). rewrite E in Q. destruct Q as [Q|(_ & Q)]; [rewrite S0 in Q|rewrite S1 in Q]; apply enc_inj in Q; auto; destruct Q as (-> & ->); congruence. }
  assert (PR : forall a b c d : nat, a <> c \/ b <> d -> (a, b) <> (c, d)) by (intros a b x y [X|X] E; injection E as; congruence).
  split.
  - constructor.
    + assert (OLD : forall f c h, f < M -> c < 3 -> EMAP e (f + c * M) <> u -> mv (f + c * M) = h -> let w := EMAP e (f + c * M) in w < K /\ (slot (snd r) w 0 = h \/ size (snd r) w = 2 /\ slot (snd r) w 1 = h)).
      { intros f c h Lf Lc NW E w. destruct (co_map _ _ _ _ _ HC f c Lf Lc) as (LW & Q). fold w in LW, Q, NW. split; [auto|]. rewrite !SL, SZ by auto. destruct Q as [Q|(Q1' & Q)]; [left|right; split; [auto|]]; rewrite Q; exact E. }
      destruct MV as (M1 & M2 & M3 & M4 & MO). destruct EM as (T1 & T2 & T3 & T4 & T5 & T6 & TO). destruct SLU as (U0 & U1). intros f c Lf Lc. cbv zeta. destruct (fcases M f1 f2 f Lf) as [->|[->|(A & B)]].
      * destruct (three c Lc) as [->|[->| ->]].
        -- rewrite T1. split; [auto|]. left. rewrite U0. lia.
        -- rewrite T2. apply OLD; auto; apply NU; auto; apply PR; auto.
        -- rewrite T3. apply OLD; auto; apply NU; auto; apply PR; auto.
      * destruct (three c Lc) as [->|[->| ->]].
        -- rewrite T4. split; [auto|]. right. rewrite U1, SZ. split; [auto|lia].
        -- rewrite T5. apply OLD; auto; apply NU; auto; apply PR; auto.
        -- rewrite T6. apply OLD; auto; apply NU; auto; apply PR; auto.
      * rewrite TO by auto. apply OLD; auto; apply NU; auto; apply PR; auto.
    + intros w LW. rewrite UN. unfold set1. destruct (Nat.eqb_spec w u) as [->|NW].
      * exists f1, 0. destruct EM as (T1 & _). destruct SLU as (U0 & _). rewrite U0, T1, G1. repeat split; auto; lia.
      * destruct (co_one _ _ _ _ _ HC w LW) as (f & c & Lf & Lc & T0 & TE & TU). destruct (FOUND f c Lf Lc ltac:(congruence)) as (g & d & Lg & Ld & Z1 & Z2 & Z3). exists g, d. rewrite SL, T0, Z1, Z2, Z3 by auto. repeat split; auto.
    + intros w LW. rewrite SZ. intros S2. destruct (Nat.eq_dec w u) as [->|NW].
      * exists f1, 0, f2, 0. destruct EM as (T1 & _ & _ & T4 & _). destruct SLU as (U0 & U1). rewrite U0, U1, T4, G1, G4. repeat split; auto; lia.
      * destruct (co_two _ _ _ _ _ HC w LW S2) as (f & c & f' & c' & Lf & Lc & Lf' & Lc' & T0 & T1 & TE & TH).
        destruct (co_one _ _ _ _ _ HC w LW) as (f'' & c'' & Lf'' & Lc'' & T0' & TE' & _). rewrite T0 in T0'. apply enc_inj in T0'; auto. destruct T0' as (<- & <-).
        destruct (FOUND f c Lf Lc ltac:(congruence)) as (g & d & Lg & Ld & Z1 & Z2 & Z3). destruct (FOUND f' c' Lf' Lc' ltac:(congruence)) as (g' & d' & Lg' & Ld' & Z1' & Z2' & Z3').
        exists g, d, g', d'. rewrite !SL, T0, T1, Z1, Z1', Z2, Z2', Z3' by auto. repeat split; auto.
  - assert (NE34 : forall w, w < K -> uE e w <> (v3, v4) /\ uE e w <> (v4, v3)).
    { intros w LW. destruct (co_one _ _ _ _ _ HC w LW) as (f & c & Lf & Lc & _ & _ & TU). destruct (he F f c) as [x y] eqn:HE. unfold swap in TU. cbn [fst snd] in TU.
      assert (ED : edge F M x y) by (exists f, c; auto). split; intros E; rewrite E in TU; destruct TU as [TU|TU]; injection TU as <- <-; auto. }
    intros w w' LW LW'. rewrite UN. unfold set1. destruct (Nat.eqb_spec w u) as [->|NW], (Nat.eqb_spec w' u) as [->|NW']; intros E; auto.
    + exfalso. destruct (NE34 w' LW') as (A & B). unfold swap in E. destruct (uE e w') as [x y]. cbn [fst snd] in E. destruct E as [E|E]; injection E as <- <-; auto.
    + exfalso. destruct (NE34 w LW) as (A & B). unfold swap in E. cbn [fst snd] in E. destruct E; auto.
Qed.
