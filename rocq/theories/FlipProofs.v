(** Lemmas for P_Flip: one edge flip on an oriented edge-manifold *)
From Coq Require Import Reals Lra List Arith Bool Lia ZArith.
From Verif Require Import Vec SplitModel SplitProofs Split3Proofs Split4Proofs FlipModel.
Import ListNotations.
Open Scope nat_scope.

(** -- specification -- *)
(** the two faces at the edge opposite corner c1 of face f1 and corner c2 of face f2 are exchanged for the two faces at the other diagonal of their quadrilateral *)
Definition flipped (F F' : nat -> nat -> nat) (M f1 c1 f2 c2 : nat) : Prop :=
  let v1 := F f1 ((c1 + 1) mod 3) in let v2 := F f1 ((c1 + 2) mod 3) in let v4 := F f1 c1 in let v3 := F f2 c2 in
  F' f1 0 = v1 /\ F' f1 1 = v3 /\ F' f1 2 = v4 /\ F' f2 0 = v2 /\ F' f2 1 = v4 /\ F' f2 2 = v3 /\ forall f c, f < M -> f <> f1 -> f <> f2 -> c < 3 -> F' f c = F f c.
(** what igl::flip_edge must do *)
Definition flip_ok (flip : (nat -> nat -> nat) -> edges -> nat -> nat -> (nat -> nat -> nat) * edges) : Prop :=
  forall F e M N K u f1 c1 f2 c2, omesh F M N -> coherent F M K M e -> once K e -> u < K -> size e u = 2 -> f1 < M -> c1 < 3 -> f2 < M -> c2 < 3 -> slot e u 0 = f1 + c1 * M -> slot e u 1 = f2 + c2 * M ->
    ~ edge F M (F f2 c2) (F f1 c1) -> ~ edge F M (F f1 c1) (F f2 c2) ->
    flipped F (fst (flip F e M u)) M f1 c1 f2 c2 /\ coherent (fst (flip F e M u)) M K M (snd (flip F e M u)) /\ once K (snd (flip F e M u)).
(** number of faces with corner v *)
Definition valence (F : nat -> nat -> nat) (m v : nat) : nat := length (filter (fun f => Nat.eqb (F f 0) v || Nat.eqb (F f 1) v || Nat.eqb (F f 2) v) (seq 0 m)).

(** -- proofs -- *)
Lemma three c : c < 3 -> c = 0 \/ c = 1 \/ c = 2. Proof. lia. Qed.
Section Flip.
  Variables (F F' : nat -> nat -> nat) (M N f1 c1 f2 c2 : nat).
  Hypothesis (HO : omesh F M N) (L1 : f1 < M) (K1 : c1 < 3) (L2 : f2 < M) (K2 : c2 < 3) (HR : he F f1 c1 = swap (he F f2 c2)).
  Variables (c1' c1'' c2' c2'' v1 v2 v3 v4 : nat).
  Hypothesis (D1 : c1' = (c1 + 1) mod 3) (D1' : c1'' = (c1 + 2) mod 3) (D2 : c2' = (c2 + 1) mod 3) (D2' : c2'' = (c2 + 2) mod 3)
    (V1 : v1 = F f1 c1') (V2 : v2 = F f1 c1'') (V4 : v4 = F f1 c1) (V3 : v3 = F f2 c2).
  Hypothesis (N34 : ~ edge F M v3 v4) (N43 : ~ edge F M v4 v3) (HF : flipped F F' M f1 c1 f2 c2).

  Lemma fmods : (c1' < 3 /\ c1'' < 3 /\ c1 <> c1' /\ c1 <> c1'' /\ c1' <> c1'' /\ (c1' + 1) mod 3 = c1'' /\ (c1' + 2) mod 3 = c1 /\ (c1'' + 1) mod 3 = c1 /\ (c1'' + 2) mod 3 = c1' /\ forall d, d < 3 -> d = c1 \/ d = c1' \/ d = c1'')
    /\ (c2' < 3 /\ c2'' < 3 /\ c2 <> c2' /\ c2 <> c2'' /\ c2' <> c2'' /\ (c2' + 1) mod 3 = c2'' /\ (c2' + 2) mod 3 = c2 /\ (c2'' + 1) mod 3 = c2 /\ (c2'' + 2) mod 3 = c2' /\ forall d, d < 3 -> d = c2 \/ d = c2' \/ d = c2'').
  Proof. pose proof (mod3 c1 K1) as A. pose proof (mod3 c2 K2) as B. cbv zeta in A, B. rewrite <- D1, <- D1' in A. rewrite <- D2, <- D2' in B. tauto. Qed.
  Lemma fnew : F' f1 0 = v1 /\ F' f1 1 = v3 /\ F' f1 2 = v4 /\ F' f2 0 = v2 /\ F' f2 1 = v4 /\ F' f2 2 = v3 /\ forall f c, f < M -> f <> f1 -> f <> f2 -> c < 3 -> F' f c = F f c.
  Proof. pose proof HF as A. unfold flipped in A. cbv zeta in A. rewrite <- D1, <- D1', <- V1, <- V2, <- V3, <- V4 in A. exact A. Qed.
  Lemma fvb : F f2 c2' = v2 /\ F f2 c2'' = v1.
  Proof. pose proof HR as A. unfold he, swap in A. cbn [fst snd] in A. rewrite <- D1, <- D1', <- D2, <- D2', <- V1, <- V2 in A. injection A as A1 A2. auto. Qed.
  Lemma fne : f1 <> f2.
  Proof. intros E. destruct fmods as ((P1 & P2 & P3 & P4 & P5 & _) & Q & Q' & _). destruct fvb as (B1 & B2). rewrite <- E in B1, B2. rewrite V1 in B2. rewrite V2 in B1. apply (om_dist _ _ _ HO) in B1, B2; auto. clear -D1 D1' D2 D2' B1 B2 K1 K2. subst. assert (c1 = 0 \/ c1 = 1 \/ c1 = 2) as [->|[->| ->]] by lia; assert (c2 = 0 \/ c2 = 1 \/ c2 = 2) as [->|[->| ->]] by lia; cbn in *; lia. Qed.
  Lemma fdist : v1 <> v2 /\ v1 <> v4 /\ v2 <> v4 /\ v1 <> v3 /\ v2 <> v3 /\ v4 <> v3 /\ v1 < N /\ v2 < N /\ v3 < N /\ v4 < N.
  Proof.
    destruct fmods as ((P1 & P2 & P3 & P4 & P5 & _) & (Q1 & Q2 & Q3 & Q4 & Q5 & _)). destruct fvb as (B1 & B2). pose proof (om_dist _ _ _ HO) as OD. pose proof (om_range _ _ _ HO) as OR.
    assert (v4 <> v3) by (rewrite V3, V4; apply (om_opp _ _ _ HO); auto).
    repeat split; auto; try (rewrite ?V1, ?V2, ?V3, ?V4; apply OR; auto; fail).
    - rewrite V1, V2. intros E. apply OD in E; auto. - rewrite V1, V4. intros E. apply OD in E; auto. - rewrite V2, V4. intros E. apply OD in E; auto.
    - rewrite <- B2, V3. intros E. apply OD in E; auto. - rewrite <- B1, V3. intros E. apply OD in E; auto.
  Qed.
  (** the old half-edges of the two faces *)
  Lemma fold_he : he F f1 c1 = (v1, v2) /\ he F f2 c2 = (v2, v1) /\ he F f1 c1' = (v2, v4) /\ he F f1 c1'' = (v4, v1) /\ he F f2 c2' = (v1, v3) /\ he F f2 c2'' = (v3, v2).
  Proof. destruct fmods as ((P1 & P2 & P3 & P4 & P5 & P6 & P7 & P8 & P9 & _) & (Q1 & Q2 & Q3 & Q4 & Q5 & Q6 & Q7 & Q8 & Q9 & _)). destruct fvb as (B1 & B2). unfold he. rewrite P6, P7, P8, P9, Q6, Q7, Q8, Q9, <- D1, <- D1', <- D2, <- D2', B1, B2, <- V1, <- V2, <- V3, <- V4. auto 10. Qed.
  Lemma fnew_he : he F' f1 0 = (v3, v4) /\ he F' f1 1 = (v4, v1) /\ he F' f1 2 = (v1, v3) /\ he F' f2 0 = (v4, v3) /\ he F' f2 1 = (v3, v2) /\ he F' f2 2 = (v2, v4).
  Proof. destruct fnew as (A1 & A2 & A3 & A4 & A5 & A6 & _). unfold he. cbn. rewrite A1, A2, A3, A4, A5, A6. auto 10. Qed.
  Lemma fother f c : f < M -> f <> f1 -> f <> f2 -> c < 3 -> he F' f c = he F f c.
  Proof. destruct fnew as (_ & _ & _ & _ & _ & _ & AO). intros. unfold he. destruct (mod3 c H2) as (X1 & X2 & _). rewrite !AO; auto. Qed.
  Lemma fcases f : f < M -> f = f1 \/ f = f2 \/ (f <> f1 /\ f <> f2).
  Proof. intros. destruct (Nat.eq_dec f f1); auto. destruct (Nat.eq_dec f f2); auto. Qed.
  (** a face that is not flipped does not contain both v3 and v4 *)
  Lemma noboth g c d : g < M -> c < 3 -> d < 3 -> F g c = v3 -> F g d = v4 -> False.
  Proof.
    intros Lg Lc Ld E3 E4. destruct (mod3 c Lc) as (X1 & X2 & X3 & X4 & X5 & X6 & X7 & X8 & X9 & XX). assert (d = c \/ d = (c + 1) mod 3 \/ d = (c + 2) mod 3) as [->|[->| ->]] by (apply XX; auto).
    - pose proof fdist as (_ & _ & _ & _ & _ & Z6 & _). congruence.
    - apply N34. exists g, ((c + 2) mod 3). split; [auto|]. split; [auto|]. unfold he. rewrite X8, X9, E3, E4. auto.
    - apply N43. exists g, ((c + 1) mod 3). split; [auto|]. split; [auto|]. unfold he. rewrite X6, X7, E3, E4. auto.
  Qed.
  Lemma flip_omesh : omesh F' M N.
  Proof.
    pose proof fdist as (Z1 & Z2 & Z3 & Z4 & Z5 & Z6 & W1 & W2 & W3 & W4). destruct fnew as (A1 & A2 & A3 & A4 & A5 & A6 & AO). destruct fnew_he as (G1 & G2 & G3 & G4 & G5 & G6). destruct fold_he as (H1 & H2 & H3 & H4 & H5 & H6).
    destruct fmods as ((P1 & P2 & P3 & P4 & P5 & P6 & P7 & P8 & P9 & PP) & (Q1 & Q2 & Q3 & Q4 & Q5 & Q6 & Q7 & Q8 & Q9 & QQ)). pose proof fne as NE. pose proof fother as FO. pose proof fcases as FC.
    constructor.
    - intros f c Lf Lc. destruct (FC f Lf) as [->|[->|(X1 & X2)]]; [| |rewrite AO by auto; apply (om_range _ _ _ HO); auto]; destruct (three c Lc) as [->|[->| ->]]; congruence.
    - intros f c d Lf Lc Ld. destruct (FC f Lf) as [->|[->|(X1 & X2)]]; [| |rewrite !AO by auto; apply (om_dist _ _ _ HO); auto]; destruct (three c Lc) as [->|[->| ->]], (three d Ld) as [->|[->| ->]]; congruence.
    - assert (SIX : forall f c, (f = f1 \/ f = f2) -> c < 3 -> forall g d, g < M -> d < 3 -> g <> f1 -> g <> f2 -> he F' f c <> he F g d).
      { intros f c Ef Lc g d Lg Ld N1 N2 E. assert (NO : forall x y, x < M -> y < 3 -> (x = f1 \/ x = f2) -> he F x y <> he F g d) by (intros x y Lx Ly Ex EE; apply (om_inj _ _ _ HO) in EE; auto; destruct EE as (-> & _); destruct Ex; congruence).
        destruct Ef as [->| ->]; destruct (three c Lc) as [->|[->| ->]].
        - apply N34. exists g, d. split; [auto|]. split; [auto|]. congruence.
        - apply (NO f1 c1''); auto; congruence.
        - apply (NO f2 c2'); auto; congruence.
        - apply N43. exists g, d. split; [auto|]. split; [auto|]. congruence.
        - apply (NO f2 c2''); auto; congruence.
        - apply (NO f1 c1'); auto; congruence. }
      intros f c g d Lf Lc Lg Ld E. destruct (FC f Lf) as [Ef|[Ef|(X1 & X2)]], (FC g Lg) as [Eg|[Eg|(Y1 & Y2)]];
        try (exfalso; rewrite (FO g d) in E by auto; apply (SIX f c) in E; auto; fail); try (exfalso; rewrite (FO f c) in E by auto; symmetry in E; apply (SIX g d) in E; auto; fail).
      + subst f g. destruct (three c Lc) as [->|[->| ->]], (three d Ld) as [->|[->| ->]]; auto; exfalso; congruence.
      + subst f g. exfalso. destruct (three c Lc) as [->|[->| ->]], (three d Ld) as [->|[->| ->]]; congruence.
      + subst f g. exfalso. destruct (three c Lc) as [->|[->| ->]], (three d Ld) as [->|[->| ->]]; congruence.
      + subst f g. destruct (three c Lc) as [->|[->| ->]], (three d Ld) as [->|[->| ->]]; auto; exfalso; congruence.
      + rewrite !FO in E by auto. apply (om_inj _ _ _ HO); auto.
    - assert (HAS : forall f c g d, (f = f1 \/ f = f2) -> c < 3 -> g < M -> d < 3 -> g <> f1 -> g <> f2 -> he F' f c = swap (he F g d) -> F' f c = F g d -> False).
      { intros f c g d Ef Lc Lg Ld N1 N2 E EC. destruct (mod3 d Ld) as (X1 & X2 & _). unfold he at 2, swap in E. cbn [fst snd] in E.
        destruct Ef as [->| ->]; destruct (three c Lc) as [->|[->| ->]]; rewrite ?G1, ?G2, ?G3, ?G4, ?G5, ?G6 in E; injection E as E1 E2; rewrite ?A1, ?A2, ?A3, ?A4, ?A5, ?A6 in EC.
        - apply (noboth g ((d + 2) mod 3) ((d + 1) mod 3)); auto.
        - apply (noboth g d ((d + 2) mod 3)); auto.
        - apply (noboth g ((d + 1) mod 3) d); auto.
        - apply (noboth g ((d + 1) mod 3) ((d + 2) mod 3)); auto.
        - apply (noboth g ((d + 2) mod 3) d); auto.
        - apply (noboth g d ((d + 1) mod 3)); auto. }
      intros f c g d Lf Lc Lg Ld E EC. destruct (FC f Lf) as [Ef|[Ef|(X1 & X2)]], (FC g Lg) as [Eg|[Eg|(Y1 & Y2)]].
      + subst f g. destruct (three c Lc) as [->|[->| ->]], (three d Ld) as [->|[->| ->]]; rewrite ?G1, ?G2, ?G3, ?G4, ?G5, ?G6 in E; unfold swap in E; cbn [fst snd] in E; congruence.
      + subst f g. destruct (three c Lc) as [->|[->| ->]], (three d Ld) as [->|[->| ->]]; rewrite ?G1, ?G2, ?G3, ?G4, ?G5, ?G6 in E; unfold swap in E; cbn [fst snd] in E; congruence.
      + rewrite (FO g d), (AO g d) in * by auto. eapply (HAS f c g d); eauto.
      + subst f g. destruct (three c Lc) as [->|[->| ->]], (three d Ld) as [->|[->| ->]]; rewrite ?G1, ?G2, ?G3, ?G4, ?G5, ?G6 in E; unfold swap in E; cbn [fst snd] in E; congruence.
      + subst f g. destruct (three c Lc) as [->|[->| ->]], (three d Ld) as [->|[->| ->]]; rewrite ?G1, ?G2, ?G3, ?G4, ?G5, ?G6 in E; unfold swap in E; cbn [fst snd] in E; congruence.
      + rewrite (FO g d), (AO g d) in * by auto. eapply (HAS f c g d); eauto.
      + rewrite (FO f c) in E by auto. rewrite (AO f c) in EC by auto. eapply (HAS g d f c); eauto. rewrite E. destruct (he F' g d). reflexivity.
      + rewrite (FO f c) in E by auto. rewrite (AO f c) in EC by auto. eapply (HAS g d f c); eauto. rewrite E. destruct (he F' g d). reflexivity.
      + rewrite !FO in E by auto. rewrite !AO in EC by auto. exact (om_opp _ _ _ HO f c g d Lf Lc Lg Ld E EC).
  Qed.
  (** the directed edges afterwards *)
  Lemma flip_edges x y : edge F' M x y <-> (edge F M x y /\ (x, y) <> (v1, v2) /\ (x, y) <> (v2, v1)) \/ (x, y) = (v3, v4) \/ (x, y) = (v4, v3).
  Proof.
    pose proof fdist as (Z1 & Z2 & Z3 & Z4 & Z5 & Z6 & W1 & W2 & W3 & W4). destruct fnew_he as (G1 & G2 & G3 & G4 & G5 & G6). destruct fold_he as (H1 & H2 & H3 & H4 & H5 & H6).
    destruct fmods as ((P1 & P2 & P3 & P4 & P5 & P6 & P7 & P8 & P9 & PP) & (Q1 & Q2 & Q3 & Q4 & Q5 & Q6 & Q7 & Q8 & Q9 & QQ)). pose proof fne as NE. pose proof fother as FO. pose proof fcases as FC.
    assert (OLD : forall f c, f < M -> c < 3 -> f <> f1 -> f <> f2 -> he F f c <> (v1, v2) /\ he F f c <> (v2, v1)).
    { intros f c Lf Lc N1 N2. split; intros E; [rewrite <- H1 in E|rewrite <- H2 in E]; apply (om_inj _ _ _ HO) in E; auto; tauto. }
    split.
    - intros (f & c & Lf & Lc & E). destruct (FC f Lf) as [->|[->|(X1 & X2)]].
      + destruct (three c Lc) as [->|[->| ->]]; rewrite ?G1, ?G2, ?G3 in E; injection E as <- <-; [right; auto| |]; left; (split; [|split; congruence]); [exists f1, c1''|exists f2, c2']; auto.
      + destruct (three c Lc) as [->|[->| ->]]; rewrite ?G4, ?G5, ?G6 in E; injection E as <- <-; [right; auto| |]; left; (split; [|split; congruence]); [exists f2, c2''|exists f1, c1']; auto.
      + left. rewrite FO in E by auto. destruct (OLD f c Lf Lc X1 X2). split; [exists f, c; auto|rewrite <- E; auto].
    - intros [((f & c & Lf & Lc & E) & N1 & N2)|[E|E]].
      + destruct (FC f Lf) as [->|[->|(X1 & X2)]].
        * destruct (PP c Lc) as [->|[->| ->]]; [congruence|exists f2, 2|exists f1, 1]; repeat split; auto; congruence.
        * destruct (QQ c Lc) as [->|[->| ->]]; [congruence|exists f1, 2|exists f2, 1]; repeat split; auto; congruence.
        * exists f, c. rewrite FO by auto. auto.
      + injection E as -> ->. exists f1, 0. repeat split; auto; lia.
      + injection E as -> ->. exists f2, 0. repeat split; auto; lia.
  Qed.
End Flip.
