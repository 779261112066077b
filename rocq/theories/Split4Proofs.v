(** Lemmas for P_Split: renumbering the half-edges, the loop over the chosen edges, the feature edges *)
From Coq Require Import Reals Lra List Arith Bool Lia.
From Verif Require Import Vec MatModel MatProofs BiharmProofs SplitModel SplitProofs Split2Proofs Split3Proofs.
Import ListNotations.
Open Scope nat_scope.

(** -- renumbering -- *)
Lemma shift_enc m s f c : f < m -> c < 3 -> shift m s (f + c * m) = f + c * (m + 2 * s).
Proof. intros Lf Lc. unfold shift. assert (c = 0 \/ c = 1 \/ c = 2) as [->|[->| ->]] by lia; destruct (Nat.leb_spec (2 * m) (f + 0 * m)); destruct (Nat.leb_spec m (f + 0 * m)); destruct (Nat.leb_spec (2 * m) (f + 1 * m)); destruct (Nat.leb_spec m (f + 1 * m)); destruct (Nat.leb_spec (2 * m) (f + 2 * m)); destruct (Nat.leb_spec m (f + 2 * m)); lia. Qed.
Lemma relayout_emap m s k e f c : f < m -> c < 3 -> EMAP (relayout m s k e) (f + c * (m + 2 * s)) = EMAP e (f + c * m).
Proof. intros Lf Lc. unfold relayout. cbn [EMAP]. rewrite enc_mod, enc_div by lia. destruct (Nat.ltb_spec f m), (Nat.ltb_spec c 3); try lia. reflexivity. Qed.
Lemma relayout_ok F m s k e : coherent F m k m e -> coherent F m k (m + 2 * s) (relayout m s k e).
Proof.
  intros HC. assert (SL : forall u j, u < k -> slot (relayout m s k e) u j = shift m s (slot e u j)) by (intros u j Lu; unfold relayout; cbn [slot]; destruct (Nat.ltb_spec u k); [auto|lia]).
  assert (SZ : forall u, u < k -> size (relayout m s k e) u = size e u) by (intros u Lu; unfold relayout; cbn [size]; destruct (Nat.ltb_spec u k); [auto|lia]).
  constructor.
  - intros f c Lf Lc u. subst u. rewrite relayout_emap by auto. destruct (co_map _ _ _ _ _ HC f c Lf Lc) as (LK & Q). split; [auto|]. rewrite !SL, SZ by auto. destruct Q as [Q|(Q1 & Q)]; [left|right; split; [auto|]]; rewrite Q; apply shift_enc; auto.
  - intros u Lu. destruct (co_one _ _ _ _ _ HC u Lu) as (f & c & Lf & Lc & S0 & EM & UE). exists f, c. rewrite SL, relayout_emap, S0, shift_enc by auto. auto 10.
  - intros u Lu. rewrite SZ by auto. intros S2. destruct (co_two _ _ _ _ _ HC u Lu S2) as (f & c & g & d & Lf & Lc & Lg & Ld & S0 & S1 & EM & HE). exists f, c, g, d. rewrite !SL, relayout_emap, S0, S1, !shift_enc by auto. auto 10.
Qed.
Lemma relayout_size m s k e u : k <= u -> size (relayout m s k e) u = 2.
Proof. intros. unfold relayout. cbn [size]. destruct (Nat.ltb_spec u k); [lia|auto]. Qed.

(** -- the ends of the listed edges -- *)
Lemma ends F0 M N K H e : omesh F0 M N -> coherent F0 M K H e -> forall u, u < K -> fst (uE e u) < N /\ snd (uE e u) < N /\ fst (uE e u) <> snd (uE e u).
Proof.
  intros HO HC u Lu. destruct (co_one _ _ _ _ _ HC u Lu) as (f & c & Lf & Lc & _ & _ & Ex). destruct (mod3 c Lc) as (M1 & M2 & _). pose proof (om_range _ _ _ HO f _ Lf M1). pose proof (om_range _ _ _ HO f _ Lf M2). pose proof (he_ne _ _ _ f c HO Lf Lc) as NE.
  destruct Ex as [Ex|Ex]; rewrite Ex; unfold swap, he in *; cbn [fst snd] in *; auto.
Qed.

(** -- the loop -- *)
Definition chosen (e : edges) (es : list nat) (x y : nat) : Prop := exists u, In u es /\ (uE e u = (x, y) \/ uE e u = (y, x)).
Record run_facts (n m k H i : nat) (es : list nat) (st st' : state) : Prop := {
  rf_omesh : omesh (F st') (m + 2 * (i + length es)) (n + (i + length es));
  rf_coh : coherent (F st') (m + 2 * (i + length es)) (k + 3 * (i + length es)) H (ed st');
  rf_once : once (k + 3 * i) (ed st) -> once (k + 3 * (i + length es)) (ed st');
  rf_size : size (ed st') = size (ed st);
  rf_uE : forall u, u < k -> ~ In u es -> uE (ed st') u = uE (ed st) u;
  rf_old : forall v, v < n + i -> V st' v = V st v /\ high st' v = high st v /\ low st' v = low st v;
  rf_edges : forall x y, x < n + i -> y < n + i -> (edge (F st') (m + 2 * (i + length es)) x y <-> edge (F st) (m + 2 * i) x y /\ ~ chosen (ed st) es x y);
  rf_new : forall j u, nth_error es j = Some u -> let a := fst (uE (ed st) u) in let b := snd (uE (ed st) u) in let w := n + (i + j) in let M := m + 2 * (i + length es) in
    edge (F st) (m + 2 * i) a b /\ edge (F st) (m + 2 * i) b a
    /\ V st' w = mid3 (V st a) (V st b) /\ high st' w = ((high st a + high st b) / 2)%R /\ low st' w = ((low st a + low st b) / 2)%R
    /\ edge (F st') M a w /\ edge (F st') M w b /\ edge (F st') M b w /\ edge (F st') M w a;
  rf_surface : forall p, surface (V st') (F st') (m + 2 * (i + length es)) p <-> surface (V st) (F st) (m + 2 * i) p;
  rf_area : total_area2 (V st') (F st') (m + 2 * (i + length es)) = total_area2 (V st) (F st) (m + 2 * i) }.
Lemma run n m k H : forall es i st, omesh (F st) (m + 2 * i) (n + i) -> coherent (F st) (m + 2 * i) (k + 3 * i) H (ed st) -> m + 2 * (i + length es) <= H ->
  NoDup es -> (forall u, In u es -> u < k /\ size (ed st) u = 2) -> (forall u, k + 3 * i <= u -> size (ed st) u = 2) ->
  run_facts n m k H i es st (fold_left (fun st p => split_one n m k H (fst p) (snd p) st) (combine (seq i (length es)) es) st).
Proof.
  induction es as [|uei es IH]; intros i st HO HC HH ND HE HZ.
  - cbn [length combine seq fold_left]. constructor; cbn [length]; rewrite ?Nat.add_0_r; auto; try tauto.
    + intros x y _ _. split; [intros Q; split; [auto|intros (u & [] & _)]|tauto].
    + intros j u Q. destruct j; discriminate.
  - cbn [length seq combine fold_left fst snd] in *. inversion ND as [|? ? NI ND' EQ]; subst.
    destruct (HE uei (or_introl eq_refl)) as (LU & SU). assert (HH1 : m + 2 * S i <= H) by lia. assert (LU' : uei < k + 3 * i) by lia.
    destruct (step_all n m k H i uei st HO HC HH1 LU' SU HZ) as (v1 & v2 & SF). set (st1 := split_one n m k H i uei st) in *. clearbody st1.
    destruct SF as [Q1 Q2 Q3 Q4 Q5 Q6 Q7 Q8 Q9 Q10 Q11 Q12 Q13 Q14].
    assert (IH1 : run_facts n m k H (S i) es st1 (fold_left (fun st p => split_one n m k H (fst p) (snd p) st) (combine (seq (S i) (length es)) es) st1)).
    { apply IH; auto; [lia| |]; [intros u Iu; rewrite Q3; apply HE; right; exact Iu|intros u Lu; rewrite Q3; apply HZ; lia]. }
    set (st' := fold_left _ _ st1) in *. clearbody st'. clear IH. destruct IH1 as [R1 R2 R3 R4 R5 R6 R7 R8 R9 R10].
    replace (S i + length es) with (i + S (length es)) in * by lia.
    assert (KE : forall u, In u es -> uE (ed st1) u = uE (ed st) u) by (intros u Iu; apply Q6; [destruct (HE u (or_intror Iu)); lia|intros ->; auto]).
    pose proof (ends _ _ _ _ _ _ HO HC) as EN. destruct (EN uei LU') as (EA & EB & EAB).
    assert (B12 : v1 < n + i /\ v2 < n + i) by (destruct Q4 as [E|E]; rewrite E in EA, EB; auto). destruct B12 as (B1 & B2).
    assert (VO : forall v, v < n + i -> V st1 v = V st v /\ high st1 v = high st v /\ low st1 v = low st v).
    { intros v Lv. rewrite Q10, Q11, Q12. unfold set1. destruct (Nat.eqb_spec v (n + i)); [lia|auto]. }
    constructor; auto.
    + congruence.
    + intros u Lu NIu. cbn [In] in NIu. rewrite R5 by tauto. apply Q6; [lia|intros ->; tauto].
    + intros v Lv. destruct (R6 v ltac:(lia)) as (-> & -> & ->). apply VO. auto.
    + intros x y Lx Ly. rewrite R7 by lia. rewrite Q8 by auto. unfold chosen. split.
      * intros ((X1 & X2 & X3) & X4). split; [auto|]. intros (u & [<-|Iu] & UE); [destruct Q4 as [E|E]; rewrite E in UE; destruct UE; congruence|]. apply X4. exists u. rewrite KE by auto. auto.
      * intros (X1 & X2). split; [split; [auto|split; intros EQ; apply X2; exists uei; (split; [left; reflexivity|]); destruct Q4 as [E|E]; rewrite E; injection EQ as -> ->; auto]|]. intros (u & Iu & UE). apply X2. exists u. rewrite <- KE by auto. split; [right; auto|auto].
    + intros j u NJ. cbv zeta. cbn [length]. destruct j as [|j]; cbn [nth_error] in NJ.
      * injection NJ as <-. rewrite !Nat.add_0_r. destruct (R6 (n + i) ltac:(lia)) as (-> & -> & ->). rewrite Q10, Q11, Q12. unfold set1. rewrite Nat.eqb_refl.
        assert (NC : forall x, x < n + i -> ~ chosen (ed st1) es x (n + i) /\ ~ chosen (ed st1) es (n + i) x).
        { intros x Lx. split; intros (u & Iu & UE); rewrite KE in UE by auto; destruct (EN u ltac:(destruct (HE u (or_intror Iu)); lia)) as (Z1 & Z2 & _); destruct UE as [E|E]; rewrite E in Z1, Z2; cbn [fst snd] in *; lia. }
        assert (NW : forall x, x < n + i -> edge (F st1) (m + 2 * S i) x (n + i) -> edge (F st') (m + 2 * (i + S (length es))) x (n + i)) by (intros x Lx Q; apply R7; [lia|lia|]; split; [auto|]; apply NC; auto).
        assert (NW' : forall x, x < n + i -> edge (F st1) (m + 2 * S i) (n + i) x -> edge (F st') (m + 2 * (i + S (length es))) (n + i) x) by (intros x Lx Q; apply R7; [lia|lia|]; split; [auto|]; apply NC; auto).
        destruct Q5 as (O1 & O2). destruct Q9 as (N1 & N2 & N3 & N4).
        destruct Q4 as [E|E]; rewrite E; cbn [fst snd]; repeat split; auto; try lra. rewrite mid3_comm. reflexivity.
      * specialize (R8 j u NJ). cbv zeta in R8. assert (Iu : In u es) by (eapply nth_error_In; eauto). rewrite KE in R8 by auto. destruct (EN u ltac:(destruct (HE u (or_intror Iu)); lia)) as (Z1 & Z2 & Z3).
        destruct R8 as (X1 & X2 & X3 & X4 & X5 & X6). replace (n + (i + S j)) with (n + (S i + j)) by lia. apply Q8 in X1; auto. apply Q8 in X2; auto. destruct (VO _ Z1) as (Y1 & Y2 & Y3). destruct (VO _ Z2) as (Y4 & Y5 & Y6). rewrite Y1, Y4 in X3. rewrite Y2, Y5 in X4. rewrite Y3, Y6 in X5. repeat split; try tauto; auto.
    + intros p. rewrite R9. apply Q13.
    + cbn [length]. rewrite R10. exact Q14.
Qed.
