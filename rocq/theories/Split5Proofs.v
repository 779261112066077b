(** Lemmas for P_Split: the table of feature edges *)
From Coq Require Import Reals Lra List Arith Bool Lia.
From Verif Require Import Vec SplitModel SplitProofs Split3Proofs Split4Proofs.
Import ListNotations.
Open Scope nat_scope.

Lemma same_edge_spec a b : same_edge a b = true <-> a = b \/ a = swap b.
Proof. destruct a as [x y], b as [z t]. unfold same_edge, swap. cbn [fst snd]. rewrite orb_true_iff, !andb_true_iff, !Nat.eqb_eq. split; [intros [(-> & ->)|(-> & ->)]; auto|intros [E|E]; injection E as -> ->; auto]. Qed.
Lemma swap_swap a : swap (swap a) = a. Proof. destruct a; reflexivity. Qed.
Lemma same_edge_sym a b : same_edge a b = true -> same_edge b a = true.
Proof. rewrite !same_edge_spec. intros [->| ->]; [auto|right; rewrite swap_swap; auto]. Qed.
Lemma same_edge_trans a b c : same_edge a b = true -> same_edge b c = true -> same_edge a c = true.
Proof. rewrite !same_edge_spec. intros [->| ->] [->| ->]; rewrite ?swap_swap; auto. Qed.
Lemma same_edge_refl a : same_edge a a = true. Proof. apply same_edge_spec; auto. Qed.
Lemma feature_row_some fe a : forall j, feature_row fe a = Some j -> exists b, nth_error fe j = Some b /\ same_edge a b = true.
Proof.
  induction fe as [|b fe IH]; cbn; intros j E; [discriminate|]. destruct (feature_row fe a) as [j0|].
  - injection E as <-. destruct (IH j0 eq_refl) as (c & Q). exists c. exact Q.
  - destruct (same_edge a b) eqn:SE; [|discriminate]. injection E as <-. exists b. auto.
Qed.
Lemma feature_row_none fe a : feature_row fe a = None -> forall b, In b fe -> same_edge a b = false.
Proof. induction fe as [|c fe IH]; cbn; intros E b; [tauto|]. destruct (feature_row fe a); [discriminate|]. destruct (same_edge a c) eqn:SE; [discriminate|]. intros [<-|Ib]; auto. Qed.
Lemma feature_has fe a : has (feature_row fe a) = true <-> exists b, In b fe /\ same_edge a b = true.
Proof.
  split.
  - destruct (feature_row fe a) as [j|] eqn:E; [|discriminate]. intros _. destruct (feature_row_some _ _ _ E) as (b & N & S). exists b. split; [eapply nth_error_In; eauto|auto].
  - intros (b & Ib & S). destruct (feature_row fe a) eqn:E; [auto|]. rewrite (feature_row_none _ _ E b Ib) in S. discriminate.
Qed.
Lemma set_row_length l : forall j x, length (set_row l j x) = length l.
Proof. induction l as [|y l IH]; intros [|j] x; cbn; auto. Qed.
Lemma set_row_app l l' : forall j x, j < length l -> set_row (l ++ l') j x = set_row l j x ++ l'.
Proof. induction l as [|y l IH]; intros [|j] x L; cbn in *; try lia; auto. rewrite IH by lia. auto. Qed.
Lemma set_row_same l : forall j x, j < length l -> nth_error (set_row l j x) j = Some x.
Proof. induction l as [|y l IH]; intros [|j] x L; cbn in *; try lia; auto. apply IH. lia. Qed.
Lemma set_row_other l : forall j q x, q <> j -> nth_error (set_row l j x) q = nth_error l q.
Proof. induction l as [|y l IH]; intros [|j] [|q] x L; cbn in *; try lia; auto. Qed.

Definition sym_once (fe : list (nat * nat)) : Prop := NoDup fe /\ forall a b, In a fe -> In b fe -> same_edge a b = true -> a = b.
Section Features.
  Variables (n : nat) (old : nat -> nat * nat) (fe0 : list (nat * nat)).
  Let row (u : nat) := feature_row fe0 (old u).
  Let tail (p : nat * nat) : list (nat * nat) := match row (snd p) with None => [] | Some _ => [(n + fst p, snd (old (snd p)))] end.
  Let step := fun fe (p : nat * nat) => match feature_row fe0 (old (snd p)) with None => fe | Some r => set_row fe r (fst (old (snd p)), n + fst p) ++ [(n + fst p, snd (old (snd p)))] end.
  Lemma feat_fold : forall L A B, length A = length fe0 -> exists A', fold_left step L (A ++ B) = A' ++ B ++ flat_map tail L /\ length A' = length fe0 /\
    forall p, (forall q, In q L -> row (snd q) <> Some p) -> nth_error A' p = nth_error A p.
  Proof.
    induction L as [|q L IH]; intros A B LA; cbn [fold_left flat_map].
    - exists A. rewrite app_nil_r. auto.
    - unfold step at 2. unfold tail at 1. unfold row at 1. destruct (feature_row fe0 (old (snd q))) as [r|] eqn:E.
      + assert (LR : r < length A) by (rewrite LA; destruct (feature_row_some _ _ _ E) as (b & N & _); apply nth_error_Some; congruence).
        rewrite set_row_app, <- app_assoc by auto. destruct (IH (set_row A r (fst (old (snd q)), n + fst q)) (B ++ [(n + fst q, snd (old (snd q)))])) as (A' & E1 & E2 & E3); [rewrite set_row_length; auto|].
        exists A'. rewrite E1, <- !app_assoc. split; [auto|]. split; [auto|]. intros p HP. rewrite E3 by (intros q' Iq; apply HP; right; auto). apply set_row_other. intros ->. apply (HP q (or_introl eq_refl)). exact E.
      + destruct (IH A B LA) as (A' & E1 & E2 & E3). exists A'. split; [exact E1|]. split; [auto|]. intros p HP. apply E3. intros q' Iq. apply HP. right; auto.
  Qed.
  Lemma feat_hit : forall L A B q r, length A = length fe0 -> In q L -> row (snd q) = Some r -> (forall q', In q' L -> row (snd q') = Some r -> q' = q) -> NoDup L ->
    exists A', fold_left step L (A ++ B) = A' ++ B ++ flat_map tail L /\ length A' = length fe0 /\ nth_error A' r = Some (fst (old (snd q)), n + fst q).
  Proof.
    intros L A B q r LA Iq E U ND. apply in_split in Iq. destruct Iq as (L1 & L2 & ->). rewrite fold_left_app, flat_map_app. destruct (feat_fold L1 A B LA) as (A1 & E1 & LA1 & _). rewrite E1. cbn [fold_left flat_map].
    assert (LR : r < length A1) by (rewrite LA1; destruct (feature_row_some _ _ _ E) as (b & N & _); apply nth_error_Some; congruence).
    assert (SQ : step (A1 ++ B ++ flat_map tail L1) q = set_row A1 r (fst (old (snd q)), n + fst q) ++ (B ++ flat_map tail L1 ++ tail q)) by (assert (TQ : tail q = [(n + fst q, snd (old (snd q)))]) by (unfold tail; rewrite E; reflexivity); rewrite TQ; unfold step; unfold row in E; rewrite E, set_row_app, <- !app_assoc by auto; reflexivity).
    rewrite SQ. destruct (feat_fold L2 (set_row A1 r (fst (old (snd q)), n + fst q)) (B ++ flat_map tail L1 ++ tail q)) as (A2 & E2 & LA2 & K2); [rewrite set_row_length; auto|]. exists A2. rewrite E2, <- !app_assoc. split; [auto|]. split; [auto|].
    rewrite K2; [apply set_row_same; auto|]. intros q' Iq E'. assert (q' = q) by (apply U; [apply in_or_app; right; right; auto|auto]). subst q'. apply NoDup_remove_2 in ND. apply ND. apply in_or_app. auto.
  Qed.
End Features.
Lemma in_seq_combine (es : list nat) : forall i j u, In (j, u) (combine (seq i (length es)) es) <-> i <= j /\ nth_error es (j - i) = Some u.
Proof.
  induction es as [|x es IH]; intros i j u; cbn [length seq combine In].
  - split; [tauto|]. intros (_ & E). destruct (j - i); discriminate.
  - rewrite IH. split.
    + intros [E|(L & E)]; [injection E as <- <-; rewrite Nat.sub_diag; auto|]. split; [lia|]. replace (j - i) with (S (j - S i)) by lia. exact E.
    + intros (L & E). destruct (Nat.eq_dec i j) as [->|N]; [left; rewrite Nat.sub_diag in E; cbn in E; congruence|]. right. split; [lia|]. replace (j - i) with (S (j - S i)) in E by lia. exact E.
Qed.
Lemma combine_seq_nodup (es : list nat) : forall i, NoDup (combine (seq i (length es)) es).
Proof. induction es as [|x es IH]; intros i; cbn; constructor; auto. rewrite in_seq_combine. lia. Qed.

(** what the table holds afterwards *)
Lemma features_spec n old fe0 es : sym_once fe0 -> NoDup es -> (forall u u', In u es -> In u' es -> same_edge (old u) (old u') = true -> u = u') ->
  exists A B, split_features n old es fe0 = A ++ B /\ length A = length fe0
    /\ (forall p b, nth_error fe0 p = Some b -> (nth_error A p = Some b /\ forall u, In u es -> same_edge (old u) b = false) \/ (exists j u, nth_error es j = Some u /\ same_edge (old u) b = true /\ nth_error A p = Some (fst (old u), n + j)))
    /\ (forall r, In r B <-> exists j u b, nth_error es j = Some u /\ In b fe0 /\ same_edge (old u) b = true /\ r = (n + j, snd (old u)))
    /\ NoDup B.
Proof.
  intros (ND & SY) NE OU. unfold split_features. set (L := combine (seq 0 (length es)) es). assert (IL : forall j u, In (j, u) L <-> nth_error es j = Some u) by (intros j u; unfold L; rewrite in_seq_combine, Nat.sub_0_r; split; [tauto|split; [lia|auto]]).
  assert (NL : NoDup L) by apply combine_seq_nodup.
  assert (UQ : forall u u' b, In u es -> In u' es -> same_edge (old u) b = true -> same_edge (old u') b = true -> u = u') by (intros u u' b Iu Iu' S1 S2; apply OU; auto; eapply same_edge_trans; [exact S1|apply same_edge_sym; auto]).
  destruct (feat_fold n old fe0 L fe0 [] eq_refl) as (A & E1 & LA & KA). rewrite app_nil_r in E1. cbn [app] in E1. exists A, (flat_map (fun p => match feature_row fe0 (old (snd p)) with None => [] | Some _ => [(n + fst p, snd (old (snd p)))] end) L).
  split; [exact E1|]. split; [exact LA|]. split; [|split].
  - intros p b NP. destruct (existsb (fun u => same_edge (old u) b) es) eqn:EX.
    + right. apply existsb_exists in EX. destruct EX as (u & Iu & SU). apply In_nth_error in Iu. destruct Iu as (j & NJ). exists j, u. split; [auto|]. split; [auto|].
      assert (RU : forall v, In v es -> same_edge (old v) b = true -> feature_row fe0 (old v) = Some p).
      { intros v Iv Sv. destruct (feature_row fe0 (old v)) as [p'|] eqn:EP; [|rewrite (feature_row_none _ _ EP b (nth_error_In _ _ NP)) in Sv; discriminate]. destruct (feature_row_some _ _ _ EP) as (b' & NP' & SB). f_equal.
        assert (b' = b) by (apply SY; [eapply nth_error_In; eauto|eapply nth_error_In; eauto|eapply same_edge_trans; [apply same_edge_sym; exact SB|exact Sv]]). subst b'.
        assert (p' < length fe0) by (apply nth_error_Some; congruence). apply (proj1 (NoDup_nth_error fe0) ND p' p); congruence. }
      destruct (feat_hit n old fe0 L fe0 [] (j, u) p eq_refl) as (A' & E1' & LA' & H'); auto.
      * apply IL. auto.
      * cbn [snd]. apply RU; [eapply nth_error_In; eauto|auto].
      * intros (j' & u') Iq EQ. cbn [snd] in EQ. apply IL in Iq. destruct (feature_row_some _ _ _ EQ) as (b' & NP' & SB). assert (b' = b) by congruence. subst b'.
        assert (u' = u) by (apply (UQ u' u b); auto; eapply nth_error_In; eauto). subst u'. f_equal. assert (j' < length es) by (apply nth_error_Some; congruence). apply (proj1 (NoDup_nth_error es) NE j' j); congruence.
      * rewrite app_nil_r in E1'. cbn [app fst snd] in *. assert (A = A') by (rewrite E1 in E1'; apply app_inv_tail in E1'; auto). subst A'. exact H'.
    + left. assert (NS : forall u, In u es -> same_edge (old u) b = false) by (intros u Iu; destruct (same_edge (old u) b) eqn:SE; [|auto]; assert (existsb (fun u => same_edge (old u) b) es = true) by (apply existsb_exists; exists u; auto); congruence). split; [|auto].
      rewrite KA; [auto|]. intros (j & u) Iq EQ. cbn [snd] in EQ. apply IL in Iq. destruct (feature_row_some _ _ _ EQ) as (b' & NP' & SB). assert (b' = b) by congruence. subst b'. rewrite NS in SB by (eapply nth_error_In; eauto). discriminate.
  - intros r. rewrite in_flat_map. split.
    + intros ((j & u) & Iq & Ir). cbn [fst snd] in Ir. destruct (feature_row fe0 (old u)) as [p|] eqn:EP; [|destruct Ir]. destruct Ir as [<-|[]]. destruct (feature_row_some _ _ _ EP) as (b & NP & SB). exists j, u, b. apply IL in Iq. repeat split; auto. eapply nth_error_In; eauto.
    + intros (j & u & b & NJ & Ib & SB & ->). exists (j, u). split; [apply IL; auto|]. cbn [fst snd]. destruct (feature_row fe0 (old u)) as [p|] eqn:EP; [left; auto|]. rewrite (feature_row_none _ _ EP b Ib) in SB. discriminate.
  - clear -NL IL NE. assert (FU : forall p q, In p L -> In q L -> fst p = fst q -> p = q) by (intros (j & u) (j' & u') P Q E; cbn [fst] in E; subst j'; apply IL in P; apply IL in Q; congruence). clear IL NE.
    induction L as [|(j & u) L IH]; cbn [flat_map]; [constructor|]. inversion NL as [|? ? NI NL' EQ]; subst. specialize (IH NL' ltac:(intros; apply FU; auto; right; auto)). cbn [fst snd]. destruct (feature_row fe0 (old u)); [|exact IH]. cbn [app]. constructor; [|exact IH].
    rewrite in_flat_map. intros ((j' & u') & Iq & Ir). cbn [fst snd] in Ir. destruct (feature_row fe0 (old u')); [|destruct Ir]. destruct Ir as [E|[]]. injection E as E _. assert (j' = j) by lia. subst j'. apply NI. rewrite (FU (j, u) (j, u')); [auto|left; auto|right; auto|auto].
Qed.
