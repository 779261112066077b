(** Proofs for cut_edges *)
From Verif Require Import NumpyModel NumpyProofs PyExn LoopsModel LoopsProofs TopoModel TopoSpec TopoProofs TopoLemmas CorrProofs CompModel CompSpec CompProofs RelabelModel RelabelSpec RelabelProofs CutModel CutSpec.
From Coq Require Import Relations Sorted.
Open Scope Z_scope.

Lemma In_pmul A B i j : In (i, j) (pmul A B) <-> exists k, In (i, k) A /\ In (k, j) B.
Proof.
  unfold pmul. rewrite in_flat_map. split.
  - intros ((a & b) & Ia & I). apply in_flat_map in I as ((c & d) & Ib & I). cbn [fst snd] in I.
    destruct (Z.eqb_spec b c); [|destruct I]. destruct I as [I|[]]. injection I as <- <-. subst. eauto.
  - intros (k & Ia & Ib). exists (i, k). split; auto. apply in_flat_map. exists (k, j). split; auto. cbn [fst snd]. rewrite Z.eqb_refl. left; auto.
Qed.
Lemma In_ptr A i j : In (i, j) (ptr A) <-> In (j, i) A.
Proof.
  unfold ptr. rewrite in_map_iff. split; [intros ((a & b) & E & I); injection E as <- <-; auto|]. intros I. exists (j, i). auto.
Qed.
Lemma In_phad A B i j : In (i, j) (phad A B) <-> In (i, j) A /\ In (i, j) B.
Proof.
  unfold phad. rewrite in_flat_map. split.
  - intros ((a & b) & Ia & I). apply in_flat_map in I as ((c & d) & Ib & I). cbn [fst snd] in I.
    destruct (Z.eqb_spec a c); [|destruct I]. destruct (Z.eqb_spec b d); [|destruct I]. destruct I as [I|[]]. injection I as <- <-. subst. auto.
  - intros (Ia & Ib). exists (i, j). split; auto. apply in_flat_map. exists (i, j). split; auto. cbn [fst snd]. rewrite !Z.eqb_refl. left; auto.
Qed.
Lemma pcsr_ok r c l : (forall p, In p l -> 0 <= fst p < r /\ 0 <= snd p < c) -> pcsr r c l = Ok l.
Proof.
  intros H. unfold pcsr. assert (forallb (fun p => (0 <=? fst p) && (fst p <? r) && (0 <=? snd p) && (snd p <? c)) l = true) as ->; auto.
  apply forallb_forall. intros p I. destruct (H p I). rewrite !andb_true_iff, !Z.leb_le, !Z.ltb_lt. lia.
Qed.
Lemma In_combine {A B} (l : list A) (l' : list B) x y : In (x, y) (combine l l') <-> exists k, nth_error l k = Some x /\ nth_error l' k = Some y.
Proof.
  revert l'. induction l as [|a l IH]; intros l'; cbn.
  - split; [intros []|intros ([|k] & Q & _); discriminate].
  - destruct l' as [|b l'].
    + split; [intros []|intros ([|k] & _ & Q); discriminate].
    + cbn. rewrite IH. split.
      * intros [E|(k & E1 & E2)]; [injection E as -> ->; exists 0%nat; auto|exists (S k); auto].
      * intros ([|k] & E1 & E2); cbn in *; [left; congruence|right; eauto].
Qed.

(** index of a face corner *)
Definition cidx (m : nat) (x : nat * nat) : Z := Z.of_nat (fst x + snd x * m).
Lemma cidx_inj m x y : (fst x < m)%nat -> (fst y < m)%nat -> cidx m x = cidx m y -> x = y.
Proof.
  intros A B. unfold cidx. intros E. apply Nat2Z.inj in E. destruct x as [f c], y as [g d]. cbn [fst snd] in *.
  assert (c = d) by (destruct (Nat.lt_trichotomy c d) as [L|[L|L]]; auto; nia). subst. f_equal. nia.
Qed.
Lemma cidx_sur m k : (k < 3 * m)%nat -> exists x, (fst x < m)%nat /\ (snd x < 3)%nat /\ Z.of_nat k = cidx m x.
Proof.
  intros L. exists (k mod m, k / m)%nat. cbn [fst snd]. unfold cidx; cbn [fst snd].
  assert (m <> 0)%nat by lia. repeat split.
  - apply Nat.mod_upper_bound; auto.
  - apply Nat.div_lt_upper_bound; lia.
  - f_equal. pose proof (Nat.div_mod k m H). lia.
Qed.

Lemma fcol_nth m c f : (f < m)%nat -> nth_error (fcol m c) f = Some (cidx m (f, c)).
Proof. intros L. unfold fcol. rewrite nth_error_map. rewrite (nth_error_nth' _ 0%nat) by (rewrite seq_length; auto). rewrite seq_nth by auto. cbn. unfold cidx; cbn [fst snd]. do 2 f_equal. lia. Qed.
Lemma fcol_len m c : length (fcol m c) = m.
Proof. unfold fcol. rewrite map_length, seq_length. auto. Qed.
Lemma In_pair_cols m c d i j : In (i, j) (combine (fcol m c) (fcol m d)) <-> exists f, (f < m)%nat /\ i = cidx m (f, c) /\ j = cidx m (f, d).
Proof.
  rewrite In_combine. split.
  - intros (k & A & B). assert (L : (k < m)%nat) by (rewrite <- (fcol_len m c); apply nth_error_Some; congruence).
    rewrite fcol_nth in A, B by auto. exists k. split; auto. split; congruence.
  - intros (f & L & -> & ->). exists f. rewrite !fcol_nth by auto. auto.
Qed.
Definition VEp (m : nat) : pmat := combine (fcol m 0 ++ fcol m 1 ++ fcol m 2 ++ fcol m 0 ++ fcol m 1 ++ fcol m 2) (fcol m 1 ++ fcol m 2 ++ fcol m 0 ++ fcol m 2 ++ fcol m 0 ++ fcol m 1).
Lemma In_VE m i j : In (i, j) (VEp m) <-> exists f c d, (f < m)%nat /\ (c < 3)%nat /\ (d < 3)%nat /\ c <> d /\ i = cidx m (f, c) /\ j = cidx m (f, d).
Proof.
  unfold VEp. rewrite !combine_app_eq by (rewrite !fcol_len; auto). rewrite !in_app_iff, !In_pair_cols. split.
  - intros [(f & L & A & B)|[(f & L & A & B)|[(f & L & A & B)|[(f & L & A & B)|[(f & L & A & B)|(f & L & A & B)]]]]]; do 3 eexists; repeat split; try exact L; try exact A; try exact B; lia.
  - intros (f & c & d & L & Lc & Ld & N & A & B). destruct c as [|[|[|c]]], d as [|[|[|d]]]; try lia; try congruence; eauto 12.
Qed.

Lemma nth_error_seq a n k f : nth_error (seq a n) k = Some f <-> (k < n)%nat /\ f = (a + k)%nat.
Proof.
  revert a k. induction n as [|n IH]; intros a k; cbn [seq].
  - destruct k; cbn; split; [discriminate|lia|discriminate|lia].
  - destruct k as [|k]; cbn [nth_error]; [split; [intros Q; injection Q; lia|intros [_ ->]; f_equal; lia]|]. rewrite IH. lia.
Qed.
Definition vpairs (F : list tri) := combine (ravelI (length F)) (ravel3 F).
Lemma ravel_gen (F : list tri) m a : combine (flat_map (fun f => [Z.of_nat f; Z.of_nat (m + f); Z.of_nat (2 * m + f)]) (seq a (length F))) (ravel3 F)
   = flat_map (fun p => [(Z.of_nat (fst p), corner (snd p) 0); (Z.of_nat (m + fst p), corner (snd p) 1); (Z.of_nat (2 * m + fst p), corner (snd p) 2)]) (combine (seq a (length F)) F).
Proof.
  revert a. induction F as [|[[x y] z] F IH]; intros a; [reflexivity|]. cbn [length seq flat_map ravel3 combine app fst snd]. rewrite IH. reflexivity.
Qed.
Lemma In_vpairs F i v : In (i, v) (vpairs F) <-> exists x, i = cidx (length F) x /\ corner_at F x v.
Proof.
  unfold vpairs, ravelI. rewrite ravel_gen, in_flat_map. split.
  - intros ((f & t) & I & Q). apply In_combine in I as (k & A & B).
    apply nth_error_seq in A as [_ A]. cbn [Nat.add] in A. subst k. cbn [fst snd] in Q. destruct Q as [Q|[Q|[Q|[]]]]; injection Q as <- <-; [exists (f, 0%nat)|exists (f, 1%nat)|exists (f, 2%nat)]; unfold cidx, corner_at; cbn [fst snd]; (split; [f_equal; lia|split; [lia|eauto]]).
  - intros (x & -> & L & t & N & <-). destruct x as [f c]; cbn [fst snd] in *. exists (f, t). split.
    + apply In_combine. exists f. split; auto. rewrite (nth_error_nth' _ 0%nat) by (rewrite seq_length; apply nth_error_Some; congruence). rewrite seq_nth; auto. apply nth_error_Some; congruence.
    + unfold cidx; cbn [fst snd]. destruct c as [|[|[|c]]]; try lia; [left|right; left|right; right; left]; do 2 f_equal; lia.
Qed.

Definition sortedF (F : list tri) := map sort2 (flatF F).
Definition hep (F : list tri) := combine (map Z.of_nat (np_unique_inverse (sortedF F))) (range (3 * length F)).
Lemma In_hep F u k : In (u, k) (hep F) <-> exists x t, (snd x < 3)%nat /\ nth_error F (fst x) = Some t /\ k = cidx (length F) x /\ u = Z.of_nat (first_index (sort2 (side_opp t (snd x))) (np_unique (sortedF F))).
Proof.
  unfold hep. rewrite In_combine.
  assert (EI : np_unique_inverse (sortedF F) = map (fun h => first_index (sort2 h) (np_unique (sortedF F))) (flatF F)) by (unfold np_unique_inverse; unfold sortedF at 2; rewrite map_map; reflexivity).
  rewrite EI. unfold range. split.
  - intros (q & A & B). rewrite map_map, nth_error_map in A. destruct (nth_error (flatF F) q) as [h|] eqn:EH; cbn in A; [|discriminate].
    destruct (flatF_nth_inv F q h EH) as (r & c & t & Lr & Lc & -> & Nt & <-). exists (r, c), t. cbn [fst snd]. split; auto. split; auto.
    rewrite nth_error_map in B. destruct (nth_error (seq _ _) _) as [z|] eqn:ES in B; [|discriminate]. apply nth_error_seq in ES as [_ ->]. cbn in B.
    split; [injection B as <-; reflexivity|]. injection A as <-. reflexivity.
  - intros ((r & c) & t & Lc & Nt & -> & ->). cbn [fst snd] in *. assert (Lr : (r < length F)%nat) by (apply nth_error_Some; congruence).
    exists (r + c * length F)%nat. split.
    + rewrite map_map, nth_error_map, flatF_nth by auto. rewrite Nt. reflexivity.
    + rewrite nth_error_map. rewrite (nth_error_nth' _ 0%nat) by (rewrite seq_length; nia). rewrite seq_nth by nia. reflexivity.
Qed.

Lemma sort2_idem e : sort2 (sort2 e) = sort2 e.
Proof. destruct e as [a b]. unfold sort2. destruct (Z.ltb_spec b a); [destruct (Z.ltb_spec a b); auto; lia|]. destruct (Z.ltb_spec b a); auto; lia. Qed.
Lemma side_in F x t : (snd x < 3)%nat -> nth_error F (fst x) = Some t -> In (sort2 (side_opp t (snd x))) (np_unique (sortedF F)).
Proof.
  intros L N. apply In_np_unique. unfold sortedF. apply in_map. destruct x as [f c]; cbn [fst snd] in *.
  apply (nth_error_In _ (f + c * length F)). rewrite flatF_nth; auto; [rewrite N; auto|]. apply nth_error_Some; congruence.
Qed.

(** the corner of a side *)
Lemma side_other t c d : (c < 3)%nat -> (d < 3)%nat -> c <> d ->
  exists c', (c' < 3)%nat /\ c' <> c /\ c' <> d /\ same_edge (side_opp t d) (corner t c, corner t c').
Proof.
  intros Lc Ld N. destruct t as [[a b] e]. destruct c as [|[|[|c]]], d as [|[|[|d]]]; try lia; try congruence;
  [exists 2%nat|exists 1%nat|exists 2%nat|exists 0%nat|exists 1%nat|exists 0%nat]; unfold same_edge, side_opp; cbn; repeat split; try lia; auto.
Qed.
Lemma same_edge_other v w w' : same_edge (v, w) (v, w') -> w = w'.
Proof. intros [[_ H]|[H1 H2]]; cbn in *; congruence. Qed.
Lemma other_side t c c' : (c < 3)%nat -> (c' < 3)%nat -> c <> c' -> exists d, (d < 3)%nat /\ d <> c /\ d <> c' /\ same_edge (side_opp t d) (corner t c, corner t c').
Proof.
  intros Lc Ld N. destruct t as [[a b] e]. destruct c as [|[|[|c]]], c' as [|[|[|d]]]; try lia; try congruence;
  [exists 2%nat|exists 1%nat|exists 2%nat|exists 0%nat|exists 1%nat|exists 0%nat]; unfold same_edge, side_opp; cbn; repeat split; try lia; auto.
Qed.

Definition valid (m : nat) (x : nat * nat) : Prop := (fst x < m)%nat /\ (snd x < 3)%nat.
Lemma cut_graph_ok F E : F <> [] -> E <> [] -> (forall x v, corner_at F x v -> 0 <= v) ->
  exists A, cut_graph F E = Ok A
  /\ (forall p, In p A -> 0 <= fst p < Z.of_nat (3 * length F) /\ 0 <= snd p < Z.of_nat (3 * length F))
  /\ (forall x y, valid (length F) x -> valid (length F) y -> (In (cidx (length F) x, cidx (length F) y) A <-> uncut_link F E x y)).
Proof.
  intros NF NE POS. unfold cut_graph.
  assert (NR : ravel3 F <> []) by (destruct F as [|[[a b] c] r]; [congruence|discriminate]).
  assert (R3 : forall v, In v (ravel3 F) <-> exists x, corner_at F x v).
  { intros v. unfold ravel3. rewrite in_flat_map. split.
    - intros ([[a b] c] & I & Q). apply In_nth_error in I as (f & N). cbn in Q. destruct Q as [<-|[<-|[<-|[]]]]; [exists (f, 0%nat)|exists (f, 1%nat)|exists (f, 2%nat)]; split; cbn; eauto.
    - intros ((f & c) & L & [[a b] d] & N & <-). cbn [fst snd] in *. exists (a, b, d). split; [eapply nth_error_In; eauto|].
      destruct c as [|[|[|c]]]; cbn; auto; lia. }
  destruct (np_max_ok _ NR) as (mx & -> & _ & MX). cbn [bind].
  rewrite halfedges_some by auto. cbn [lift bind]. fold (flatF F). fold (sortedF F).
  set (U := np_unique (sortedF F)).
  assert (MU : map sort2 U = U).
  { rewrite <- (map_id U) at 2. apply map_ext_in. intros e I. unfold U in I. apply (proj1 (In_np_unique _ _)) in I. apply in_map_iff in I as (h & <- & _). apply sort2_idem. }
  destruct (array_correspondence_ok _ _ (map sort2 U) (map sort2 E)) as [AC _].
  destruct AC as (corr & -> & LC & AC); [left; destruct E; [congruence|discriminate]|]. cbn [lift bind]. rewrite MU in *.
  set (nc := map Z.of_nat (np_where (map (fun q => q <? 0) corr))).
  assert (NC : forall a b, In (a, b) (combine nc nc) <-> a = b /\ exists k e, a = Z.of_nat k /\ nth_error U k = Some e /\ ~ In e (map sort2 E)).
  { intros a b. rewrite In_combine. split.
    - intros (q & A & B). split; [congruence|]. apply nth_error_In in A. apply in_map_iff in A as (k & <- & I). apply In_np_where in I.
      rewrite nth_error_map in I. destruct (nth_error corr k) as [z|] eqn:EZ; [|discriminate]. cbn in I. injection I as I. apply Z.ltb_lt in I.
      assert (LK : (k < length U)%nat) by (rewrite <- LC; apply nth_error_Some; congruence).
      destruct (nth_error U k) as [e|] eqn:EU; [|apply nth_error_None in EU; lia]. exists k, e. split; auto. split; auto.
      destruct (AC k e EU) as (z' & EZ' & IFF & GE). assert (z' = z) by congruence. subst. apply IFF. destruct (Z.eq_dec z (-1)); auto. specialize (GE n). lia.
    - intros (<- & k & e & -> & EU & NI). destruct (AC k e EU) as (z' & EZ' & IFF & GE).
      assert (I : In (Z.of_nat k) nc). { apply in_map. apply In_np_where. rewrite nth_error_map, EZ'. cbn. f_equal. apply Z.ltb_lt. apply IFF in NI. lia. }
      apply In_nth_error in I as (q & I). exists q. auto. }
  rewrite (pcsr_ok (Z.of_nat (length U)) (Z.of_nat (length U)) (combine nc nc)).
  2:{ intros [a b] I. apply NC in I as (<- & k & e & -> & EU & _). cbn [fst snd]. assert (k < length U)%nat by (apply nth_error_Some; congruence). lia. }
  cbn [bind]. fold (hep F). fold (VEp (length F)). fold (vpairs F).
  rewrite (pcsr_ok _ _ (hep F)).
  2:{ intros [a b] I. apply In_hep in I as (x & t & Lc & Nt & -> & ->). cbn [fst snd]. assert (fst x < length F)%nat by (apply nth_error_Some; congruence).
      pose proof (side_in F x t Lc Nt) as IS. apply first_index_lt in IS. unfold U, cidx. nia. }
  cbn [bind]. 
  rewrite (pcsr_ok _ _ (VEp (length F))).
  2:{ intros [a b] I. apply In_VE in I as (f & c & d & L & Lc & Ld & _ & -> & ->). cbn [fst snd]. unfold cidx; cbn [fst snd]. nia. }
  cbn [bind].
  rewrite (pcsr_ok _ _ (vpairs F)).
  2:{ intros [a b] I. apply In_vpairs in I as (x & -> & CA). cbn [fst snd]. pose proof (POS _ _ CA). assert (b <= mx) by (apply MX, R3; eauto).
      destruct CA as (Lc & t & Nt & _). assert (fst x < length F)%nat by (apply nth_error_Some; congruence). unfold cidx. nia. }
  cbn [bind]. eexists. split; [reflexivity|].
  assert (CH : forall i j, In (i, j) (pmul (VEp (length F)) (pmul (pmul (ptr (hep F)) (combine nc nc)) (hep F))) <-> exists k e u, In (i, k) (VEp (length F)) /\ In (e, k) (hep F) /\ In (e, e) (combine nc nc) /\ e = u /\ In (u, j) (hep F)).
  { intros i j. rewrite In_pmul. split.
    - intros (k & A & B). apply In_pmul in B as (l & B & C). apply In_pmul in B as (q & B & D). apply (proj1 (In_ptr _ _ _)) in B. apply NC in D as D'. destruct D' as (-> & _).
      exists k, l, l. auto.
    - intros (k & e & u & A & B & C & <- & D). exists k. split; auto. apply In_pmul. exists e. split; auto. apply In_pmul. exists e. split; auto. apply In_ptr. auto. }
  split.
  - intros [i j] I. apply In_phad in I as [I _]. apply In_pmul in I as (k & A & B). apply (proj1 (In_ptr _ _ _)) in B. apply CH in A as (k' & _ & _ & A & _).
    apply In_VE in A as (f & c & d & L & Lc & Ld & _ & -> & _). apply In_VE in B as (f' & c' & d' & L' & Lc' & Ld' & _ & -> & _). cbn [fst snd]. unfold cidx; cbn [fst snd]. nia.
  - intros x y Vx Vy. rewrite In_phad, !In_pmul. unfold uncut_link. split.
    + intros ((k & A & B) & (v & C & D)). apply (proj1 (In_ptr _ _ _)) in B; apply (proj1 (In_ptr _ _ _)) in D. apply In_vpairs in C as (x' & Ex & Cx). apply In_vpairs in D as (y' & Ey & Cy).
      assert (VX : forall z w, corner_at F z w -> (fst z < length F)%nat) by (intros z w (_ & t & N & _); apply nth_error_Some; congruence).
      apply cidx_inj in Ex; [|apply Vx|eapply VX; eauto]. apply cidx_inj in Ey; [|apply Vy|eapply VX; eauto]. subst x' y'.
      apply CH in A as (k' & e & u & A & A1 & A2 & <- & A3).
      apply In_VE in A as (f & c & d & L & Lc & Ld & N & Ex & Ek). apply cidx_inj in Ex; [|apply Vx|exact L]. subst x.
      apply In_VE in B as (f' & c' & d' & L' & Lc' & Ld' & N' & Ey & Ek'). apply cidx_inj in Ey; [|apply Vy|exact L']. subst y.
      apply In_hep in A1 as (x1 & t1 & L1 & N1 & Q1 & U1). rewrite Ek in Q1. apply cidx_inj in Q1; [|exact L|apply nth_error_Some; congruence]. subst x1.
      apply In_hep in A3 as (x2 & t2 & L2 & N2 & Q2 & U2). rewrite Ek' in Q2. apply cidx_inj in Q2; [|exact L'|apply nth_error_Some; congruence]. subst x2.
      cbn [fst snd] in *.
      assert (SE : sort2 (side_opp t1 d) = sort2 (side_opp t2 d')).
      { rewrite U1 in U2. apply Nat2Z.inj in U2. pose proof (first_index_In _ _ (side_in F (f, d) t1 L1 N1)) as P1. pose proof (first_index_In _ _ (side_in F (f', d') t2 L2 N2)) as P2. cbn [fst snd] in *. rewrite U2 in P1. congruence. }
      destruct Cx as (_ & t1' & N1' & Cx). destruct Cy as (_ & t2' & N2' & Cy). cbn [fst snd] in *. assert (t1' = t1) by congruence. assert (t2' = t2) by congruence. subst t1' t2'.
      destruct (side_other t1 c d Lc Ld N) as (o1 & O1 & O1' & _ & S1). destruct (side_other t2 c' d' Lc' Ld' N') as (o2 & O2 & O2' & _ & S2).
      apply sort2_same in S1, S2. rewrite Cx in S1. rewrite Cy in S2.
      assert (W : corner t1 o1 = corner t2 o2). { apply (same_edge_other v). apply sort2_same. congruence. }
      exists v, (corner t1 o1). split; [split; cbn; eauto|]. split; [split; cbn; eauto|].
      split; [exists o1; split; auto; split; cbn; eauto|]. split; [exists o2; split; auto; split; cbn; eauto|].
      apply NC in A2 as (_ & kk & ee & K1 & K2 & K3).
      assert (EE : ee = sort2 (v, corner t1 o1)).
      { rewrite U1 in K1. apply Nat2Z.inj in K1. pose proof (first_index_In _ _ (side_in F (f, d) t1 L1 N1)) as P1. cbn [fst snd] in P1. unfold U in K2. rewrite <- K1 in K2. congruence. }
      split; intros I; apply K3; rewrite EE; [apply in_map; auto|].
      replace (sort2 (v, corner t1 o1)) with (sort2 (corner t1 o1, v)) by (apply sort2_same; right; cbn; auto). apply in_map; auto.
    + intros (v & w & Cx & Cy & (o1 & O1 & Co1) & (o2 & O2 & Co2) & NI1 & NI2). split.
      2:{ exists v. split; [apply In_vpairs; eauto|]. apply In_ptr, In_vpairs; eauto. }
      destruct x as [f c], y as [f' c']. cbn [fst snd] in *.
      destruct Cx as (Lc & t1 & N1 & Cx), Cy as (Lc' & t2 & N2 & Cy). destruct Co1 as (Lo1 & t1' & N1' & Co1), Co2 as (Lo2 & t2' & N2' & Co2). cbn [fst snd] in *.
      assert (t1' = t1) by congruence. assert (t2' = t2) by congruence. subst t1' t2'.
      destruct (other_side t1 c o1) as (d1 & D1 & D1c & D1o & S1); auto. destruct (other_side t2 c' o2) as (d2 & D2 & D2c & D2o & S2); auto.
      apply sort2_same in S1, S2. rewrite Cx, Co1 in S1. rewrite Cy, Co2 in S2.
      assert (Lf : (f < length F)%nat) by apply Vx. assert (Lf' : (f' < length F)%nat) by apply Vy.
      exists (cidx (length F) (f', d2)). split.
      2:{ apply In_ptr, In_VE. exists f', c', d2. repeat split; auto. }
      apply CH. exists (cidx (length F) (f, d1)), (Z.of_nat (first_index (sort2 (v, w)) U)), (Z.of_nat (first_index (sort2 (v, w)) U)). repeat split.
      * apply In_VE. exists f, c, d1. repeat split; auto.
      * apply In_hep. exists (f, d1), t1. cbn [fst snd]. rewrite S1. auto.
      * apply NC. split; auto. exists (first_index (sort2 (v, w)) U), (sort2 (v, w)). split; auto. split.
        { apply first_index_In. rewrite <- S1. apply (side_in F (f, d1)); auto. }
        intros I. apply in_map_iff in I as (e & Q & I). apply sort2_same in Q. destruct e as [a b]. destruct Q as [[Q1 Q2]|[Q1 Q2]]; cbn in Q1, Q2; subst; auto.
      * apply In_hep. exists (f', d2), t2. cbn [fst snd]. rewrite S2. auto.
Qed.
