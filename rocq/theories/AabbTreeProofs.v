From Coq Require Import Reals Lra ZArith List Bool Permutation Lia Arith.
From Verif Require Import NumpyModel TopoModel PyExn Vec GeomModel LoopsModel SubdivModel SubdivProofs Subdiv2Proofs AabbModel AabbSpec AabbProofs AabbBuildProofs.
Import ListNotations.
Open Scope R_scope.

Section T.
  Variables (dim m : nat) (vminB vmaxB : list vec) (root : node) (T : list (node * list nat)).
  Hypothesis I : inv dim m vminB vmaxB root (length T) T.

  Lemma nth_fst j nd : nth_error (map fst T) j = Some nd -> exists tris, nth_error T j = Some (nd, tris).
  Proof. rewrite nth_error_map. destruct (nth_error T j) as [[n t]|]; cbn; intros Q; inversion Q; subst; eauto. Qed.
  Lemma fst_nth j nd tris : nth_error T j = Some (nd, tris) -> nth_error (map fst T) j = Some nd.
  Proof. intros H. rewrite nth_error_map, H. reflexivity. Qed.
  Lemma done j nd tris : nth_error T j = Some (nd, tris) -> done_ok dim T j (nd, tris).
  Proof. intros H. apply (i_done _ _ _ _ _ _ _ I); auto. apply nth_error_Some; congruence. Qed.

  Lemma under_in j e : under (map fst T) j e -> forall nd tris, nth_error T j = Some (nd, tris) -> exists k, e = Z.of_nat k /\ In k tris.
  Proof.
    induction 1 as [j nd H L|j nd a b e H C U IH|j nd a b e H C U IH]; intros nd0 tris N.
    - rewrite (fst_nth _ _ _ N) in H. injection H as ->. destruct (done _ _ _ N) as [(_ & _ & k & E & Q)|(_ & _ & c & x1 & x2 & C & _)]; cbn [fst snd] in *.
      + exists k. split; auto. rewrite E. now left.
      + unfold leaf in L. rewrite L in C. injection C. lia.
    - rewrite (fst_nth _ _ _ N) in H. injection H as ->. destruct (done _ _ _ N) as [(L & _ & k & E & Q)|(_ & _ & c & [n1 t1] & [n2 t2] & C' & _ & N1 & N2 & _ & _ & _ & _ & P)]; cbn [fst snd] in *.
      + unfold leaf in L. rewrite L in C. injection C. lia.
      + rewrite C' in C. injection C. intros _ CA. apply Nat2Z.inj in CA. subst a. destruct (IH _ _ N1) as (k & -> & K). exists k. split; auto.
        eapply Permutation_in; [exact P|]. apply in_or_app; auto.
    - rewrite (fst_nth _ _ _ N) in H. injection H as ->. destruct (done _ _ _ N) as [(L & _ & k & E & Q)|(_ & _ & c & [n1 t1] & [n2 t2] & C' & _ & N1 & N2 & _ & _ & _ & _ & P)]; cbn [fst snd] in *.
      + unfold leaf in L. rewrite L in C. injection C. lia.
      + rewrite C' in C. injection C. intros CA _. assert (b = S c) by lia. subst b. destruct (IH _ _ N2) as (k & -> & K). exists k. split; auto.
        eapply Permutation_in; [exact P|]. apply in_or_app; auto.
  Qed.
  Lemma in_under j nd tris k : nth_error T j = Some (nd, tris) -> In k tris -> under (map fst T) j (Z.of_nat k).
  Proof.
    remember (length T - j)%nat as r. revert j nd tris Heqr. induction r as [r IH] using lt_wf_ind. intros j nd tris ER N K.
    assert (JL : (j < length T)%nat) by (apply nth_error_Some; congruence).
    destruct (done _ _ _ N) as [(L & _ & k' & E & Q)|(_ & _ & c & [n1 t1] & [n2 t2] & C' & JC & N1 & N2 & _ & _ & _ & _ & P)]; cbn [fst snd] in *.
    - rewrite E in K. destruct K as [ <- |[]]. rewrite <- Q. eapply under_leaf; [apply (fst_nth _ _ _ N)|exact L].
    - apply (Permutation_in _ (Permutation_sym P)) in K. apply in_app_or in K as [K|K].
      + eapply under_left; [apply (fst_nth _ _ _ N)|exact C'|]. eapply (IH (length T - c)%nat); eauto. lia.
      + eapply under_right; [apply (fst_nth _ _ _ N)|exact C'|]. eapply (IH (length T - S c)%nat); eauto. lia.
  Qed.
  Lemma nodup j nd tris : nth_error T j = Some (nd, tris) -> NoDup tris.
  Proof.
    revert nd tris. induction j as [j IH] using lt_wf_ind. intros nd tris N.
    destruct j as [|j].
    - destruct (i_root _ _ _ _ _ _ _ I) as (x & X1 & X2 & _). rewrite N in X1. injection X1 as <-. cbn in X2. rewrite X2. apply seq_NoDup.
    - destruct (i_par _ _ _ _ _ _ _ I _ _ N ltac:(lia)) as (p & [np tp] & _ & _ & PJ & NP & CH). cbn [fst] in CH.
      pose proof (IH p PJ _ _ NP) as ND.
      destruct (done _ _ _ NP) as [(L & _)|(_ & _ & c & [n1 t1] & [n2 t2] & C' & JC & N1 & N2 & _ & _ & _ & _ & P)]; cbn [fst snd] in *.
      + unfold leaf in L. rewrite L in CH. cbn in CH. lia.
      + rewrite C' in CH. cbn [fst snd] in CH. apply (Permutation_NoDup (Permutation_sym P)) in ND.
        destruct CH as [CH|CH]; apply Nat2Z.inj in CH.
        * rewrite CH, N in N1. injection N1; intros; subst. apply NoDup_app_iff in ND; tauto.
        * rewrite CH, N in N2. injection N2; intros; subst. apply NoDup_app_iff in ND; tauto.
  Qed.
  Lemma tris_lt j nd tris k : nth_error T j = Some (nd, tris) -> In k tris -> (k < m)%nat.
  Proof.
    revert nd tris. induction j as [j IH] using lt_wf_ind. intros nd tris N K. destruct j as [|j].
    - destruct (i_root _ _ _ _ _ _ _ I) as (x & X1 & X2 & _). rewrite N in X1. injection X1 as <-. cbn in X2. rewrite X2 in K. apply in_seq in K. lia.
    - destruct (i_par _ _ _ _ _ _ _ I _ _ N ltac:(lia)) as (p & [np tp] & _ & _ & PJ & NP & CH). cbn [fst] in CH.
      apply (IH p PJ _ _ NP).
      destruct (done _ _ _ NP) as [(L & _)|(_ & _ & c & [n1 t1] & [n2 t2] & C' & JC & N1 & N2 & _ & _ & _ & _ & P)]; cbn [fst snd] in *.
      + unfold leaf in L. rewrite L in CH. cbn in CH. lia.
      + rewrite C' in CH. cbn [fst snd] in CH. apply (Permutation_in _ P), in_or_app.
        destruct CH as [CH|CH]; apply Nat2Z.inj in CH; [left; rewrite CH, N in N1; injection N1|right; rewrite CH, N in N2; injection N2]; intros; subst; auto.
  Qed.
  Lemma leaves_front L : (forall x, In x L -> exists j, nth_error T j = Some x) -> map nT (filter is_leafb (map fst L)) = map Z.of_nat (front L).
  Proof.
    induction L as [|[nd tris] L IH]; intros H; [reflexivity|]. cbn [map filter]. rewrite front_cons. cbn [fst snd]. rewrite map_app, <- IH by (intros; apply H; now right).
    destruct (H (nd, tris) (or_introl eq_refl)) as (j & N). destruct (is_leafb nd) eqn:LF; [|reflexivity]. cbn [map].
    destruct (done _ _ _ N) as [(_ & _ & k & E & Q)|(_ & _ & c & x1 & x2 & C & _)]; cbn [fst snd] in *.
    - rewrite E. cbn. congruence.
    - unfold is_leafb in LF. rewrite C in LF. cbn [snd] in LF. apply Z.eqb_eq in LF. lia.
  Qed.

  Variable vert : nat -> list vec.
  Hypothesis RP : nPAR root = (-1)%Z.
  Hypothesis RD : nD root = 1%Z.
  Hypothesis RB : forall e v, (e < m)%nat -> In v (vert e) -> in_box dim (nC root) (nW root) v.
  Hypothesis VB : forall e v j, (e < m)%nat -> In v (vert e) -> (j < dim)%nat -> nth j (nth e vminB []) 0 <= nth j v 0 <= nth j (nth e vmaxB []) 0.
  Hypothesis LT : length T = (2 * m - 1)%nat.

  Lemma tree_bvh : bvh dim m vert (map fst T).
  Proof.
    constructor.
    - rewrite map_length. exact LT.
    - rewrite leaves_front by (intros x X; apply In_nth_error in X; auto). apply Permutation_map, (i_front _ _ _ _ _ _ _ I).
    - destruct (i_root _ _ _ _ _ _ _ I) as ([nd tris] & X1 & X2 & X3 & X4 & _). exists nd. cbn [fst] in *. rewrite (fst_nth _ _ _ X1). repeat split; congruence.
    - intros e E. destruct (i_root _ _ _ _ _ _ _ I) as ([nd tris] & X1 & X2 & _). eapply in_under; [exact X1|]. cbn in X2. rewrite X2. apply in_seq. lia.
    - intros j nd N. destruct (nth_fst _ _ N) as (tris & N'). destruct (done _ _ _ N') as [(L & S & k & E & Q)|(A & B & c & [n1 t1] & [n2 t2] & C & JC & N1 & N2 & P1 & P2 & D1 & D2 & P)]; cbn [fst snd] in *.
      + left. split; auto. split; auto. exists k. split; auto. eapply tris_lt; [exact N'|]. rewrite E. now left.
      + right. split; auto. split; auto. exists c, (S c), n1, n2. rewrite (fst_nth _ _ _ N1), (fst_nth _ _ _ N2). repeat split; auto.
        intros e U1 U2. destruct (under_in _ _ U1 _ _ N1) as (k1 & -> & K1). destruct (under_in _ _ U2 _ _ N2) as (k2 & EK & K2). apply Nat2Z.inj in EK. subst k2.
        pose proof (nodup _ _ _ N') as ND. apply (Permutation_NoDup (Permutation_sym P)) in ND. 
        revert ND K1 K2. clear. induction t1; cbn; intros ND K1 K2; [auto|]. inversion ND; subst. destruct K1 as [ -> |K1]; [apply H1, in_or_app; auto|apply IHt1; auto].
    - intros j nd N J. destruct (nth_fst _ _ N) as (tris & N'). destruct (i_par _ _ _ _ _ _ _ I _ _ N' J) as (p & [np tp] & Q1 & _ & _ & Q2 & Q3). cbn [fst] in *.
      exists p, np. rewrite (fst_nth _ _ _ Q2). auto.
    - intros j nd e v N U V. destruct (nth_fst _ _ N) as (tris & N'). destruct (under_in _ _ U _ _ N') as (k & EK & K). apply Nat2Z.inj in EK. subst k.
      pose proof (tris_lt _ _ _ _ N' K) as EM. destruct j as [|j].
      + destruct (i_root _ _ _ _ _ _ _ I) as (x & X1 & _ & _ & _ & X3 & X4). rewrite N' in X1. injection X1 as <-. cbn [fst] in *. rewrite X3, X4. eapply RB; eauto.
      + destruct (i_box _ _ _ _ _ _ _ I _ _ N' ltac:(lia)) as (_ & _ & B). cbn [fst snd] in B. intros i Ii. destruct (B i Ii) as [[B1 _] [B2 _]].
        specialize (B1 _ K). specialize (B2 _ K). specialize (VB _ _ _ EM V Ii). lra.
  Qed.
  (** nesting below the root *)
  Lemma tree_nested j nd a na : (0 < j)%nat -> nth_error (map fst T) j = Some nd -> nth_error (map fst T) a = Some na -> nPAR na = Z.of_nat j -> (0 < a)%nat ->
    box_le dim (nC na) (nW na) (nC nd) (nW nd).
  Proof.
    intros J N NA PA A. destruct (nth_fst _ _ N) as (tris & N'). destruct (nth_fst _ _ NA) as (ta & NA').
    destruct (i_par _ _ _ _ _ _ _ I _ _ NA' A) as (p & [np tp] & Q1 & _ & _ & Q2 & CH). cbn [fst] in *. rewrite PA in Q1. apply Nat2Z.inj in Q1. subst p.
    rewrite N' in Q2. injection Q2 as <- <-.
    assert (SUB : forall k, In k ta -> In k tris).
    { destruct (done _ _ _ N') as [(L & _)|(_ & _ & c & [n1 t1] & [n2 t2] & C' & JC & N1 & N2 & _ & _ & _ & _ & P)]; cbn [fst snd] in *.
      + unfold leaf in L. rewrite L in CH. cbn in CH. lia.
      + rewrite C' in CH. cbn [fst snd] in CH. intros k K. apply (Permutation_in _ P), in_or_app.
        destruct CH as [CH|CH]; apply Nat2Z.inj in CH; [left; rewrite CH, NA' in N1; injection N1|right; rewrite CH, NA' in N2; injection N2]; intros; subst; auto. }
    destruct (i_box _ _ _ _ _ _ _ I _ _ N' J) as (_ & _ & B). destruct (i_box _ _ _ _ _ _ _ I _ _ NA' A) as (_ & _ & BA). cbn [fst snd] in *.
    intros i Ii. destruct (B i Ii) as [[B1 _] [B2 _]]. destruct (BA i Ii) as [[_ (e1 & K1 & E1)] [_ (e2 & K2 & E2)]].
    rewrite E1, E2. split; auto.
  Qed.
  (** child of the root: bounded by the root box if all element bounds are *)
  Lemma tree_nested_root nd a na : nth_error (map fst T) 0 = Some nd -> nth_error (map fst T) a = Some na -> nPAR na = 0%Z -> (0 < a)%nat ->
    (forall e i, (e < m)%nat -> (i < dim)%nat -> nth i (nC root) 0 - nth i (nW root) 0 / 2 <= nth i (nth e vminB []) 0 /\ nth i (nth e vmaxB []) 0 <= nth i (nC root) 0 + nth i (nW root) 0 / 2) ->
    box_le dim (nC na) (nW na) (nC nd) (nW nd).
  Proof.
    intros N NA PA A H. destruct (nth_fst _ _ N) as (tris & N'). destruct (nth_fst _ _ NA) as (ta & NA').
    destruct (i_root _ _ _ _ _ _ _ I) as (x & X1 & _ & _ & _ & X3 & X4). rewrite N' in X1. injection X1 as <-. cbn [fst] in *.
    destruct (i_box _ _ _ _ _ _ _ I _ _ NA' A) as (_ & _ & BA). cbn [fst snd] in *. intros i Ii. destruct (BA i Ii) as [[_ (e1 & K1 & E1)] [_ (e2 & K2 & E2)]].
    rewrite E1, E2, X3, X4. split; apply H; auto; eapply tris_lt; eauto.
  Qed.
  (** array lengths, needed by the traversals *)
  Hypothesis RL : length (nC root) = dim /\ length (nW root) = dim.
  Lemma tree_lens j nd : nth_error (map fst T) j = Some nd -> length (nC nd) = dim /\ length (nW nd) = dim.
  Proof.
    intros N. destruct (nth_fst _ _ N) as (tris & N'). destruct j as [|j].
    - destruct (i_root _ _ _ _ _ _ _ I) as (x & X1 & _ & _ & _ & X3 & X4). rewrite N' in X1. injection X1 as <-. cbn [fst] in *. rewrite X3, X4. exact RL.
    - destruct (i_box _ _ _ _ _ _ _ I _ _ N' ltac:(lia)) as (A & B & _). auto.
  Qed.
End T.

(** ** initialize_aabbtree *)
Definition vert_of (V : list vec) (F : list (list Z)) (e : nat) : list vec := map (fun i => nth (Z.to_nat i) V []) (nth e F []).
Definition valid_mesh (dim : nat) (V : list vec) (F : list (list Z)) : Prop :=
  (0 < dim)%nat /\ V <> [] /\ F <> [] /\ Forall (fun v => length v = dim) V /\ Forall (Forall (fun i => (0 <= i < Z.of_nat (length V))%Z)) F.

Lemma getZ_ok {P} (X : list P) i d : (0 <= i < Z.of_nat (length X))%Z -> getZ X i = Some (nth (Z.to_nat i) X d).
Proof.
  intros H. unfold getZ, norm_index. destruct (Z.leb_spec 0 i); [|lia]. destruct (Z.ltb_spec i (Z.of_nat (length X))); [|lia]. cbn. apply nth_error_nth'. lia.
Qed.

Lemma elements_ok dim V F : valid_mesh dim V F -> elements V F = Some (map (map (fun i => nth (Z.to_nat i) V [])) F).
Proof.
  intros (_ & _ & _ & _ & H). unfold elements. apply mapO_ok. intros f I. apply mapO_ok. intros i J. rewrite Forall_forall in H. specialize (H f I).
  rewrite Forall_forall in H. apply getZ_ok. auto.
Qed.
Lemma vert_of_els V F e : vert_of V F e = nth e (map (map (fun i => nth (Z.to_nat i) V [])) F) [].
Proof. unfold vert_of. symmetry. exact (map_nth (map (fun i => nth (Z.to_nat i) V [])) F [] e). Qed.

Theorem init_ok argsort dim V F : (forall l, Permutation (argsort l) (seq 0 (length l))) -> valid_mesh dim V F ->
  exists T, (forall fuel, (2 * length F - 1 <= fuel)%nat -> initialize_aabbtree argsort fuel dim V F = Ok T) /\
    bvh dim (length F) (vert_of V F) T /\
    (forall j nd, nth_error T j = Some nd -> length (nC nd) = dim /\ length (nW nd) = dim) /\
    (forall j nd a na, nth_error T j = Some nd -> nth_error T a = Some na -> nPAR na = Z.of_nat j ->
       (0 < j)%nat \/ (Forall (Forall (fun x => -10000 <= x <= 10000)) V /\ (forall f, In f F -> f <> [])) -> box_le dim (nC na) (nW na) (nC nd) (nW nd)) /\
    (forall r, nth_error T 0 = Some r -> forall i, (i < dim)%nat ->
       ((forall v, In v V -> nth i (nC r) 0 - nth i (nW r) 0 / 2 <= nth i v 0) /\ exists v, In v V /\ nth i (nC r) 0 - nth i (nW r) 0 / 2 = nth i v 0) /\
       ((forall v, In v V -> nth i v 0 <= nth i (nC r) 0 + nth i (nW r) 0 / 2) /\ exists v, In v V /\ nth i (nC r) 0 + nth i (nW r) 0 / 2 = nth i v 0)) /\
    (forall j nd, nth_error T j = Some nd -> (0 < j)%nat -> forall i, (i < dim)%nat ->
       (exists e, (e < length F)%nat /\ under T j (Z.of_nat e) /\ nth i (nC nd) 0 - nth i (nW nd) 0 / 2 = nth i (vmin_el dim (vert_of V F e)) 0) /\
       (exists e, (e < length F)%nat /\ under T j (Z.of_nat e) /\ nth i (nC nd) 0 + nth i (nW nd) 0 / 2 = nth i (vmax_el dim (vert_of V F e)) 0)).
Proof.
  intros AS VM. pose proof VM as (DP & VN & FN & VD & FV).
  destruct (amin0_ok dim V VN VD) as (mn & E1 & L1 & B1). destruct (amax0_ok dim V VN VD) as (mx & E2 & L2 & B2).
  pose proof (elements_ok _ _ _ VM) as EL. set (els := map (map (fun i => nth (Z.to_nat i) V [])) F) in *.
  set (root := {| nC := map (fun x => x / 2) (map2 Rplus mn mx); nW := map2 Rminus mx mn; nCH := (-1, -1)%Z; nPAR := (-1)%Z; nD := 1%Z; nT := (-1)%Z; nS := (-1)%Z |}).
  set (m := length F). set (vminB := map (vmin_el dim) els). set (vmaxB := map (vmax_el dim) els).
  assert (LE : length els = m) by (unfold els; apply map_length).
  assert (ED : Forall (Forall (fun v => length v = dim)) els).
  { unfold els. apply Forall_map. eapply Forall_impl; [|exact FV]. intros f H. apply Forall_map. eapply Forall_impl; [|exact H]. cbn. intros i Ii.
    rewrite Forall_forall in VD. apply VD, nth_In. lia. }
  assert (Lmin : length vminB = m) by (unfold vminB; rewrite map_length; auto). assert (Lmax : length vmaxB = m) by (unfold vmaxB; rewrite map_length; auto).
  assert (Fmin : Forall (fun x => length x = dim) vminB) by (unfold vminB; apply Forall_map; eapply Forall_impl; [|exact ED]; intros el H; apply vmin_el_ok; auto).
  assert (Fmax : Forall (fun x => length x = dim) vmaxB) by (unfold vmaxB; apply Forall_map; eapply Forall_impl; [|exact ED]; intros el H; apply vmax_el_ok; auto).
  assert (RLN : length (nC root) = dim /\ length (nW root) = dim) by (unfold root; cbn [nC nW]; rewrite map_length, !map2_length by lia; auto).
  assert (RBX : forall i, (i < dim)%nat -> nth i (nC root) 0 - nth i (nW root) 0 / 2 = nth i mn 0 /\ nth i (nC root) 0 + nth i (nW root) 0 / 2 = nth i mx 0).
  { intros i Ii. unfold root; cbn [nC nW]. rewrite (nth_indep _ 0 (0 / 2)) by (rewrite map_length, map2_length; lia). rewrite (map_nth (fun x => x / 2)), !map2_nth by lia. split; lra. }
  assert (MP : (1 <= m)%nat) by (unfold m; destruct F; cbn; [congruence|lia]).
  assert (I0 : inv dim m vminB vmaxB root 0 [(root, seq 0 m)]).
  { constructor.
    - lia.
    - intros [|j] x H _; [|destruct j; discriminate]. injection H as <-. repeat split; auto. cbn. destruct m; [lia|cbn; congruence].
    - intros; lia.
    - intros [|j] x H J; [lia|destruct j; discriminate].
    - eexists; split; [reflexivity|]. repeat split.
    - intros [|j] x H J; [lia|destruct j; discriminate].
    - unfold front. cbn. rewrite app_nil_r. apply Permutation_refl.
    - unfold todo. cbn [skipn map list_sum fold_right snd]. unfold list_sum; cbn [fold_right]. rewrite seq_length. lia. }
  destruct (build_ok argsort AS dim m vminB vmaxB DP Lmin Lmax Fmin Fmax root 0 _ I0) as (T & IT & LT & BT).
  exists (map fst T).
  assert (VB : forall e v j, (e < m)%nat -> In v (vert_of V F e) -> (j < dim)%nat -> nth j (nth e vminB []) 0 <= nth j v 0 <= nth j (nth e vmaxB []) 0).
  { intros e v j E Iv J. rewrite vert_of_els in Iv. fold els in Iv.
    rewrite Forall_forall in ED. assert (De : Forall (fun v => length v = dim) (nth e els [])) by (apply ED, nth_In; lia).
    unfold vminB, vmaxB. rewrite (nth_indep _ [] (vmin_el dim [])) by (rewrite map_length; lia). rewrite (nth_indep (map (vmax_el dim) els) [] (vmax_el dim [])) by (rewrite map_length; lia).
    rewrite !map_nth. split; [apply vmin_el_ok|apply vmax_el_ok]; auto. }
  assert (VIN : forall e v, (e < m)%nat -> In v (vert_of V F e) -> In v V).
  { intros e v E Iv. unfold vert_of in Iv. apply in_map_iff in Iv as (i & <- & Ii). rewrite Forall_forall in FV.
    assert (Q := FV (nth e F []) (nth_In _ _ E)). rewrite Forall_forall in Q. specialize (Q i Ii). apply nth_In. lia. }
  split; [|split; [|split; [|split; [|split]]]].
  - intros fuel FU. unfold initialize_aabbtree. rewrite E1, E2. cbn [lift bind]. rewrite EL. cbn [lift bind]. cbv zeta. fold root vminB vmaxB. fold m. rewrite BT by (unfold m; lia). reflexivity.
  - apply (tree_bvh dim m vminB vmaxB root T IT (vert_of V F)); auto.
    intros e v E Iv i Ii. destruct (RBX i Ii) as [ -> -> ]. destruct (B1 i Ii) as [Q1 _]. destruct (B2 i Ii) as [Q2 _]. specialize (VIN e v E Iv). auto.
  - intros j nd. apply (tree_lens dim m vminB vmaxB root T IT LT RLN).
  - intros j nd a na N NA PA H. assert (A : (0 < a)%nat).
    { destruct a; [|lia]. destruct (i_root _ _ _ _ _ _ _ IT) as ([r tr] & X1 & _ & X3 & _). rewrite nth_error_map, X1 in NA. injection NA as <-. cbn [fst] in X3. rewrite PA in X3. cbn in X3. lia. }
    destruct (Nat.eq_dec j 0) as [ -> |J].
    + destruct H as [H|[H FN']]; [lia|]. apply (tree_nested_root dim m vminB vmaxB root T IT nd a na N NA PA A).
      intros e i E Ii. destruct (RBX i Ii) as [ -> -> ]. destruct (B1 i Ii) as [Q1 _]. destruct (B2 i Ii) as [Q2 _].
      assert (NEe : nth e F [] <> []) by (apply FN', nth_In; auto).
      assert (BND : forall el acc, (forall v, In v el -> In v V) -> length acc = dim ->
         (nth i mn 0 <= nth i acc 0 -> nth i mn 0 <= nth i (fold_left (fun acc v => map2 Rmin v acc) el acc) 0) /\
         (nth i acc 0 <= nth i mx 0 -> nth i (fold_left (fun acc v => map2 Rmax v acc) el acc) 0 <= nth i mx 0)).
      { rewrite Forall_forall in VD. induction el as [|v el IH]; intros acc Vv La; [cbn; auto|]. cbn [fold_left].
        assert (Lv : length v = dim) by (apply VD, Vv; now left). assert (Iv : In v V) by (apply Vv; now left).
        split; intros HH; apply IH; try (intros; apply Vv; now right); try (rewrite map2_length; lia); rewrite map2_nth by lia.
        - apply Rmin_glb; auto. - apply Rmax_lub; auto. }
      assert (El : exists v0 el, nth e els [] = v0 :: el /\ forall v, In v (v0 :: el) -> In v V).
      { destruct (nth e els []) as [|v0 el] eqn:Q.
        - exfalso. pose proof (vert_of_els V F e) as W. fold els in W. rewrite Q in W. unfold vert_of in W. apply map_eq_nil in W. auto.
        - exists v0, el. split; auto. intros v Iv. apply (VIN e v E). rewrite vert_of_els. fold els. rewrite Q. auto. }
      destruct El as (v0 & el & EQ & Vv). rewrite Forall_forall in VD, H.
      assert (Iv0 : In v0 V) by (apply Vv; now left). assert (Lv0 : length v0 = dim) by (apply VD; auto).
      assert (bd : -10000 <= nth i v0 0 <= 10000) by (specialize (H v0 Iv0); rewrite Forall_forall in H; apply H, nth_In; lia).
      unfold vminB, vmaxB. rewrite (nth_indep _ [] (vmin_el dim [])) by (rewrite map_length; lia). rewrite (nth_indep (map (vmax_el dim) els) [] (vmax_el dim [])) by (rewrite map_length; lia).
      rewrite !map_nth, EQ. unfold vmin_el, vmax_el. cbn [fold_left].
      assert (Rp : forall x, nth i (repeat x dim) 0 = x) by (intros x; apply (repeat_spec dim x), nth_In; rewrite repeat_length; lia).
      split.
      * apply (BND el (map2 Rmin v0 (repeat 10000 dim))); [intros; apply Vv; now right|rewrite map2_length; rewrite ?repeat_length; auto|].
        rewrite map2_nth by (rewrite ?repeat_length; lia). rewrite Rp. rewrite Rmin_left by lra. auto.
      * apply (BND el (map2 Rmax v0 (repeat (-10000) dim))); [intros; apply Vv; now right|rewrite map2_length; rewrite ?repeat_length; auto|].
        rewrite map2_nth by (rewrite ?repeat_length; lia). rewrite Rp. rewrite Rmax_left by lra. auto.
    + apply (tree_nested dim m vminB vmaxB root T IT LT j nd a na); auto. lia.
  - intros r N i Ii. destruct (i_root _ _ _ _ _ _ _ IT) as ([r' tr] & X1 & _ & _ & _ & X3 & X4). rewrite nth_error_map, X1 in N. injection N as <-. cbn [fst] in *.
    rewrite X3, X4. destruct (RBX i Ii) as [ -> -> ]. split; [apply B1; auto|apply B2; auto].
  - intros j nd N J i Ii. destruct (nth_fst _ _ _ N) as (tris & N').
    destruct (i_box _ _ _ _ _ _ _ IT _ _ N' J) as (_ & _ & B). cbn [fst snd] in B. destruct (B i Ii) as [[_ (e1 & K1 & Q1)] [_ (e2 & K2 & Q2)]].
    assert (M1 : (e1 < m)%nat) by (eapply tris_lt; eauto). assert (M2 : (e2 < m)%nat) by (eapply tris_lt; eauto).
    assert (G1 : nth e1 vminB [] = vmin_el dim (vert_of V F e1)).
    { unfold vminB. rewrite (nth_indep _ [] (vmin_el dim [])) by (rewrite map_length; lia). rewrite map_nth, vert_of_els. reflexivity. }
    assert (G2 : nth e2 vmaxB [] = vmax_el dim (vert_of V F e2)).
    { unfold vmaxB. rewrite (nth_indep _ [] (vmax_el dim [])) by (rewrite map_length; lia). rewrite map_nth, vert_of_els. reflexivity. }
    split; [exists e1; rewrite <- G1|exists e2; rewrite <- G2].
    + split; [exact M1|]. split; [eapply in_under; eauto|exact Q1].
    + split; [exact M2|]. split; [eapply in_under; eauto|exact Q2].
Qed.
