(** C61: cut_edges *)
From Verif Require Import NumpyModel NumpyProofs PyExn LoopsModel LoopsProofs TopoModel TopoSpec TopoProofs CompModel CompSpec CompProofs RelabelModel RelabelSpec RelabelProofs CutModel CutSpec CutProofs.
From Coq Require Import Relations Sorted.
Open Scope Z_scope.

Lemma mapR_ok {A B} (f : A -> res B) (P : A -> B -> Prop) l : (forall x, In x l -> exists y, f x = Ok y /\ P x y) -> exists r, mapR f l = Ok r /\ Forall2 P l r.
Proof.
  induction l as [|x l IH]; intros H; cbn; [eauto|]. destruct (H x (or_introl eq_refl)) as (y & -> & Py). cbn [bind].
  destruct IH as (r & -> & Fr); [intros; apply H; right; auto|]. cbn [bind]. eauto.
Qed.
Lemma Forall2_len {A B} (P : A -> B -> Prop) l r : Forall2 P l r -> length l = length r.
Proof. induction 1; cbn; auto. Qed.
Lemma Forall2_nth {A B} (P : A -> B -> Prop) l r : Forall2 P l r -> forall k x, nth_error l k = Some x -> exists y, nth_error r k = Some y /\ P x y.
Proof. induction 1; intros [|k] z E; cbn in *; try discriminate; [injection E as ->; eauto|eauto]. Qed.
Lemma Forall2_nth_r {A B} (P : A -> B -> Prop) l r : Forall2 P l r -> forall k y, nth_error r k = Some y -> exists x, nth_error l k = Some x /\ P x y.
Proof. induction 1; intros [|k] z E; cbn in *; try discriminate; [injection E as ->; eauto|eauto]. Qed.

(** a[idx] = vals *)
Lemma scatter_vals_ok {A} (idx : list Z) : forall (vals a : list A), length vals = length idx -> Forall (fun i => 0 <= i < Z.of_nat (length a)) idx ->
  exists r, scatter_vals a idx vals = Ok r /\ length r = length a
  /\ forall k i, nth_error idx k = Some i -> exists k' v, nth_error idx k' = Some i /\ nth_error vals k' = Some v /\ nth_error r (Z.to_nat i) = Some v.
Proof.
  intros vals a. assert (G : forall (idx : list Z) (vals a : list A), length vals = length idx -> Forall (fun i => 0 <= i < Z.of_nat (length a)) idx ->
    exists r, scatter_vals a idx vals = Ok r /\ length r = length a
    /\ (forall i, ~ In i idx -> 0 <= i -> nth_error r (Z.to_nat i) = nth_error a (Z.to_nat i))
    /\ forall k i, nth_error idx k = Some i -> exists k' v, nth_error idx k' = Some i /\ nth_error vals k' = Some v /\ nth_error r (Z.to_nat i) = Some v).
  { clear. induction idx as [|i idx IH]; intros [|v vals] a L F; try discriminate; cbn [scatter_vals].
    - exists a. split; auto. split; auto. split; auto. intros [|k] i Q; discriminate.
    - inversion F as [|? ? B F']; subst. destruct (Z.leb_spec 0 i); [|lia]. destruct (Z.ltb_spec i (Z.of_nat (length a))); [|lia]. cbn [andb].
      destruct (IH vals (set_nth a (Z.to_nat i) v)) as (r & E & Lr & OUT & INS); [cbn in L; lia|rewrite set_nth_length; auto|].
      rewrite set_nth_length in Lr. exists r. split; auto. split; auto. split.
      + intros j NI P. rewrite OUT; [|cbn in NI; tauto|auto]. rewrite nth_error_set_nth. destruct (Nat.eqb_spec (Z.to_nat j) (Z.to_nat i)) as [Q|Q]; auto.
        exfalso. apply NI. left. lia.
      + intros k j Q. destruct (in_dec Z.eq_dec j idx) as [J|J].
        * apply In_nth_error in J as (q & J). destruct (INS q j J) as (k' & w & A1 & A2 & A3). exists (S k'), w. auto.
        * destruct k as [|k]; [|cbn in Q; apply nth_error_In in Q; contradiction]. cbn in Q. injection Q as <-. exists 0%nat, v. split; auto. split; auto.
          rewrite OUT by (auto; lia). rewrite nth_error_set_nth. rewrite Nat.eqb_refl. destruct (nth_error a (Z.to_nat i)) eqn:Q; auto. apply nth_error_None in Q. lia. }
  intros L F. destruct (G idx vals a L F) as (r & E & Lr & _ & INS). eauto.
Qed.

(** sorted lists with the same elements are equal *)
Lemma sorted_unique (l l' : list Z) : StronglySorted Z.lt l -> StronglySorted Z.lt l' -> (forall x, In x l <-> In x l') -> l = l'.
Proof.
  intros S. revert l'. induction S as [|a l S IH Fa]; intros l' S' H.
  - destruct l' as [|b l']; auto. destruct (proj2 (H b) (or_introl eq_refl)).
  - destruct S' as [|b l' S' Fb]; [destruct (proj1 (H a) (or_introl eq_refl))|]. rewrite Forall_forall in Fa, Fb.
    assert (a = b). { destruct (proj1 (H a) (or_introl eq_refl)) as [|I]; auto. destruct (proj2 (H b) (or_introl eq_refl)) as [|J]; auto. specialize (Fa _ J). specialize (Fb _ I). lia. }
    subst b. f_equal. apply IH; auto. intros x. split; intros I.
    + destruct (proj1 (H x) (or_intror I)) as [->|]; auto. specialize (Fa _ I). lia.
    + destruct (proj2 (H x) (or_intror I)) as [->|]; auto. specialize (Fb _ I). lia.
Qed.
Lemma mask_where {A} (l : list A) m a : mask l m = mask l m -> forall k x, nth_error (mask l m) k = Some x -> exists p, nth_error (map Z.of_nat (mask (seq a (length m)) m)) k = Some (Z.of_nat (a + p)) /\ nth_error l p = Some x.
Proof.
  intros _. revert l a. induction m as [|b m IH]; intros l a k x E; [destruct l; destruct k; discriminate|].
  destruct l as [|y l]; [destruct k; discriminate|]. cbn [mask length seq] in *. destruct b.
  - destruct k as [|k]; cbn [map nth_error] in *.
    + injection E as ->. exists 0%nat. split; auto. do 2 f_equal. lia.
    + destruct (IH l (S a) k x E) as (p & P1 & P2). exists (S p). split; auto. rewrite P1. do 2 f_equal. lia.
  - destruct (IH l (S a) k x E) as (p & P1 & P2). exists (S p). split; auto. rewrite P1. do 2 f_equal. lia.
Qed.
Lemma mask_len {A B} (l : list A) (l' : list B) m : length l = length l' -> length (mask l m) = length (mask l' m).
Proof. revert l l'; induction m as [|b m IH]; intros [|x l] [|y l'] L; cbn in *; auto; try discriminate. destruct b; cbn; rewrite (IH l l'); auto. Qed.
Lemma where_sorted m a : StronglySorted Z.lt (map Z.of_nat (mask (seq a (length m)) m)).
Proof.
  revert a. induction m as [|b m IH]; intros a; cbn [mask length seq]; [constructor|]. destruct b; auto. cbn [map]. constructor; auto.
  apply Forall_forall. intros x I. apply in_map_iff in I as (k & <- & I).
  assert (Q : In k (seq (S a) (length m))).
  { clear -I. revert I. generalize (seq (S a) (length m)) as s. revert m. induction m as [|b m IH]; intros [|y s] I; cbn in *; auto; try tauto. destruct b; [destruct I as [->|I]; auto|]; right; auto. }
  apply in_seq in Q. lia.
Qed.

Lemma flattenF_nth F f c t : nth_error F f = Some t -> (c < 3)%nat -> nth_error (flattenF F) (f + c * length F) = Some (corner t c).
Proof.
  intros N L. assert (B : (f < length F)%nat) by (apply nth_error_Some; congruence). destruct t as [[a b] d]. unfold flattenF.
  destruct c as [|[|[|c]]]; try lia; cbn [Nat.mul].
  - rewrite nth_error_app1 by (rewrite map_length; lia). rewrite Nat.add_0_r, nth_error_map, N. auto.
  - rewrite nth_error_app2 by (rewrite map_length; lia). rewrite map_length, nth_error_app1 by (rewrite map_length; lia).
    replace (f + (length F + 0) - length F)%nat with f by lia. rewrite nth_error_map, N. auto.
  - rewrite nth_error_app2 by (rewrite map_length; lia). rewrite map_length, nth_error_app2 by (rewrite map_length; lia). rewrite map_length.
    replace (f + (length F + (length F + 0)) - length F - length F)%nat with f by lia. rewrite nth_error_map, N. auto.
Qed.
Lemma flattenF_len F : length (flattenF F) = (3 * length F)%nat.
Proof. unfold flattenF. rewrite !app_length, !map_length. lia. Qed.

Lemma uncut_valid F E x y : uncut_link F E x y -> valid (length F) x /\ valid (length F) y.
Proof.
  intros (v & w & (L1 & t1 & N1 & _) & (L2 & t2 & N2 & _) & _). unfold valid. repeat split; auto; apply nth_error_Some; congruence.
Qed.
Lemma uncut_sym F E x y : uncut_link F E x y -> uncut_link F E y x.
Proof. intros (v & w & A & B & C & D & N1 & N2). exists v, w. tauto. Qed.

(** G renames the corners of F: I maps each new vertex back to the old one, every new vertex is used, and
    two corners get the same new vertex iff they are linked around their vertex across edges that are not cut *)
Theorem C61_cut : forall (cc : amat -> list Z) (F : list (Z * Z * Z)) (E : list (Z * Z)), csgraph_ok cc -> csgraph_range cc ->
  F <> [] -> E <> [] -> (forall x v, corner_at F x v -> 0 <= v) ->
  exists G I, cut_edges cc F E = Ok (G, I) /\ length G = length F
  /\ (forall x v, corner_at F x v -> exists g, at_GF G x g /\ 0 <= g /\ nth_error I (Z.to_nat g) = Some v)
  /\ (forall k, (k < length I)%nat -> exists x v, corner_at F x v /\ at_GF G x (Z.of_nat k))
  /\ (forall x y v w g h, corner_at F x v -> corner_at F y w -> at_GF G x g -> at_GF G y h ->
        (g = h <-> clos_refl_trans _ (uncut_link F E) x y)).
Proof.
  intros cc F E CC CR NF NE POS. destruct (cut_graph_ok F E NF NE POS) as (A & EA & RA & LA).
  set (m := length F) in *. assert (M0 : (0 < m)%nat) by (unfold m; destruct F; [congruence|cbn; lia]).
  unfold cut_edges. destruct F as [|f0 F']; [congruence|]. set (F := f0 :: F') in *. destruct E as [|e0 E']; [congruence|]. set (E := e0 :: E') in *.
  rewrite EA. cbn [bind]. fold m.
  destruct (CC (Z.of_nat (3 * m)) A ltac:(lia) RA) as (LL & CONN). specialize (CR (Z.of_nat (3 * m)) A ltac:(lia) RA).
  set (lab := cc (Z.of_nat (3 * m), A)) in *. rewrite Nat2Z.id in LL. change (length lab = (3 * m)%nat) in LL.
  destruct (scatter_vals_ok lab lab (repeat 0 (3 * m)) eq_refl) as (VV & -> & LV & _); [rewrite repeat_length; auto|]. rewrite repeat_length in LV. cbn [bind].
  destruct (scatter_vals_ok lab (flattenF F) (flattenF F)) as (I1 & -> & LI1 & SI1); [transitivity (3 * m)%nat; [apply flattenF_len|symmetry; exact LL]|rewrite flattenF_len; exact CR|]. rewrite flattenF_len in LI1. fold m in LI1. cbn [bind].
  (* label of a corner *)
  assert (LB : forall x, valid m x -> exists k, nth_error lab (Z.to_nat (cidx m x)) = Some k /\ 0 <= k < Z.of_nat (3 * m)).
  { intros x [V1 V2]. assert (B : (Z.to_nat (cidx m x) < length lab)%nat) by (rewrite LL; unfold cidx; rewrite Nat2Z.id; nia).
    destruct (nth_error lab _) as [k|] eqn:Ek; [|apply nth_error_None in Ek; lia]. exists k. split; auto. rewrite Forall_forall in CR. apply CR. eapply nth_error_In; eauto. }
  assert (CE : forall x y, valid m x -> valid m y -> (nth_error lab (Z.to_nat (cidx m x)) = nth_error lab (Z.to_nat (cidx m y)) <-> clos_refl_trans _ (uncut_link F E) x y)).
  { intros x y Vx Vy. assert (BD : forall z, valid m z -> 0 <= cidx m z < Z.of_nat (3 * m)) by (intros z [Z1 Z2]; unfold cidx; nia).
    rewrite CONN by auto. split.
    - intros H. apply clos_rt_rt1n in H. assert (K : forall i j, clos_refl_trans_1n Z (nonzero_link (Z.of_nat (3 * m), A)) i j -> forall x, valid m x -> i = cidx m x -> forall y, valid m y -> j = cidx m y -> clos_refl_trans _ (uncut_link F E) x y).
      { clear x y Vx Vy H. induction 1 as [i|i j k S H IH]; intros x Vx Ex y Vy Ey.
        - assert (x = y) as -> by (apply (cidx_inj m); [apply Vx|apply Vy|congruence]). apply rt_refl.
        - assert (J : In (i, j) A \/ In (j, i) A) by (destruct S as [S|S]; apply aentry_pos in S; auto).
          assert (BJ : 0 <= j < Z.of_nat (3 * m)) by (destruct J as [J|J]; apply RA in J; cbn in J; tauto).
          destruct (cidx_sur m (Z.to_nat j)) as (z & Z1 & Z2 & Z3); [lia|]. rewrite Z2Nat.id in Z3 by lia. assert (Vz : valid m z) by (split; auto).
          apply rt_trans with z; [apply rt_step|apply (IH z Vz Z3 y Vy Ey)].
          subst i j. destruct J as [J|J]; apply LA in J; auto. apply uncut_sym; auto. }
      eapply K; eauto.
    - intros H. apply clos_rt_rt1n in H. clear Vx Vy. induction H as [x|x y z S H IH]; [apply rt_refl|]. apply rt_trans with (cidx m y); auto. apply rt_step.
      destruct (uncut_valid _ _ _ _ S) as [Vx Vy]. left. apply aentry_pos. apply LA; auto. }
  (* the faces of labels *)
  destruct (mapR_ok (fun f => mapR (take1 lab) [Z.of_nat f; Z.of_nat (m + f); Z.of_nat (2 * m + f)])
    (fun f row => length row = 3%nat /\ forall c, (c < 3)%nat -> nth_error row c = nth_error lab (Z.to_nat (cidx m (f, c)))) (seq 0 m)) as (FF & EFF & FFok).
  { intros f If. apply in_seq in If.
    assert (T : forall c, (c < 3)%nat -> exists k, take1 lab (Z.of_nat (c * m + f)) = Ok k /\ nth_error lab (Z.to_nat (cidx m (f, c))) = Some k).
    { intros c Lc. destruct (LB (f, c)) as (k & Ek & _); [split; cbn [fst snd]; lia|]. exists k. split; auto. unfold take1. destruct (Z.leb_spec 0 (Z.of_nat (c * m + f))); [|lia].
      replace (Z.of_nat (c * m + f)) with (cidx m (f, c)) by (unfold cidx; cbn [fst snd]; f_equal; lia). rewrite Ek. auto. }
    destruct (T 0%nat) as (k0 & T0 & E0); [lia|]. destruct (T 1%nat) as (k1 & T1 & E1); [lia|]. destruct (T 2%nat) as (k2 & T2 & E2); [lia|].
    replace (0 * m + f)%nat with f in T0 by lia. replace (1 * m + f)%nat with (m + f)%nat in T1 by lia.
    exists [k0; k1; k2]. cbn [mapR]. rewrite T0. cbn [bind]. rewrite T1. cbn [bind]. rewrite T2. cbn [bind]. split; auto. split; auto.
    intros [|[|[|c]]] Lc; cbn [nth_error]; auto; lia. }
  rewrite EFF. cbn [bind].
  assert (LF : length FF = m) by (rewrite <- (Forall2_len _ _ _ FFok), seq_length; auto).
  assert (FFat : forall x, valid m x -> exists row k, nth_error FF (fst x) = Some row /\ nth_error row (snd x) = Some k /\ nth_error lab (Z.to_nat (cidx m x)) = Some k).
  { intros [f c] V. destruct (LB (f, c) V) as (k & Ek & _). destruct V as [V1 V2]; cbn [fst snd] in *. destruct (Forall2_nth _ _ _ FFok f f) as (row & Er & _ & R2); [apply nth_error_seq; lia|].
    exists row, k. split; auto. rewrite (R2 c V2). auto. }
  assert (FFin : forall k, In k (concat FF) -> exists x, valid m x /\ nth_error lab (Z.to_nat (cidx m x)) = Some k).
  { intros k Ik. apply in_concat in Ik as (row & Ir & Ik). apply In_nth_error in Ir as (f & Er). destruct (Forall2_nth_r _ _ _ FFok f row Er) as (f' & Es & L3 & R2).
    apply nth_error_seq in Es as [Lf ->]. cbn [Nat.add] in R2. apply In_nth_error in Ik as (c & Ec). assert (Lc : (c < 3)%nat) by (rewrite <- L3; apply nth_error_Some; congruence).
    exists (f, c). split; [split; auto|]. rewrite <- R2; auto. }
  assert (FFin' : forall x k, valid m x -> nth_error lab (Z.to_nat (cidx m x)) = Some k -> In k (concat FF)).
  { intros x k V Ek. destruct (FFat x V) as (row & k' & Er & Ec & El). apply in_concat. exists row. split; [eapply nth_error_In; eauto|]. apply (nth_error_In _ (snd x)). congruence. }
  assert (NEF : concat FF <> []).
  { intros Q. destruct (LB (0%nat, 0%nat)) as (k & Ek & _); [split; cbn [fst snd]; lia|]. assert (X : In k (concat FF)) by (eapply FFin'; [|exact Ek]; split; cbn [fst snd]; lia). rewrite Q in X. destruct X. }
  assert (RNG : forall k, In k (concat FF) -> 0 <= k < Z.of_nat (3 * m)).
  { intros k Ik. destruct (FFin k Ik) as (x & _ & El). rewrite Forall_forall in CR. apply CR. eapply nth_error_In; eauto. }
  destruct (remove_unreferenced_V' VV FF NEF) as (newV & newF & IM & J & ER & REL & FV & _); [intros v Iv; apply RNG in Iv; rewrite LV; lia|].
  rewrite ER. cbn [bind].
  destruct REL as (SJ & InJ & _ & _ & LIM & JI & OUT).
  assert (LIM' : length IM = (3 * m)%nat).
  { assert (existsb (Z.eqb (-1)) (concat FF) = false) as Q.
    { destruct (existsb _ _) eqn:Q; auto. apply existsb_exists in Q as (z & Iz & Q). apply Z.eqb_eq in Q. subst z. apply RNG in Iz. lia. }
    rewrite Q, LV in LIM. lia. }
  rewrite LIM', LI1, Nat.eqb_refl. cbn [bind].
  assert (LW : length newV = length J) by (apply (Forall2_len _ _ _ FV)).
  set (good := fun x : Z => (x <? Z.of_nat (length newV)) && (0 <=? x)).
  set (I2 := mask I1 (map good IM)).
  (* masked positions are J *)
  assert (WJ : map Z.of_nat (mask (seq 0 (length (map good IM))) (map good IM)) = J).
  { apply sorted_unique; [apply where_sorted|exact SJ|]. intros p. rewrite in_map_iff. split.
    - intros (k & <- & Ik). fold (np_where (map good IM)) in Ik. apply In_np_where in Ik. rewrite nth_error_map in Ik. destruct (nth_error IM k) as [z|] eqn:Ez; [|discriminate].
      cbn in Ik. injection Ik as Ik. unfold good in Ik. apply andb_true_iff in Ik as [Q1 Q2]. apply Z.leb_le in Q2.
      apply InJ. split; [lia|]. destruct (in_dec Z.eq_dec (Z.of_nat k) (concat FF)) as [|NI]; auto. apply OUT in NI; [|apply nth_error_Some; congruence]. assert (z = -1) by congruence. lia.
    - intros Ip. apply In_nth_error in Ip as (q & Eq). assert (P0 : 0 <= p) by (apply (InJ p); eapply nth_error_In; eauto). exists (Z.to_nat p). split; [lia|].
      fold (np_where (map good IM)). apply In_np_where. rewrite nth_error_map, (JI _ _ Eq). cbn. unfold good. f_equal. apply andb_true_iff. split; [apply Z.ltb_lt|apply Z.leb_le; lia].
      assert (q < length J)%nat by (apply nth_error_Some; congruence). lia. }
  assert (LI2 : length I2 = length J).
  { rewrite <- WJ, map_length. unfold I2. apply mask_len. rewrite seq_length, map_length. lia. }
  assert (I2at : forall k j, nth_error J k = Some j -> nth_error I2 k = nth_error I1 (Z.to_nat j)).
  { intros k j Ej. assert (Lk : (k < length J)%nat) by (apply nth_error_Some; congruence). destruct (nth_error I2 k) as [x|] eqn:Ex; [|apply nth_error_None in Ex; lia].
    destruct (mask_where I1 (map good IM) 0 eq_refl k x Ex) as (p & P1 & P2). rewrite WJ in P1. cbn [Nat.add] in P1. assert (j = Z.of_nat p) by congruence. subst j. rewrite Nat2Z.id. auto. }
  destruct (mapR_ok (mapR (take1 IM)) (fun row g => length g = length row /\ forall c k, nth_error row c = Some k -> nth_error g c = nth_error IM (Z.to_nat k)) FF) as (G & EG & GP).
  { intros row Ir. destruct (mapR_ok (take1 IM) (fun k g => nth_error IM (Z.to_nat k) = Some g) row) as (g & Eg & Fg).
    - intros k Ik. assert (R : 0 <= k < Z.of_nat (3 * m)) by (apply RNG, in_concat; eauto). unfold take1. destruct (Z.leb_spec 0 k); [|lia].
      destruct (nth_error IM (Z.to_nat k)) as [g|] eqn:E0; [cbn; eauto|]. apply nth_error_None in E0. lia.
    - exists g. split; auto. split; [symmetry; apply (Forall2_len _ _ _ Fg)|]. intros c k Ec. destruct (Forall2_nth _ _ _ Fg c k Ec) as (y & Ey & Q). congruence. }
  rewrite EG. cbn [bind]. exists G, I2. split; [reflexivity|]. split; [rewrite <- (Forall2_len _ _ _ GP); auto|].
  (* entries of G *)
  assert (GAT : forall x, valid m x -> exists k q, nth_error lab (Z.to_nat (cidx m x)) = Some k /\ nth_error J q = Some k /\ forall g, at_GF G x g <-> g = Z.of_nat q).
  { intros x V. destruct (FFat x V) as (row & k & Er & Ec & El). exists k.
    assert (IJ : In k J) by (apply InJ; split; [apply RNG|]; eapply FFin'; eauto). apply In_nth_error in IJ as (q & Eq). exists q. split; auto. split; auto.
    destruct (Forall2_nth _ _ _ GP _ _ Er) as (g & Eg & Lg & Qg). specialize (Qg _ _ Ec). rewrite (JI _ _ Eq) in Qg.
    intros h. unfold at_GF. split.
    - intros (r' & A1 & A2). rewrite Eg in A1. injection A1 as <-. congruence.
    - intros ->. exists g. auto. }
  assert (CV : forall x v, corner_at F x v -> valid m x).
  { intros x v (L & t & N & _). split; auto. apply nth_error_Some. change (nth_error F (fst x) <> None). congruence. }
  split; [|split].
  - intros x v C. destruct (GAT x (CV _ _ C)) as (k & q & El & Eq & Hg). exists (Z.of_nat q). split; [apply Hg; auto|]. split; [lia|]. rewrite Nat2Z.id, (I2at _ _ Eq).
    destruct (SI1 _ _ El) as (k' & w & B1 & B2 & ->). f_equal.
    assert (Lk' : (k' < 3 * m)%nat) by (rewrite <- LL; apply nth_error_Some; congruence).
    destruct (cidx_sur m k' Lk') as (y & Y1 & Y2 & Y3). assert (Vy : valid m y) by (split; auto).
    assert (LK : clos_refl_trans _ (uncut_link F E) x y). { apply (CE x y (CV _ _ C) Vy). rewrite El, <- Y3, Nat2Z.id. auto. }
    assert (W : nth_error F (fst y) <> None) by (apply nth_error_Some; exact Y1). destruct (nth_error F (fst y)) as [t|] eqn:Et; [|congruence].
    assert (w = corner t (snd y)).
    { assert (k' = (fst y + snd y * length F)%nat) by (unfold cidx in Y3; apply Nat2Z.inj in Y3; exact Y3). subst k'. rewrite (flattenF_nth F (fst y) (snd y) t Et Y2) in B2. congruence. }
    subst w. assert (SV : forall a b, clos_refl_trans _ (uncut_link F E) a b -> forall va vb, corner_at F a va -> corner_at F b vb -> va = vb).
    { assert (FN : forall a va vb, corner_at F a va -> corner_at F a vb -> va = vb) by (intros a va vb (_ & t1 & N1 & <-) (_ & t2 & N2 & <-); congruence).
      intros a b H. apply clos_rt_rt1n in H. induction H as [a|a b c S H IH]; intros va vb Ca Cb; [eapply FN; eauto|].
      destruct S as (v' & w' & Ca' & Cb' & _). rewrite (FN _ _ _ Ca Ca'). eapply IH; eauto. }
    symmetry. apply (SV x y LK); auto. split; auto. exists t. auto.
  - intros k Lk. rewrite LI2 in Lk. destruct (nth_error J k) as [j|] eqn:Ej; [|apply nth_error_None in Ej; lia].
    assert (IC : In j (concat FF)) by (apply InJ; eapply nth_error_In; eauto). destruct (FFin j IC) as (x & V & El). destruct (GAT x V) as (k1 & q & El' & Eq & Hg).
    assert (k1 = j) by congruence. subst k1. assert (q = k).
    { pose proof (sorted_lt_NoDup _ SJ) as ND. rewrite NoDup_nth_error in ND. apply ND; [apply nth_error_Some; congruence|congruence]. }
    subst q. destruct V as [V1 V2]. assert (W : nth_error F (fst x) <> None) by (apply nth_error_Some; exact V1). destruct (nth_error F (fst x)) as [t|] eqn:Et; [|congruence].
    exists x, (corner t (snd x)). split; [split; eauto|]. apply Hg. auto.
  - intros x y v w g h Cx Cy Gx Gy. destruct (GAT x (CV _ _ Cx)) as (k & q & El & Eq & Hg). destruct (GAT y (CV _ _ Cy)) as (k' & q' & El' & Eq' & Hg').
    apply Hg in Gx. apply Hg' in Gy. rewrite <- (CE x y (CV _ _ Cx) (CV _ _ Cy)), El, El'. subst g h. split.
    + intros Q. apply Nat2Z.inj in Q. subst. congruence.
    + intros Q. injection Q as ->. f_equal. pose proof (sorted_lt_NoDup _ SJ) as ND. rewrite NoDup_nth_error in ND. apply ND; [apply nth_error_Some; congruence|congruence].
Qed.
Print Assumptions C61_cut.

(** an empty list of edges, which should leave the mesh unchanged, raises TypeError (F.size[0], line 49) *)
Theorem C61_empty_refuted : forall (cc : amat -> list Z) (F : list (Z * Z * Z)), F <> [] -> cut_edges cc F [] = Err TypeError.
Proof. intros cc F NF. destruct F; [congruence|reflexivity]. Qed.
Print Assumptions C61_empty_refuted.

(** the contract is satisfiable, and a concrete cut: two triangles of a fan of three are separated along (0,2) *)
Theorem C61_contract_satisfiable : exists cc, csgraph_ok cc /\ csgraph_range cc.
Proof.
  exists components_by_edges. split; [apply components_by_edges_ok|]. intros n l N B. unfold components_by_edges; cbn [fst snd].
  assert (G : forall (l : list (Z * Z)) C, (forall v, 0 <= v < n -> 0 <= C v < n) -> (forall p, In p l -> 0 <= fst p < n) -> forall v, 0 <= v < n -> 0 <= fold_left relabel_edge l C v < n).
  { clear. induction l as [|p l IH]; intros C H B v Hv; cbn [fold_left]; auto. apply IH; auto; [|intros; apply B; right; auto].
    intros w Hw. unfold relabel_edge. pose proof (B p (or_introl eq_refl)). destruct (C w =? C (snd p)); auto. }
  apply Forall_forall. intros k I. apply in_map_iff in I as (v & <- & I). apply in_map_iff in I as (q & <- & I). apply in_seq in I.
  apply G; auto; [intros p Ip; apply (B p Ip)|lia].
Qed.
Print Assumptions C61_contract_satisfiable.
(** the same labelling computed on the label array *)
Definition components_list (A : amat) : list Z :=
  fold_left (fun L p => let a := nth (Z.to_nat (fst p)) L 0 in let b := nth (Z.to_nat (snd p)) L 0 in map (fun x => if x =? b then a else x) L) (snd A)
    (map Z.of_nat (seq 0 (Z.to_nat (fst A)))).
Lemma components_list_eq n l : 0 <= n -> (forall p, In p l -> 0 <= fst p < n /\ 0 <= snd p < n) -> components_list (n, l) = components_by_edges (n, l).
Proof.
  intros N B. unfold components_list, components_by_edges; cbn [fst snd]. set (r := map Z.of_nat (seq 0 (Z.to_nat n))).
  rewrite <- (map_id r) at 1. change (map (fun v => v) r) with (map (fun v : Z => v) r). generalize (fun v : Z => v) as C. induction l as [|p l IH]; intros C; cbn [fold_left]; auto.
  assert (NT : forall k, 0 <= k < n -> nth (Z.to_nat k) (map C r) 0 = C k).
  { intros k Hk. unfold r. rewrite map_map. rewrite (nth_indep _ 0 (C (Z.of_nat 0))) by (rewrite map_length, seq_length; lia).
    rewrite (map_nth (fun x => C (Z.of_nat x))), seq_nth by lia. f_equal. lia. }
  destruct (B p (or_introl eq_refl)). rewrite !NT by auto. rewrite map_map. rewrite <- IH by (intros; apply B; right; auto). reflexivity.
Qed.
Lemma components_list_ok : csgraph_ok components_list.
Proof. intros n l N B. rewrite components_list_eq by auto. apply components_by_edges_ok; auto. Qed.
Example C61_nonvacuous : exists G I, cut_edges components_list [(0,1,2);(0,2,3);(0,3,4)] [(2,0)] = Ok (G, I)
  /\ length I = 7%nat /\ (forall g h, at_GF G (0,0)%nat g -> at_GF G (1,0)%nat h -> g <> h) /\ (forall g h, at_GF G (1,0)%nat g -> at_GF G (2,0)%nat h -> g = h).
Proof.
  destruct (cut_edges components_list [(0,1,2);(0,2,3);(0,3,4)] [(2,0)]) as [[G I]|e] eqn:E; vm_compute in E; [|discriminate].
  injection E as <- <-. do 2 eexists. split; [reflexivity|]. split; [reflexivity|].
  split; intros g h (r & A1 & A2) (r' & B1 & B2); vm_compute in A1, B1; injection A1 as <-; injection B1 as <-; vm_compute in A2, B2; injection A2 as <-; injection B2 as <-; [discriminate|reflexivity].
Qed.
