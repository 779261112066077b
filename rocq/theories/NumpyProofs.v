From Verif Require Import NumpyModel.
From Coq Require Import Sorted.

Lemma eqb_eq {A} `{Ord A} (x y : A) : eqb x y = true <-> x = y.
Proof. unfold eqb. destruct (cmp x y) eqn:E; rewrite <- cmp_eq, E; intuition discriminate. Qed.
Lemma eqb_neq {A} `{Ord A} (x y : A) : eqb x y = false <-> x <> y.
Proof. rewrite <- eqb_eq. destruct (eqb x y); intuition discriminate. Qed.
Lemma eqb_refl {A} `{Ord A} (x : A) : eqb x x = true.
Proof. apply eqb_eq; auto. Qed.
Lemma eqb_spec {A} `{Ord A} (x y : A) : reflect (x = y) (eqb x y).
Proof. destruct (eqb x y) eqn:E; constructor; [apply eqb_eq | apply eqb_neq]; auto. Qed.
Lemma cmp_refl {A} `{Ord A} (x : A) : cmp x x = Eq.
Proof. apply cmp_eq; auto. Qed.
Lemma eqb_sym {A} `{Ord A} (x y : A) : eqb x y = eqb y x.
Proof. destruct (eqb_spec x y), (eqb_spec y x); congruence. Qed.

Definition Lto {A} `{Ord A} (x y : A) : Prop := cmp x y = Lt.

Section U.
  Context {A : Type} `{Ord A}.
  Implicit Types (x y : A) (l : list A).

  Lemma In_uinsert x y l : In y (uinsert x l) <-> y = x \/ In y l.
  Proof.
    induction l as [|z l IH]; cbn; [intuition congruence|].
    destruct (cmp x z) eqn:E; cbn.
    - apply cmp_eq in E; subst. intuition congruence.
    - intuition congruence.
    - rewrite IH. intuition congruence.
  Qed.

  Lemma sorted_uinsert x l : StronglySorted Lto l -> StronglySorted Lto (uinsert x l).
  Proof.
    induction l as [|z l IH]; cbn; intros S.
    - repeat constructor.
    - inversion S as [|? ? S' F]; subst.
      destruct (cmp x z) eqn:E; auto.
      + constructor; auto. constructor; auto.
        eapply Forall_impl; [|exact F]. intros w Hw. eapply cmp_trans; eauto.
      + constructor; auto. apply Forall_forall. intros w Hw.
        apply In_uinsert in Hw as [->|Hw].
        * red. rewrite cmp_opp, E. auto.
        * rewrite Forall_forall in F; auto.
  Qed.

  Lemma np_unique_sorted l : StronglySorted Lto (np_unique l).
  Proof. induction l; cbn; [constructor | apply sorted_uinsert; auto]. Qed.

  Lemma In_np_unique x l : In x (np_unique l) <-> In x l.
  Proof. induction l as [|y l IH]; cbn; [tauto|]. rewrite In_uinsert, IH. intuition congruence. Qed.

  Lemma sorted_NoDup l : StronglySorted Lto l -> NoDup l.
  Proof.
    induction 1 as [|x l S IH F]; constructor; auto.
    intros Hin. rewrite Forall_forall in F. specialize (F _ Hin). red in F.
    rewrite cmp_refl in F. discriminate.
  Qed.

  Lemma np_unique_NoDup l : NoDup (np_unique l).
  Proof. apply sorted_NoDup, np_unique_sorted. Qed.

  Lemma first_index_In x l : In x l -> nth_error l (first_index x l) = Some x.
  Proof.
    induction l as [|y l IH]; cbn; [tauto|]. destruct (eqb_spec x y); subst; auto.
    intros [?|?]; [congruence|]. cbn. auto.
  Qed.
  Lemma first_index_lt x l : In x l <-> first_index x l < length l.
  Proof.
    induction l as [|y l IH]; cbn; [split; [tauto | lia]|]. destruct (eqb_spec x y); subst.
    - split; [lia | auto].
    - split; [intros [?|?]; [congruence|] | intros]; [apply -> Nat.succ_lt_mono; apply IH; auto | right; apply IH; lia].
  Qed.
  Lemma first_index_notin x l : ~ In x l <-> first_index x l = length l.
  Proof.
    induction l as [|y l IH]; cbn; [tauto|]. destruct (eqb_spec x y); subst.
    - split; [intros Q; exfalso; apply Q; auto | discriminate].
    - split; [intros; f_equal; apply IH; tauto | intros Q [?|?]; [congruence|]]. injection Q; intros. apply IH in H0; auto.
  Qed.
  Lemma first_index_min x l k : nth_error l k = Some x -> first_index x l <= k.
  Proof.
    revert k; induction l as [|y l IH]; cbn; intros [|k]; cbn; try discriminate.
    - intros Q; injection Q as ->. rewrite eqb_refl. auto.
    - intros Q. destruct (eqb x y); [lia|]. specialize (IH _ Q). lia.
  Qed.
  Lemma first_index_NoDup x l k : NoDup l -> nth_error l k = Some x -> first_index x l = k.
  Proof.
    intros N Q. pose proof (nth_error_In _ _ Q) as I.
    pose proof (first_index_In _ _ I) as Q2.
    apply (NoDup_nth_error l); auto; [apply first_index_lt; auto | congruence].
  Qed.
  Lemma first_index_app x l1 l2 :
    first_index x (l1 ++ l2) = if first_index x l1 <? length l1 then first_index x l1
                               else length l1 + first_index x l2.
  Proof.
    induction l1 as [|y l1 IH]; [reflexivity|]. cbn [app first_index length]. destruct (eqb x y); [reflexivity|].
    rewrite IH.
    destruct (Nat.ltb_spec (first_index x l1) (length l1)), (Nat.ltb_spec (S (first_index x l1)) (S (length l1))); auto; lia.
  Qed.

  Lemma count_cons x y l : count x (y :: l) = (if eqb x y then 1 else 0) + count x l.
  Proof. unfold count; cbn. destruct (eqb x y); auto. Qed.
  Lemma count_app x l1 l2 : count x (l1 ++ l2) = count x l1 + count x l2.
  Proof. unfold count. rewrite filter_app, app_length; auto. Qed.
  Lemma count_pos x l : In x l <-> 0 < count x l.
  Proof.
    induction l as [|y l IH]; [cbn; split; [tauto|lia]|]. rewrite count_cons. cbn [In].
    destruct (eqb_spec x y); subst; [split; [lia|auto]|].
    rewrite <- IH. intuition congruence.
  Qed.
  Lemma count_one x l i j : count x l = 1 -> nth_error l i = Some x -> nth_error l j = Some x -> i = j.
  Proof.
    revert i j; induction l as [|y l IH]; intros i j C Hi Hj; [destruct i; discriminate|].
    rewrite count_cons in C. destruct (eqb_spec x y) as [->|N].
    - assert (~ In y l) by (rewrite count_pos; lia).
      destruct i, j; cbn in *; auto; exfalso; match goal with HH : nth_error l _ = Some _ |- _ => apply nth_error_In in HH; contradiction end.
    - destruct i, j; cbn in *; try congruence. f_equal; apply IH; auto.
  Qed.
  Lemma count_two x l i j : i <> j -> nth_error l i = Some x -> nth_error l j = Some x -> 2 <= count x l.
  Proof.
    intros N Hi Hj. pose proof (nth_error_In _ _ Hi) as I. apply count_pos in I.
    destruct (Nat.eq_dec (count x l) 1) as [e|]; [|lia].
    exfalso. apply N. eapply count_one; eauto.
  Qed.
  Lemma count_NoDup l : NoDup l <-> forall x, count x l <= 1.
  Proof.
    induction l as [|y l IH].
    - split; [cbn; lia | constructor].
    - split.
      + intros N x. inversion N; subst. rewrite count_cons. destruct (eqb_spec x y); subst.
        * assert (count y l = 0); [|lia]. destruct (count y l) eqn:E; auto.
          exfalso; apply H2, count_pos; lia.
        * apply IH; auto.
      + intros C. constructor.
        * intros I. apply count_pos in I. specialize (C y). rewrite count_cons, eqb_refl in C. lia.
        * apply IH. intros x. specialize (C x). rewrite count_cons in C. lia.
  Qed.
End U.

Lemma mask_map {A B} (f : A -> B) (p : A -> bool) l : mask (map f l) (map p l) = map f (filter p l).
Proof. induction l as [|x l IH]; cbn; auto. destruct (p x); cbn; rewrite IH; auto. Qed.
Lemma mask_filter {A} (p : A -> bool) l : mask l (map p l) = filter p l.
Proof. rewrite <- (map_id l) at 1. rewrite mask_map, map_id; auto. Qed.

Lemma In_np_where m k : In k (np_where m) <-> nth_error m k = Some true.
Proof.
  unfold np_where.
  assert (G : forall s, In k (mask (seq s (length m)) m) <-> exists j, k = s + j /\ nth_error m j = Some true).
  { induction m as [|b m IH]; intros s; cbn.
    - split; [tauto|]. intros (j & _ & Q). destruct j; discriminate.
    - destruct b; cbn; rewrite IH.
      + split.
        * intros [<-|(j & -> & Q)]; [exists 0; cbn; split; auto | exists (S j); cbn; split; auto].
        * intros ([|j] & -> & Q); [left; lia | right; exists j; split; auto; lia].
      + split.
        * intros (j & -> & Q). exists (S j); cbn; split; auto.
        * intros ([|j] & -> & Q); [discriminate | exists j; split; auto; lia]. }
  rewrite G. split; [intros (j & -> & Q); auto | intros Q; exists k; auto].
Qed.

Lemma gather_spec {A} (l : list A) idx r :
  gather l idx = Some r <-> (length r = length idx /\ forall k i, nth_error idx k = Some i -> exists x, nth_error l i = Some x /\ nth_error r k = Some x).
Proof.
  revert r; induction idx as [|i idx IH]; intros r; cbn.
  - split.
    + intros Q; injection Q as <-. split; auto. intros [|k]; discriminate.
    + intros [L _]. destruct r; [auto | discriminate].
  - destruct (nth_error l i) as [x|] eqn:E.
    + destruct (gather l idx) as [xs|] eqn:G.
      * split.
        -- intros Q; injection Q as <-. destruct (proj1 (IH xs) eq_refl) as [L P].
           split; [cbn; auto|]. intros [|k] j; cbn; [|apply P].
           intros Q; injection Q as <-; eauto.
        -- intros [L P]. destruct r as [|y r]; [discriminate|].
           destruct (P 0 i eq_refl) as (y' & E' & Q); cbn in Q. injection Q as ->.
           assert (Some xs = Some r) as Q; [|injection Q as ->; congruence].
           apply IH. split; [injection L; auto|]. intros k j Q. apply (P (S k) j Q).
      * split; [discriminate|]. intros [L P]. destruct r as [|y r]; [discriminate|].
        assert (None = Some r); [|discriminate].
        apply IH. split; [injection L; auto|]. intros k j Q. apply (P (S k) j Q).
    + split; [discriminate|]. intros [_ P]. destruct (P 0 i eq_refl) as (y' & E' & _). congruence.
Qed.

Lemma gather_map_first {A} `{Ord A} (f : A -> A) (l : list A) (us : list A) :
  (forall u, In u us -> In u (map f l)) ->
  exists r, gather l (map (fun u => first_index u (map f l)) us) = Some r /\ map f r = us /\ (forall x, In x r -> In x l).
Proof.
  induction us as [|u us IH]; intros Q; cbn.
  - exists []; repeat split; auto. intros x [].
  - destruct IH as (r & -> & E & I); [intros; apply Q; right; auto|].
    pose proof (first_index_In u (map f l) (Q u (or_introl eq_refl))) as N.
    rewrite nth_error_map in N. destruct (nth_error l _) as [x|] eqn:Ex; [|discriminate].
    cbn in N. injection N as N. exists (x :: r). cbn. rewrite N, E. repeat split; auto.
    intros y [<-|Y]; auto. apply nth_error_In in Ex; auto.
Qed.

Lemma nth_error_filter_count {A} (p : A -> bool) l1 l2 : filter p (l1 ++ l2) = filter p l1 ++ filter p l2.
Proof. apply filter_app. Qed.

Lemma np_where_NoDup m : NoDup (np_where m).
Proof.
  unfold np_where. assert (N := seq_NoDup (length m) 0). revert N.
  generalize (seq 0 (length m)) as l. revert m.
  assert (S : forall m (l : list nat) x, In x (mask l m) -> In x l).
  { induction m as [|b m IH]; intros [|y l] x; cbn; try tauto. destruct b; cbn; [intros [?|?]; auto | auto]. }
  induction m as [|b m IH]; intros [|y l] N; cbn; try constructor; inversion N; subst.
  destruct b; auto. constructor; auto. intros I; apply S in I; auto.
Qed.

