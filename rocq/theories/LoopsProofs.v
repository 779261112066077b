From Verif Require Import NumpyModel NumpyProofs PyExn TopoModel TopoSpec TopoProofs HemProofs LoopsModel LoopsSpec.
From Coq Require Import Permutation.
Open Scope Z_scope.

(** specification: consecutive pairs of a closed loop *)
Lemma set_nth_length {A} (l : list A) k x : length (set_nth l k x) = length l.
Proof. revert k; induction l as [|y l IH]; intros [|k]; cbn; auto. Qed.
Lemma nth_error_set_nth {A} (l : list A) k j x :
  nth_error (set_nth l k x) j = if Nat.eqb j k then option_map (fun _ => x) (nth_error l j) else nth_error l j.
Proof.
  revert k j; induction l as [|y l IH]; intros [|k] [|j]; cbn; auto.
  - destruct (Nat.eqb j k); auto.
Qed.

Definition ctrue (l : list bool) : nat := length (filter (fun b => b) l).
Lemma ctrue_set l k : nth_error l k = Some true -> ctrue l = S (ctrue (set_nth l k false)).
Proof.
  unfold ctrue. revert k; induction l as [|y l IH]; intros [|k]; cbn; try discriminate.
  - intros Q; injection Q as ->. auto.
  - intros Q. specialize (IH _ Q). destruct y; cbn; auto.
Qed.
Lemma ctrue_le l : (ctrue l <= length l)%nat.
Proof. unfold ctrue. induction l as [|[|] l IH]; cbn; lia. Qed.

Lemma mask_set {A} (E : list A) u k e : nth_error E k = Some e -> nth_error u k = Some true ->
  Permutation (mask E u) (e :: mask E (set_nth u k false)).
Proof.
  revert u k; induction E as [|y E IH]; intros [|b u] [|k]; cbn; try discriminate.
  - intros Q1 Q2. injection Q1 as ->. injection Q2 as ->. auto.
  - intros Q1 Q2. specialize (IH _ _ Q1 Q2). destruct b; auto. rewrite IH. constructor.
Qed.

Lemma In_where_unseen bE unseen col head k : length unseen = length bE ->
  (In k (where_unseen bE unseen col head) <->
   exists e, nth_error bE k = Some e /\ col e = head /\ nth_error unseen k = Some true).
Proof.
  intros L. unfold where_unseen. rewrite In_np_where, nth_error_map.
  assert (C : nth_error (combine bE unseen) k = match nth_error bE k, nth_error unseen k with Some a, Some b => Some (a, b) | _, _ => None end).
  { clear -L. revert unseen k L; induction bE as [|y E IH]; intros [|b u] [|k] L; cbn; auto; try discriminate. }
  rewrite C. destruct (nth_error bE k) as [e|], (nth_error unseen k) as [b|]; cbn.
  - split.
    + intros Q. injection Q as Q. apply andb_true_iff in Q as [Q1 ->]. apply Z.eqb_eq in Q1. exists e; auto.
    + intros (e' & Q & Q1 & Q2). injection Q as <-. injection Q2 as ->. rewrite Q1, Z.eqb_refl. auto.
  - split; [discriminate | intros (e' & _ & _ & Q); discriminate].
  - split; [discriminate | intros (e' & Q & _); discriminate].
  - split; [discriminate | intros (e' & Q & _); discriminate].
Qed.

Lemma NoDup_map_inj_in' {A B} (f : A -> B) l : (forall x y, In x l -> In y l -> f x = f y -> x = y) -> NoDup l -> NoDup (map f l).
Proof.
  intros I N. induction N as [|x l NI N IH]; cbn; constructor.
  - intros J. apply in_map_iff in J as (y & Q & Iy). apply NI. rewrite (I x y); cbn; auto.
  - apply IH. intros; apply I; cbn; auto.
Qed.
Lemma Forall2_len {A B} (R : A -> B -> Prop) l l' : Forall2 R l l' -> length l = length l'.
Proof. induction 1; cbn; auto. Qed.
Arguments Forall2_len {A B R l l'}.
Definition Rel (allow : bool) : edge -> edge -> Prop := if allow then same_edge else eq.

Lemma combine_app_tl (x s : Z) l : combine (x :: l) (l ++ [s]) = (x, hd s l) :: combine l (tl (l ++ [s])).
Proof. destruct l; auto. Qed.

(** what a successful inner loop has traversed *)
Lemma inner_sound allow bE start : forall fuel unseen acc head loop unseen',
  length unseen = length bE ->
  inner fuel allow bE start unseen acc head = Ok (loop, unseen') ->
  length unseen' = length bE /\
  exists l T, loop = acc ++ l /\ hd start l = head
    /\ Forall2 (Rel allow) (combine l (tl (l ++ [start]))) T
    /\ Permutation (mask bE unseen) (T ++ mask bE unseen').
Proof.
  induction fuel as [|fuel IH]; intros unseen acc head loop unseen' L; cbn [inner];
    destruct (Z.eqb_spec head start) as [->|NE].
  - intros Q; injection Q as <- <-. split; auto. exists [], []. rewrite app_nil_r. cbn. repeat split; auto.
  - discriminate.
  - intros Q; injection Q as <- <-. split; auto. exists [], []. rewrite app_nil_r. cbn. repeat split; auto.
  - set (cbnh := if allow then _ else _).
    assert (S : exists col nh, cbnh = (where_unseen bE unseen col head, nh) /\
       forall e, col e = head -> Rel allow (head, nh e) e).
    { subst cbnh. destruct allow.
      - destruct (Nat.ltb _ _).
        + exists fst, snd. split; auto. intros [a b]; cbn. intros ->. left; auto.
        + exists snd, fst. split; auto. intros [a b]; cbn. intros ->. right; auto.
      - exists fst, snd. split; auto. intros [a b]; cbn. intros ->. auto. }
    destruct S as (col & nh & -> & RR).
    destruct (where_unseen bE unseen col head) as [|b [|]] eqn:W; try discriminate.
    assert (I : In b (where_unseen bE unseen col head)) by (rewrite W; left; auto).
    apply In_where_unseen in I as (e & He & Ce & Ue); auto. rewrite He. intros Q.
    apply IH in Q as (L' & l & T & E & H & FA & P); [|rewrite set_nth_length; auto].
    split; auto. exists (head :: l), (e :: T). split; [rewrite E, <- app_assoc; auto|].
    split; auto. split.
    + change (tl ((head :: l) ++ [start])) with (l ++ [start]). rewrite combine_app_tl. constructor; auto.
      rewrite H. apply RR; auto.
    + rewrite (mask_set bE unseen b e He Ue). cbn. constructor. auto.
Qed.

Lemma first_true_spec l k : first_true l = Some k -> nth_error l k = Some true.
Proof.
  revert k; induction l as [|[|] l IH]; cbn; intros k Q; try discriminate.
  - injection Q as <-; auto.
  - destruct (first_true l); [|discriminate]. injection Q as <-. cbn. auto.
Qed.
Lemma first_true_none l k : first_true l = None -> nth_error l k = Some true -> False.
Proof.
  revert k; induction l as [|[|] l IH]; cbn; intros k Q; try discriminate.
  - destruct k; discriminate.
  - destruct (first_true l) eqn:E; [discriminate|]. destruct k; cbn; [discriminate | eauto].
Qed.
Lemma mask_none {A} (E : list A) u : first_true u = None -> mask E u = [].
Proof.
  revert E; induction u as [|[|] u IH]; intros [|y E] Q; cbn in *; try discriminate; auto.
  apply IH. destruct (first_true u); [discriminate | auto].
Qed.

Lemma outer_sound allow bE : forall fuel unseen loops res, length unseen = length bE ->
  outer fuel allow bE unseen loops = Ok res ->
  exists new T, res = loops ++ new /\ Forall2 (Rel allow) (flat_map cyc_pairs new) T /\ Permutation T (mask bE unseen)
    /\ Forall (fun l => l <> []) new.
Proof.
  induction fuel as [|fuel IH]; intros unseen loops res L; cbn [outer]; destruct (first_true unseen) as [b|] eqn:FT.
  - discriminate.
  - intros Q; injection Q as <-. exists [], []. rewrite app_nil_r, (mask_none bE unseen) by auto. cbn. auto.
  - destruct (nth_error bE b) as [e|] eqn:He; [|discriminate].
    destruct (inner _ _ _ _ _ _ _) as [[loop u']|] eqn:IN; cbn [bind]; [|discriminate]. intros Q.
    apply inner_sound in IN as (L' & l & T & E & H & FA & P); [|rewrite set_nth_length; auto].
    apply IH in Q as (new & T' & -> & FA' & P' & NN); auto.
    exists (loop :: new), (e :: T ++ T'). rewrite <- app_assoc. split; auto.
    split; [|split; [|constructor; auto; rewrite E; discriminate]].
    + cbn [flat_map]. rewrite E. cbn [app cyc_pairs]. rewrite combine_app_tl, H. cbn [app]. constructor.
      * destruct allow, e; cbn; auto. left; auto.
      * apply Forall2_app; auto.
    + rewrite (mask_set bE unseen b e He (first_true_spec _ _ FT)), P. constructor.
      apply Permutation_app_head; auto.
  - intros Q; injection Q as <-. exists [], []. rewrite app_nil_r, (mask_none bE unseen) by auto. cbn. auto.
Qed.

Lemma mask_all {A} (E : list A) : mask E (repeat true (length E)) = E.
Proof. induction E; cbn; congruence. Qed.

(** ** C15 soundness *)
Lemma boundary_loops_sound f allow loops : boundary_loops f allow = Ok loops ->
  exists bE T, boundary_edges f = Some bE /\ Permutation T bE
    /\ Forall2 (Rel allow) (flat_map cyc_pairs loops) T
    /\ Forall (fun l => l <> []) loops.
Proof.
  unfold boundary_loops. destruct (non_manifold_edges f) as [[|]|]; try discriminate.
  destruct (boundary_edges f) as [bE|] eqn:BE; [|discriminate].
  destruct (outer _ _ _ _ _) as [ls|] eqn:O; cbn [bind]; [|discriminate].
  destruct (Nat.eqb _ _); [|discriminate]. intros Q; injection Q as <-.
  apply outer_sound in O as (new & T & -> & FA & P & NN); [|rewrite repeat_length; auto].
  rewrite mask_all in P. exists bE, T. auto.
Qed.

(** ** termination: never out of fuel *)
Lemma inner_ctrue allow bE start : forall fuel unseen acc head loop unseen',
  length unseen = length bE ->
  inner fuel allow bE start unseen acc head = Ok (loop, unseen') -> (ctrue unseen' <= ctrue unseen)%nat.
Proof.
  induction fuel as [|fuel IH]; intros unseen acc head loop unseen' L; cbn [inner];
    destruct (Z.eqb_spec head start) as [->|NE]; try discriminate; try (intros Q; injection Q as <- <-; auto; fail).
  set (cbnh := if allow then _ else _).
  assert (S : exists col nh, cbnh = (where_unseen bE unseen col head, nh)).
  { subst cbnh. destruct allow; [destruct (Nat.ltb _ _)|]; eauto. }
  destruct S as (col & nh & ->).
  destruct (where_unseen bE unseen col head) as [|b [|]] eqn:W; try discriminate.
  assert (I : In b (where_unseen bE unseen col head)) by (rewrite W; left; auto).
  apply In_where_unseen in I as (e & He & Ce & Ue); auto. rewrite He. intros Q.
  apply IH in Q; [|rewrite set_nth_length; auto]. rewrite (ctrue_set _ _ Ue). lia.
Qed.

Lemma inner_fuel allow bE start : forall fuel unseen acc head, length unseen = length bE ->
  (ctrue unseen < fuel)%nat -> inner fuel allow bE start unseen acc head <> Err OutOfFuel.
Proof.
  induction fuel as [|fuel IH]; intros unseen acc head L C; [lia|]. cbn [inner].
  destruct (Z.eqb_spec head start) as [->|NE]; try discriminate.
  set (cbnh := if allow then _ else _).
  assert (S : exists col nh, cbnh = (where_unseen bE unseen col head, nh)).
  { subst cbnh. destruct allow; [destruct (Nat.ltb _ _)|]; eauto. }
  destruct S as (col & nh & ->).
  destruct (where_unseen bE unseen col head) as [|b [|]] eqn:W; try discriminate.
  assert (I : In b (where_unseen bE unseen col head)) by (rewrite W; left; auto).
  apply In_where_unseen in I as (e & He & Ce & Ue); auto. rewrite He.
  apply IH; [rewrite set_nth_length; auto|]. rewrite (ctrue_set _ _ Ue) in C. lia.
Qed.

Lemma outer_fuel allow bE : forall fuel unseen loops, length unseen = length bE ->
  (ctrue unseen <= fuel)%nat -> outer fuel allow bE unseen loops <> Err OutOfFuel.
Proof.
  induction fuel as [|fuel IH]; intros unseen loops L C; cbn [outer]; destruct (first_true unseen) as [b|] eqn:FT; try discriminate.
  - apply first_true_spec in FT. rewrite (ctrue_set _ _ FT) in C. lia.
  - apply first_true_spec in FT. destruct (nth_error bE b) as [e|] eqn:He; [|discriminate].
    pose proof (ctrue_set _ _ FT) as CS.
    destruct (inner _ _ _ _ _ _ _) as [[loop u']|x] eqn:IN; cbn [bind].
    + apply IH.
      * apply inner_sound in IN as (L' & _); auto. rewrite set_nth_length; auto.
      * apply inner_ctrue in IN; [|rewrite set_nth_length; auto]. lia.
    + intros Q; injection Q as ->. revert IN. apply inner_fuel; [rewrite set_nth_length; auto|].
      pose proof (ctrue_le unseen). rewrite L in *. lia.
Qed.

Lemma boundary_loops_terminates f allow : boundary_loops f allow <> Err OutOfFuel.
Proof.
  unfold boundary_loops. destruct (non_manifold_edges f) as [[|]|]; try discriminate.
  destruct (boundary_edges f) as [bE|] eqn:BE; [|discriminate].
  destruct (outer _ _ _ _ _) as [ls|] eqn:O; cbn [bind].
  - destruct (Nat.eqb _ _); discriminate.
  - intros Q; injection Q as ->. revert O. apply outer_fuel; [apply repeat_length|].
    pose proof (ctrue_le (repeat true (length bE))). rewrite repeat_length in *. auto.
Qed.

(** ** completeness *)
Section Complete.
  Variable bE : list edge.
  Hypothesis N1 : NoDup (map fst bE).
  Hypothesis N2 : NoDup (map snd bE).
  Hypothesis B : forall v, In v (map fst bE) <-> In v (map snd bE).

  Definition seen (u : list bool) k := nth_error u k = Some false.
  Definition uns (u : list bool) k := nth_error u k = Some true.

  Lemma fst_inj k l e f : nth_error bE k = Some e -> nth_error bE l = Some f -> fst e = fst f -> k = l.
  Proof.
    intros Hk Hl Q. apply (NoDup_nth_error (map fst bE)); auto.
    - rewrite map_length. apply nth_error_Some; congruence.
    - rewrite !nth_error_map, Hk, Hl. cbn. congruence.
  Qed.
  Lemma snd_inj k l e f : nth_error bE k = Some e -> nth_error bE l = Some f -> snd e = snd f -> k = l.
  Proof.
    intros Hk Hl Q. apply (NoDup_nth_error (map snd bE)); auto.
    - rewrite map_length. apply nth_error_Some; congruence.
    - rewrite !nth_error_map, Hk, Hl. cbn. congruence.
  Qed.
  Lemma out_edge k e : nth_error bE k = Some e -> exists l f, nth_error bE l = Some f /\ fst f = snd e.
  Proof.
    intros Hk. assert (I : In (snd e) (map fst bE)).
    { apply B. apply in_map. eapply nth_error_In; eauto. }
    apply in_map_iff in I as (f & Q & I). apply In_nth_error in I as [l Hl]. eauto.
  Qed.

  (** all vertices outside [ex] are balanced *)
  Definition bal (u : list bool) (ex : Z -> Prop) : Prop :=
    forall k e l f, nth_error bE k = Some e -> nth_error bE l = Some f -> snd e = fst f -> ~ ex (fst f) ->
      (uns u k <-> uns u l).

  Lemma uns_set u k j : uns (set_nth u k false) j <-> uns u j /\ j <> k.
  Proof.
    unfold uns. rewrite nth_error_set_nth. destruct (Nat.eqb_spec j k) as [->|N].
    - destruct (nth_error u k); cbn; intuition congruence.
    - intuition.
  Qed.

  Lemma where_one u col head k e : length u = length bE ->
    (forall k l e f, nth_error bE k = Some e -> nth_error bE l = Some f -> col e = col f -> k = l) ->
    nth_error bE k = Some e -> col e = head -> uns u k -> where_unseen bE u col head = [k].
  Proof.
    intros L INJ Hk C U.
    assert (I : In k (where_unseen bE u col head)) by (apply In_where_unseen; auto; exists e; auto).
    assert (N : NoDup (where_unseen bE u col head)).
    { apply np_where_NoDup. }
    assert (U1 : forall j, In j (where_unseen bE u col head) -> j = k).
    { intros j J. apply In_where_unseen in J as (f & Hf & Cf & _); auto. eapply INJ; eauto. congruence. }
    destruct (where_unseen bE u col head) as [|x [|y r]].
    - destruct I.
    - rewrite (U1 x); cbn; auto.
    - exfalso. inversion N as [|? ? NI]; subst. apply NI. rewrite (U1 x), (U1 y); cbn; auto.
  Qed.
  Lemma where_zero u col head : length u = length bE ->
    (forall k e, nth_error bE k = Some e -> col e = head -> ~ uns u k) -> where_unseen bE u col head = [].
  Proof.
    intros L Z0. destruct (where_unseen bE u col head) as [|x r] eqn:W; auto.
    assert (I : In x (where_unseen bE u col head)) by (rewrite W; left; auto).
    apply In_where_unseen in I as (e & He & Ce & Ue); auto. exfalso. eapply Z0; eauto.
  Qed.

  Definition Mid (u : list bool) (start head : Z) : Prop :=
    bal u (fun v => v = start \/ v = head)
    /\ (forall k e, nth_error bE k = Some e -> fst e = start -> ~ uns u k)
    /\ (start = head -> bal u (fun _ => False))
    /\ (start <> head -> (forall k e, nth_error bE k = Some e -> snd e = head -> ~ uns u k)
                       /\ (exists k e, nth_error bE k = Some e /\ fst e = head /\ uns u k)
                       /\ (forall k e, nth_error bE k = Some e -> snd e = start -> uns u k)).

  Lemma step_Mid u start head k e : length u = length bE -> Mid u start head -> start <> head ->
    nth_error bE k = Some e -> fst e = head -> uns u k -> Mid (set_nth u k false) start (snd e).
  Proof.
    intros L (M1 & M2 & _ & M4) SH Hk Fe Uk. destruct (M4 SH) as (P1 & P2 & P3). clear M4.
    assert (NH : snd e <> head) by (intros Q; eapply P1; eauto).
    split; [|split; [|split]].
    - intros k1 e1 l1 f1 H1 H2 Q NX. rewrite !uns_set.
      assert (k1 <> k). { intros ->. rewrite Hk in H1. injection H1 as <-. apply NX. right. auto. }
      destruct (Z.eq_dec (fst f1) head) as [E|E].
      + assert (l1 = k) by (eapply fst_inj; eauto; congruence). subst l1.
        assert (~ uns u k1) by (eapply P1; eauto; congruence). tauto.
      + assert (l1 <> k). { intros ->. rewrite Hk in H2. injection H2 as <-. congruence. }
        assert (uns u k1 <-> uns u l1); [|tauto]. eapply M1; eauto. intros [?|?]; [|congruence]. apply NX; auto.
    - intros k1 e1 H1 Q. rewrite uns_set. intros [U _]. eapply M2; eauto.
    - intros SE k1 e1 l1 f1 H1 H2 Q _. rewrite !uns_set.
      destruct (Z.eq_dec (fst f1) head) as [E|E].
      + assert (l1 = k) by (eapply fst_inj; eauto; congruence). subst l1.
        assert (~ uns u k1) by (eapply P1; eauto; congruence). tauto.
      + assert (l1 <> k). { intros ->. rewrite Hk in H2. injection H2 as <-. congruence. }
        destruct (Z.eq_dec (fst f1) start) as [E'|E'].
        * assert (k1 = k) by (eapply snd_inj; eauto; congruence). subst k1.
          assert (~ uns u l1) by (eapply M2; eauto). tauto.
        * assert (k1 <> k). { intros ->. rewrite Hk in H1. injection H1 as <-. congruence. }
          assert (uns u k1 <-> uns u l1); [|tauto]. eapply M1; eauto. intros [?|?]; congruence.
    - intros SE. split; [|split].
      + intros k1 e1 H1 Q. assert (k1 = k) by (eapply snd_inj; eauto). rewrite uns_set. tauto.
      + destruct (out_edge k e Hk) as (l & f & Hl & Ff). exists l, f. split; auto. split; auto.
        rewrite uns_set. assert (l <> k) by (intros ->; rewrite Hk in Hl; injection Hl as <-; congruence).
        split; auto. apply (M1 k e l f); auto. rewrite Ff. intros [?|?]; congruence.
      + intros k1 e1 H1 Q. rewrite uns_set. split; [eapply P3; eauto|].
        intros ->. rewrite Hk in H1. injection H1 as <-. congruence.
  Qed.

  (** the result does not depend on allow_wrong_orientations *)
  Lemma inner_complete start : forall fuel u acc head, length u = length bE -> (ctrue u < fuel)%nat ->
    Mid u start head -> exists loop u', (forall allow, inner fuel allow bE start u acc head = Ok (loop, u')) /\ bal u' (fun _ => False).
  Proof.
    induction fuel as [|fuel IH]; intros u acc head L C M; [lia|]. cbn [inner].
    destruct (Z.eqb_spec head start) as [->|NE].
    - exists acc, u. split; auto. apply M; auto.
    - pose proof M as M'. destruct M as (M1 & M2 & M3 & M4). destruct M4 as (P1 & (k & e & Hk & Fe & Uk) & P3); [congruence|].
      assert (W0 : where_unseen bE u fst head = [k]) by (eapply where_one; eauto; apply fst_inj).
      assert (W1 : where_unseen bE u snd head = []) by (apply where_zero; auto).
      rewrite W0, W1. cbn [length Nat.ltb Nat.leb].
      destruct (IH (set_nth u k false) (acc ++ [head]) (snd e)) as (loop & u' & IN & BB).
      + rewrite set_nth_length; auto.
      + rewrite (ctrue_set _ _ Uk) in C; lia.
      + eapply step_Mid; eauto.
      + exists loop, u'. split; auto. intros [|]; rewrite Hk; auto.
  Qed.

  Lemma outer_complete : forall fuel u loops, length u = length bE -> (ctrue u <= fuel)%nat ->
    bal u (fun _ => False) -> exists res, forall allow, outer fuel allow bE u loops = Ok res.
  Proof.
    induction fuel as [|fuel IH]; intros u loops L C BB; cbn [outer]; destruct (first_true u) as [b|] eqn:FT; eauto.
    - apply first_true_spec in FT. rewrite (ctrue_set _ _ FT) in C. lia.
    - apply first_true_spec in FT.
      assert (Lb : (b < length bE)%nat) by (rewrite <- L; apply nth_error_Some; congruence).
      destruct (nth_error bE b) as [e|] eqn:He; [|apply nth_error_None in He; lia].
      pose proof (ctrue_set _ _ FT) as CS.
      assert (M : Mid (set_nth u b false) (fst e) (snd e)).
      { split; [|split; [|split]].
        - intros k1 e1 l1 f1 H1 H2 Q NX. rewrite !uns_set.
          assert (k1 <> b) by (intros ->; rewrite He in H1; injection H1 as <-; apply NX; auto).
          assert (l1 <> b) by (intros ->; rewrite He in H2; injection H2 as <-; apply NX; auto).
          assert (uns u k1 <-> uns u l1); [|tauto]. eapply BB; eauto.
        - intros k1 e1 H1 Q. assert (k1 = b) by (eapply fst_inj; eauto). rewrite uns_set. tauto.
        - intros SE k1 e1 l1 f1 H1 H2 Q _. rewrite !uns_set.
          assert (uns u k1 <-> uns u l1) by (eapply BB; eauto).
          destruct (Nat.eq_dec k1 b) as [->|]; destruct (Nat.eq_dec l1 b) as [->|]; try tauto.
          + rewrite He in H1; injection H1 as <-. exfalso. apply n. eapply fst_inj; eauto. congruence.
          + rewrite He in H2; injection H2 as <-. exfalso. apply n. eapply snd_inj; eauto. congruence.
        - intros SE. split; [|split].
          + intros k1 e1 H1 Q. assert (k1 = b) by (eapply snd_inj; eauto). rewrite uns_set. tauto.
          + destruct (out_edge b e He) as (l & f & Hl & Ff). exists l, f. split; auto. split; auto.
            rewrite uns_set. split; [apply (BB b e l f); auto|]. intros ->. rewrite He in Hl. injection Hl as <-. congruence.
          + intros k1 e1 H1 Q. rewrite uns_set. split; [apply (BB k1 e1 b e); auto|].
            intros ->. rewrite He in H1. injection H1 as <-. congruence. }
      destruct (inner_complete (fst e) (S (length bE)) (set_nth u b false) [fst e] (snd e)) as (loop & u' & IN & BB').
      + rewrite set_nth_length; auto.
      + pose proof (ctrue_le (set_nth u b false)) as X. rewrite set_nth_length, L in X. lia.
      + exact M.
      + destruct (IH u' (loops ++ [loop])) as (res & R); auto.
        * specialize (IN true). apply inner_sound in IN as (L' & _); auto. rewrite set_nth_length; auto.
        * specialize (IN true). apply inner_ctrue in IN; [lia | rewrite set_nth_length; auto].
        * exists res. intros allow. rewrite IN. cbn [bind]. apply R.
  Qed.
End Complete.

(** in an oriented manifold list the boundary in- and out-degrees agree *)
Definition outdeg (l : list edge) (v : Z) : nat := length (filter (fun e => fst e =? v) l).
Definition indeg (l : list edge) (v : Z) : nat := length (filter (fun e => snd e =? v) l).

Lemma deg_sides F v : outdeg (all_sides F) v = indeg (all_sides F) v.
Proof.
  unfold outdeg, indeg, all_sides. induction F as [|[[a b] c] F IH]; auto.
  cbn [flat_map sides]. rewrite !filter_app, !app_length. rewrite IH. f_equal.
  cbn. destruct (a =? v), (b =? v), (c =? v); auto.
Qed.
Lemma deg_app p (l1 l2 : list edge) : length (filter p (l1 ++ l2)) = (length (filter p l1) + length (filter p l2))%nat.
Proof. rewrite filter_app, app_length; auto. Qed.
Lemma filter_partition {A} (p : A -> bool) l : Permutation l (filter p l ++ filter (fun x => negb (p x)) l).
Proof.
  induction l as [|x l IH]; cbn; auto. destruct (p x); cbn.
  - constructor; auto.
  - etransitivity; [constructor; exact IH|]. apply Permutation_middle.
Qed.

Lemma deg_boundary F v : oriented_manifold F ->
  let b := filter (fun e => Nat.eqb (incidence F e) 1) (all_sides F) in outdeg b v = indeg b v.
Proof.
  intros OM b. set (i := filter (fun e => negb (Nat.eqb (incidence F e) 1)) (all_sides F)).
  assert (P : Permutation (all_sides F) (b ++ i)) by apply filter_partition.
  assert (D := deg_sides F v). unfold outdeg, indeg in *.
  rewrite !(perm_filter_length _ _ _ P), !deg_app in D.
  assert (PI : Permutation i (map flip i)).
  { apply NoDup_Permutation.
    - apply NoDup_filter; auto.
    - apply FinFun.Injective_map_NoDup; [intros x y; apply flip_inj|]. apply NoDup_filter; auto.
    - assert (FI : forall e, In e i -> In (flip e) i).
      { intros e I. apply filter_In in I as [I N]. apply negb_true_iff, Nat.eqb_neq in N.
        assert (K : incidence F e = 2%nat).
        { pose proof (incidence_le_2 F e OM). assert (0 < incidence F e)%nat; [|lia].
          unfold incidence. assert (J : In e (filter (same_edgeb e) (all_sides F))).
          { apply filter_In; split; auto. apply same_edgeb_spec, same_edge_cases; auto. }
          destruct (filter (same_edgeb e) (all_sides F)); [destruct J | cbn; lia]. }
        destruct (incidence_two F e OM K) as (_ & J & _). apply filter_In. split; auto.
        rewrite incidence_count, sort2_flip, <- incidence_count, K. auto. }
      intros e. rewrite in_map_flip. split; [apply FI|]. intros I. apply FI in I. rewrite flip_flip in I. auto. }
  assert (DI : length (filter (fun e => fst e =? v) i) = length (filter (fun e => snd e =? v) i)).
  { rewrite (perm_filter_length _ _ _ PI). clear. induction i as [|[x y] i IH]; cbn; auto.
    destruct (y =? v); cbn; rewrite IH; auto. }
  lia.
Qed.

(** the natural success condition: no vertex has two outgoing boundary edges *)
Lemma outdeg_pos l v : In v (map fst l) <-> (0 < outdeg l v)%nat.
Proof.
  unfold outdeg. rewrite in_map_iff. split.
  - intros (e & <- & I). assert (J : In e (filter (fun e0 => fst e0 =? fst e) l)) by (apply filter_In; split; auto; apply Z.eqb_refl).
    destruct (filter (fun e0 => fst e0 =? fst e) l); [destruct J | cbn; lia].
  - destruct (filter (fun e => fst e =? v) l) as [|e r] eqn:E; cbn; [lia|]. intros _.
    assert (J : In e (filter (fun e => fst e =? v) l)) by (rewrite E; left; auto).
    apply filter_In in J as [J Q]. apply Z.eqb_eq in Q. eauto.
Qed.
Lemma indeg_pos l v : In v (map snd l) <-> (0 < indeg l v)%nat.
Proof.
  unfold indeg. rewrite in_map_iff. split.
  - intros (e & <- & I). assert (J : In e (filter (fun e0 => snd e0 =? snd e) l)) by (apply filter_In; split; auto; apply Z.eqb_refl).
    destruct (filter (fun e0 => snd e0 =? snd e) l); [destruct J | cbn; lia].
  - destruct (filter (fun e => snd e =? v) l) as [|e r] eqn:E; cbn; [lia|]. intros _.
    assert (J : In e (filter (fun e => snd e =? v) l)) by (rewrite E; left; auto).
    apply filter_In in J as [J Q]. apply Z.eqb_eq in Q. eauto.
Qed.

Lemma count_fst l v : count v (map fst l) = outdeg l v.
Proof.
  unfold outdeg, count. induction l as [|[a b] l IH]; cbn [map filter fst]; auto.
  destruct (eqb_spec v a), (Z.eqb_spec a v); cbn; congruence.
Qed.
Lemma count_snd l v : count v (map snd l) = indeg l v.
Proof.
  unfold indeg, count. induction l as [|[a b] l IH]; cbn [map filter snd]; auto.
  destruct (eqb_spec v b), (Z.eqb_spec b v); cbn; congruence.
Qed.

Lemma cyc_pairs_fst l : map fst (cyc_pairs l) = l.
Proof.
  destruct l as [|x l]; auto. unfold cyc_pairs.
  assert (G : forall (a b : list Z), length a = length b -> map fst (combine a b) = a).
  { induction a as [|y a IH]; intros [|z b] L; cbn; auto; try discriminate. f_equal. apply IH. injection L; auto. }
  apply G. rewrite app_length. cbn [length]. lia.
Qed.

Lemma boundary_loops_complete F allow : F <> [] -> oriented_manifold F -> simple_boundary F ->
  exists loops, boundary_loops F allow = Ok loops
    /\ NoDup (flat_map cyc_pairs loops)
    /\ (forall e, In e (flat_map cyc_pairs loops) <-> In e (all_sides F) /\ incidence F e = 1%nat)
    /\ NoDup (concat loops).
Proof.
  intros NE OM SB. unfold boundary_loops.
  destruct (non_manifold_edges_ok F NE) as (L & -> & _ & NM).
  assert (L = []) as ->.
  { destruct L as [|[a b] L]; auto. exfalso. destruct (proj1 (NM a b)) as [_ X]; [left; auto|].
    pose proof (incidence_le_2 F (a,b) OM). lia. }
  destruct (boundary_edges_ok F NE) as (bE & -> & CE & UE).
  assert (ND : NoDup bE).
  { apply NoDup_nth_error. intros i j Li Q. destruct (nth_error bE i) as [e|] eqn:Hi.
    - eapply UE; [exact Hi | rewrite <- Q; eauto |]. apply same_edge_cases; auto.
    - apply nth_error_None in Hi. lia. }
  assert (P : Permutation bE (filter (fun e => Nat.eqb (incidence F e) 1) (all_sides F))).
  { apply NoDup_Permutation; auto; [apply NoDup_filter; auto|]. intros e. rewrite filter_In, Nat.eqb_eq. apply CE. }
  assert (DEG : forall v, outdeg bE v = indeg bE v).
  { intros v. unfold outdeg, indeg. rewrite !(perm_filter_length _ _ _ P). apply (deg_boundary F v OM). }
  assert (N1 : NoDup (map fst bE)).
  { apply NoDup_map_inj_in'.
    - intros x y Ix Iy Q. apply CE in Ix as [Ix Nx]. apply CE in Iy as [Iy Ny]. auto.
    - auto. }
  assert (N2 : NoDup (map snd bE)).
  { apply count_NoDup. intros v. rewrite count_snd, <- DEG, <- count_fst. revert v. apply count_NoDup. auto. }
  destruct (outer_complete bE N1 N2) with (fuel := length bE) (u := repeat true (length bE)) (loops := @nil (list Z)) as (res & O).
  - intros v. rewrite outdeg_pos, indeg_pos, DEG. tauto.
  - apply repeat_length.
  - pose proof (ctrue_le (repeat true (length bE))). rewrite repeat_length in *. auto.
  - intros k e l f Hk Hl _ _. unfold uns. split; intros _; apply nth_error_repeat; apply nth_error_Some; congruence.
  - rewrite O. cbn [bind]. exists res. specialize (O false).
    apply outer_sound in O as (new & T & -> & FA & P' & _); [|apply repeat_length].
    rewrite mask_all in P'. cbn [app].
    assert (LEN : fold_right plus 0%nat (map (@length Z) new) = length (flat_map cyc_pairs new)).
    { clear. induction new as [|l new IH]; cbn; auto. rewrite app_length, IH. f_equal.
      destruct l as [|x l]; auto. unfold cyc_pairs. rewrite combine_length, app_length. cbn [length]. lia. }
    rewrite LEN, (Forall2_len FA), (Permutation_length P'), Nat.eqb_refl. split; auto.
    assert (ET : flat_map cyc_pairs new = T).
    { clear -FA. induction FA; auto. cbn in H. congruence. }
    rewrite ET. split; [eapply Permutation_NoDup; [symmetry; exact P' | auto]|]. split.
    + intros e. rewrite <- CE. split; apply Permutation_in; auto. symmetry; auto.
    + assert (C : concat new = map fst (flat_map cyc_pairs new)).
      { clear. induction new as [|l new IH]; cbn; auto. rewrite map_app, cyc_pairs_fst, IH. auto. }
      rewrite C, ET. eapply Permutation_NoDup; [|exact N1]. apply Permutation_map. symmetry; auto.
Qed.

Lemma boundary_loops_sound' f allow loops : boundary_loops f allow = Ok loops ->
  exists bE T, boundary_edges f = Some bE /\ Permutation T bE
    /\ Forall2 (fun p e => p = e \/ (allow = true /\ p = (snd e, fst e))) (flat_map cyc_pairs loops) T
    /\ Forall (fun l => l <> []) loops.
Proof.
  intros Q. apply boundary_loops_sound in Q as (bE & T & B & P & FA & N). exists bE, T. repeat split; auto.
  clear -FA. induction FA; constructor; auto. destruct x as [a b], y as [c d], allow; cbn in *; auto.
  apply same_edge_cases in H as [Q|Q]; cbn in Q; injection Q as -> ->; auto.
Qed.
