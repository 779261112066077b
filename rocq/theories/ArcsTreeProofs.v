(** The sphere tree of ArcsModel: it can be built for every non-empty set of spheres, and a query returns the spheres that contain a point. *)
From Coq Require Import Reals List Arith Bool ZArith Lra Lia Permutation.
From Verif Require Import Vec ArcsModel ArcsProofs.
Import ListNotations.
Open Scope R_scope.

(** sorting *)
Lemma insertR_perm x l : Permutation (insertR x l) (x :: l).
Proof. induction l as [|y l IH]; [auto|]. cbn [insertR]. destruct (Rle_dec x y); [auto|]. rewrite IH. apply perm_swap. Qed.
Lemma sortR_perm l : Permutation (sortR l) l.
Proof. induction l as [|x l IH]; [auto|]. cbn [sortR fold_right]. rewrite insertR_perm. apply perm_skip. exact IH. Qed.
Inductive asc : list R -> Prop := asc_nil : asc [] | asc_cons x l : (forall y, In y l -> x <= y) -> asc l -> asc (x :: l).
Lemma insertR_asc x l : asc l -> asc (insertR x l).
Proof.
  induction 1 as [|y l B A IH]; [constructor; [intros ? []|constructor]|]. cbn [insertR]. destruct (Rle_dec x y).
  - constructor; [|constructor; auto]. intros z [<-|I]; [auto|]. specialize (B z I). lra.
  - constructor; [|auto]. intros z I. apply (Permutation_in _ (insertR_perm x l)) in I. destruct I as [<-|I]; [lra|auto].
Qed.
Lemma sortR_asc l : asc (sortR l). Proof. induction l; [constructor|]. cbn [sortR fold_right]. apply insertR_asc; auto. Qed.
Lemma asc_nth l : asc l -> forall i j, (i <= j < length l)%nat -> nth i l 0 <= nth j l 0.
Proof.
  induction 1 as [|x l B A IH]; intros i j L; [cbn in L; lia|]. destruct i as [|i], j as [|j]; cbn [nth length] in *; [lra|apply B, nth_In; lia|lia|apply IH; lia].
Qed.
(** minima and maxima *)
Lemma fold_min_le l : forall a, fold_left Rmin l a <= a /\ forall x, In x l -> fold_left Rmin l a <= x.
Proof. induction l as [|y l IH]; intros a; cbn [fold_left]; [split; [lra|intros ? []]|]. destruct (IH (Rmin a y)) as (A & B). pose proof (Rmin_l a y). pose proof (Rmin_r a y). split; [lra|]. intros x [<-|I]; [lra|auto]. Qed.
Lemma fold_max_ge l : forall a, a <= fold_left Rmax l a /\ forall x, In x l -> x <= fold_left Rmax l a.
Proof. induction l as [|y l IH]; intros a; cbn [fold_left]; [split; [lra|intros ? []]|]. destruct (IH (Rmax a y)) as (A & B). pose proof (Rmax_l a y). pose proof (Rmax_r a y). split; [lra|]. intros x [<-|I]; [lra|auto]. Qed.
Lemma minl_le l x : In x l -> minl l <= x.
Proof. destruct l as [|y l]; [intros []|]. cbn [minl]. destruct (fold_min_le l y) as (A & B). intros [<-|I]; auto. Qed.
Lemma maxl_ge l x : In x l -> x <= maxl l.
Proof. destruct l as [|y l]; [intros []|]. cbn [maxl]. destruct (fold_max_ge l y) as (A & B). intros [<-|I]; auto. Qed.

Section T.
  Variables (D : space) (L : laws D).
  Notation item := (item D).
  Implicit Types (l r items : list item).
  Lemma halves_perm a m items : forall l r, let h := fold_left (fun acc it => let '(l, r) := acc in
      if lt_b (axis_of D a it) m then (l ++ [it], r)
      else if eq_b (axis_of D a it) m then (if Nat.ltb (length l) (length r) then (l ++ [it], r) else (l, r ++ [it]))
      else (l, r ++ [it])) items (l, r) in Permutation (fst h ++ snd h) (l ++ r ++ items) /\ (l <> [] -> fst h <> []) /\ (r <> [] -> snd h <> []).
  Proof.
    induction items as [|it items IH]; intros l r; cbn [fold_left]; cbv zeta; [cbn [fst snd]; rewrite app_nil_r; auto|].
    assert (PL : Permutation ((l ++ [it]) ++ r ++ items) (l ++ r ++ it :: items)) by (rewrite <- app_assoc; apply Permutation_app_head; cbn [app]; apply Permutation_middle).
    assert (PR : Permutation (l ++ (r ++ [it]) ++ items) (l ++ r ++ it :: items)) by (rewrite <- app_assoc; reflexivity).
    assert (NA : forall (z : list item), z ++ [it] <> []) by (intros [|? ?]; discriminate).
    destruct (lt_b _ m); [|destruct (eq_b _ m); [destruct (Nat.ltb _ _)|]].
    - destruct (IH (l ++ [it]) r) as (A & B & C). split; [rewrite A; auto|]. split; [intros _; apply B, NA|auto].
    - destruct (IH (l ++ [it]) r) as (A & B & C). split; [rewrite A; auto|]. split; [intros _; apply B, NA|auto].
    - destruct (IH l (r ++ [it])) as (A & B & C). split; [rewrite A; auto|]. split; [auto|intros _; apply C, NA].
    - destruct (IH l (r ++ [it])) as (A & B & C). split; [rewrite A; auto|]. split; [auto|intros _; apply C, NA].
  Qed.
  (** one item equal to the median makes the right half non-empty *)
  Lemma halves_right a m items : forall l r, (exists it, In it items /\ axis_of D a it = m) -> snd (fold_left (fun acc it => let '(l, r) := acc in
      if lt_b (axis_of D a it) m then (l ++ [it], r)
      else if eq_b (axis_of D a it) m then (if Nat.ltb (length l) (length r) then (l ++ [it], r) else (l, r ++ [it]))
      else (l, r ++ [it])) items (l, r)) <> [].
  Proof.
    induction items as [|it items IH]; intros l r (x & Ix & E); [destruct Ix|]. cbn [fold_left]. assert (NA : forall (z : list item), z ++ [it] <> []) by (intros [|? ?]; discriminate).
    destruct (Req_dec (axis_of D a it) m) as [EQ|NE].
    - replace (lt_b (axis_of D a it) m) with false by (symmetry; apply lt_b_false; lra). replace (eq_b (axis_of D a it) m) with true by (symmetry; apply eq_b_true; auto).
      destruct (Nat.ltb_spec (length l) (length r)); [apply (proj2 (proj2 (halves_perm a m items (l ++ [it]) r))); intros ->; cbn in *; lia|apply (proj2 (proj2 (halves_perm a m items l (r ++ [it])))); apply NA].
    - assert (EX : exists it0, In it0 items /\ axis_of D a it0 = m) by (exists x; split; [destruct Ix as [->|]; [congruence|auto]|auto]).
      destruct (lt_b _ m); [apply IH; auto|]. destruct (eq_b _ m); [destruct (Nat.ltb _ _)|]; apply IH; auto.
  Qed.
  (** an item below the median, or two items equal to it (one if the right half is non-empty already), make the left half non-empty *)
  Lemma halves_left a m items : forall l r, ((exists it, In it items /\ axis_of D a it < m) \/ (r <> [] /\ exists it, In it items /\ axis_of D a it = m) \/ (exists i1 i2, (i1 < i2 < length items)%nat /\ forall it, nth_error items i1 = Some it \/ nth_error items i2 = Some it -> axis_of D a it = m)) ->
    fst (fold_left (fun acc it => let '(l, r) := acc in
      if lt_b (axis_of D a it) m then (l ++ [it], r)
      else if eq_b (axis_of D a it) m then (if Nat.ltb (length l) (length r) then (l ++ [it], r) else (l, r ++ [it]))
      else (l, r ++ [it])) items (l, r)) <> [].
  Proof.
    induction items as [|it items IH]; intros l r H. { destruct H as [(? & [] & _)|[(_ & ? & [] & _)|(i1 & i2 & LL & _)]]. cbn in LL. lia. }
    cbn [fold_left]. assert (NA : forall (z : list item), z ++ [it] <> []) by (intros [|? ?]; discriminate).
    destruct (lt_b (axis_of D a it) m) eqn:LB; [apply (proj1 (proj2 (halves_perm a m items (l ++ [it]) r))); apply NA|]. apply lt_b_false in LB.
    destruct (eq_b (axis_of D a it) m) eqn:EB.
    - apply eq_b_true in EB. destruct (Nat.ltb_spec (length l) (length r)) as [LT|GE]; [apply (proj1 (proj2 (halves_perm a m items (l ++ [it]) r))); apply NA|].
      destruct (list_eq_dec (fun x y : unit => left match x, y with tt, tt => eq_refl end) (map (fun _ => tt) l) []) as [LE|LE].
      + destruct l; [|discriminate]. destruct H as [(x & [->|I] & E)|[(NR & _)|(i1 & i2 & LL & E)]]; [lra|apply IH; left; eauto|destruct r; [congruence|cbn in GE; lia]|].
        apply IH. right. left. split; [apply NA|]. destruct i2 as [|i2]; [lia|]. destruct (nth_error items i2) as [y|] eqn:EY; [|apply nth_error_None in EY; cbn in LL; lia]. exists y. split; [eapply nth_error_In; eauto|apply E; right; auto].
      + apply (proj1 (proj2 (halves_perm a m items l (r ++ [it])))). intros ->. apply LE. reflexivity.
    - assert (NE : axis_of D a it <> m) by (intros Q; apply eq_b_true in Q; congruence). apply IH. destruct H as [(x & [->|I] & E)|[(NR & x & [->|I] & E)|(i1 & i2 & LL & E)]]; [lra|left; eauto|congruence|right; left; split; [apply NA|eauto]|].
      destruct i1 as [|i1]; [exfalso; apply NE, E; left; reflexivity|]. destruct i2 as [|i2]; [lia|]. right. right. exists i1, i2. split; [cbn in LL; lia|exact E].
  Qed.
  (** two positions of a permuted list *)
  Lemma two_equal (ls : list R) m : (2 <= count_occ Req_EM_T ls m)%nat -> exists i1 i2, (i1 < i2 < length ls)%nat /\ nth i1 ls 0 = m /\ nth i2 ls 0 = m.
  Proof.
    induction ls as [|x ls IH]; [cbn; lia|]. cbn [count_occ]. destruct (Req_EM_T x m) as [->|N]; intros C.
    - assert (I : In m ls) by (apply (count_occ_In Req_EM_T); lia). destruct (In_nth _ _ 0 I) as (k & LK & E). exists 0%nat, (S k). cbn [length nth]. repeat split; auto; lia.
    - destruct (IH C) as (i1 & i2 & LL & A & B). exists (S i1), (S i2). cbn [length nth]. repeat split; auto; lia.
  Qed.
  Lemma two_occ (ls : list R) m : (2 <= length ls)%nat -> nth 0 ls 0 = m -> nth 1 ls 0 = m -> (2 <= count_occ Req_EM_T ls m)%nat.
  Proof. destruct ls as [|x [|y ls]]; cbn [length nth count_occ]; intros LL A B; try lia. destruct (Req_EM_T x m); [|congruence]. destruct (Req_EM_T y m); [lia|congruence]. Qed.
  Lemma halves_ok a items : (2 <= length items)%nat -> let h := halves D a (nth (length items / 2) (sortR (map (axis_of D a) items)) 0) items in
    Permutation (fst h ++ snd h) items /\ fst h <> [] /\ snd h <> [].
  Proof.
    intros LI. cbv zeta. set (xs := map (axis_of D a) items). set (m := nth _ _ 0). unfold halves. assert (LX : length (sortR xs) = length items) by (rewrite (Permutation_length (sortR_perm xs)); apply map_length).
    assert (LH : (1 <= length items / 2 < length items)%nat) by (split; [apply Nat.div_le_lower_bound; lia|apply Nat.div_lt; lia]).
    assert (Im : In m xs) by (apply (Permutation_in _ (sortR_perm xs)); apply nth_In; lia). unfold xs in Im. apply in_map_iff in Im. destruct Im as (it & EI & II).
    split; [apply (halves_perm a m items [] [])|]. split; [|apply halves_right; eauto]. apply halves_left.
    destruct (Exists_dec (fun it => axis_of D a it < m) items (fun x => Rlt_dec _ _)) as [EX|NEX]; [left; apply Exists_exists in EX; exact EX|]. right. right.
    assert (GE : forall x, In x xs -> m <= x) by (intros x Ix; unfold xs in Ix; apply in_map_iff in Ix; destruct Ix as (z & <- & Iz); destruct (Rlt_dec (axis_of D a z) m); [exfalso; apply NEX, Exists_exists; eauto|lra]).
    assert (GS : forall k, (k <= length items / 2)%nat -> nth k (sortR xs) 0 = m).
    { intros k LK. apply Rle_antisym; [apply asc_nth; [apply sortR_asc|lia]|]. apply GE. apply (Permutation_in _ (sortR_perm xs)). apply nth_In. lia. }
    destruct (two_equal xs m) as (i1 & i2 & LL & A & B).
    { rewrite <- (proj1 (Permutation_count_occ Req_EM_T _ _) (sortR_perm xs) m). apply two_occ; [lia|apply GS; lia|apply GS; lia]. }
    unfold xs in LL. rewrite map_length in LL. exists i1, i2. split; [auto|]. intros z [E|E]; [rewrite <- A|rewrite <- B]; unfold xs; erewrite nth_indep by (rewrite map_length; lia); rewrite (map_nth (axis_of D a)), (nth_error_nth _ _ it E); reflexivity.
  Qed.
  Fixpoint leaves (t : node) : list nat := match t with Leaf i => [i] | Inner _ _ l r => leaves l ++ leaves r end.
  Variable tol : R.
  Variable sph : list (pt D * R).
  (** the boxes hold the enlarged balls of the leaves below *)
  Fixpoint covers (t : node) : Prop :=
    match t with
    | Leaf _ => True
    | Inner lo hi l r => (forall i a, In i (leaves l ++ leaves r) -> (a < dim D)%nat -> let s := nth i sph (axis0 D, 0) in
                            nth a lo 0 <= nth a (coords D (fst s)) 0 - (snd s + tol) /\ nth a (coords D (fst s)) 0 + (snd s + tol) <= nth a hi 0) /\ covers l /\ covers r
    end.
  Lemma nth_map_seq (f : nat -> R) n a : (a < n)%nat -> nth a (map f (seq 0 n)) 0 = f a.
  Proof. intros H. rewrite nth_indep with (d' := f 0%nat) by (rewrite map_length, seq_length; auto). rewrite map_nth, seq_nth by auto. reflexivity. Qed.
  Lemma init_node_ok : forall fuel items, (forall it, In it items -> nth (snd it) sph (axis0 D, 0) = fst it) -> (length items <= fuel)%nat -> items <> [] ->
    exists t, init_node D fuel tol items = Some t /\ Permutation (leaves t) (map snd items) /\ covers t.
  Proof.
    induction fuel as [|k IH]; intros items HI LF NE; [destruct items; [congruence|cbn in LF; lia]|].
    destruct items as [|x [|y items']]; [congruence|cbn; eexists; split; [reflexivity|cbn; auto]|]. set (items := x :: y :: items') in *.
    assert (L2 : (2 <= length items)%nat) by (unfold items; cbn; lia). cbn [init_node]. fold items.
    change (match items with [] => None | [it] => Some (Leaf (snd it)) | _ => ?z end) with z. cbv zeta. set (b := box D tol items). set (a := split_axis D b).
    destruct (halves_ok a items L2) as (P & N1 & N2). set (h := halves D a _ items) in *.
    assert (LH : (length (fst h) + length (snd h) = length items)%nat) by (rewrite <- app_length; apply Permutation_length; auto).
    assert (Z1 : length (fst h) <> 0%nat) by (intros Z; apply length_zero_iff_nil in Z; auto). assert (Z2 : length (snd h) <> 0%nat) by (intros Z; apply length_zero_iff_nil in Z; auto).
    assert (I1 : forall it, In it (fst h) \/ In it (snd h) -> In it items) by (intros it I; apply (Permutation_in _ P), in_or_app; auto).
    destruct (IH (fst h)) as (t1 & E1 & P1 & C1); [intros; apply HI, I1; auto|clear -LH LF Z2; lia|auto|].
    destruct (IH (snd h)) as (t2 & E2 & P2 & C2); [intros; apply HI, I1; auto|clear -LH LF Z1; lia|auto|].
    rewrite E1, E2. eexists. split; [reflexivity|]. assert (PL : Permutation (leaves t1 ++ leaves t2) (map snd items)) by (rewrite P1, P2, <- map_app; apply Permutation_map; auto).
    split; [exact PL|]. cbn [covers]. split; [|auto]. intros i c Ii LC. cbv zeta. apply (Permutation_in _ PL), in_map_iff in Ii. destruct Ii as (it & <- & Iit). rewrite (HI it Iit). unfold b, box. cbn [fst snd]. rewrite !nth_map_seq by auto.
    split; [apply minl_le, (in_map (fun it => axis_of D c it - (snd (fst it) + tol)) items it Iit)|apply maxl_ge, (in_map (fun it => axis_of D c it + (snd (fst it) + tol)) items it Iit)].
  Qed.
  Lemma init_ok : sph <> [] -> exists t, init D tol sph = Some t /\ Permutation (leaves t) (seq 0 (length sph)) /\ covers t.
  Proof.
    intros NE. unfold init. assert (LC : length (combine sph (seq 0 (length sph))) = length sph) by (rewrite combine_length, seq_length; lia).
    destruct (init_node_ok (length sph) (combine sph (seq 0 (length sph)))) as (t & E & P & C).
    - intros ((c, r), i) I. destruct (In_nth _ _ ((c, r), i) I) as (k & LK & EK). rewrite LC in LK. rewrite combine_nth in EK by (rewrite seq_length; auto). injection EK as EK EI. rewrite seq_nth in EI by auto. cbn [fst snd]. subst i. rewrite <- EK. cbn [plus]. apply nth_indep. auto.
    - apply Nat.eq_le_incl. exact LC.
    - destruct sph; [congruence|discriminate].
    - exists t. split; [auto|]. split; [|auto]. rewrite P. assert (Q : map snd (combine sph (seq 0 (length sph))) = seq 0 (length sph)); [|rewrite Q; reflexivity].
      generalize 0%nat. clear. induction sph as [|x l IH]; intros s; [auto|]. cbn [length seq combine map snd]. f_equal. apply IH.
  Qed.
  Variable indices : list nat.
  Definition hit (p : pt D) (t : R) (ignore i : nat) : Prop := nth i indices 0%nat <> ignore /\ pnorm D (psub D p (fst (nth i sph (axis0 D, 0)))) - snd (nth i sph (axis0 D, 0)) < t.
  Lemma outside_box p t ignore lo hi (l r : node) i : t <= tol -> covers (Inner lo hi l r) -> contains D lo hi p = false -> In i (leaves (Inner lo hi l r)) -> ~ hit p t ignore i.
  Proof.
    intros LT (C & _) NC Ii (_ & H). cbn [leaves] in Ii. assert (CT : contains D lo hi p = true); [|congruence]. unfold contains. apply forallb_forall. intros a Ia. apply in_seq in Ia.
    specialize (C i a Ii ltac:(lia)). cbv zeta in C. set (s := nth i sph _) in *. pose proof (coord_sub D L a p (fst s) ltac:(lia)) as Q.
    assert (- (snd s + tol) <= nth a (coords D p) 0 - nth a (coords D (fst s)) 0 <= snd s + tol) by (pose proof (Rle_abs (nth a (coords D p) 0 - nth a (coords D (fst s)) 0)); pose proof (Rle_abs (- (nth a (coords D p) 0 - nth a (coords D (fst s)) 0))) as Q2; rewrite Rabs_Ropp in Q2; lra).
    apply andb_true_iff. split; apply le_b_true; lra.
  Qed.
  Definition total (q : list node) : nat := fold_right (fun t n => (count t + n)%nat) 0%nat q.
  Lemma total_app q1 q2 : total (q1 ++ q2) = (total q1 + total q2)%nat.
  Proof. unfold total. induction q1 as [|t q1 IH]; [auto|]. cbn [app fold_right]. rewrite IH. lia. Qed.
  Lemma count_pos t : (1 <= count t)%nat. Proof. destruct t; cbn; lia. Qed.
  Lemma bfs_ok p k t ignore : (1 <= k)%nat -> t <= tol -> forall fuel q acc, (total q <= fuel)%nat -> (length acc < k)%nat -> Forall covers q ->
    exists extra, bfs D sph indices fuel p k t ignore q acc = Some (acc ++ extra) /\ (length (acc ++ extra) <= k)%nat
      /\ (forall j, In j extra -> exists i, In i (flat_map leaves q) /\ hit p t ignore i /\ nth i indices 0%nat = j)
      /\ ((length (acc ++ extra) < k)%nat -> forall i, In i (flat_map leaves q) -> hit p t ignore i -> In (nth i indices 0%nat) extra).
  Proof.
    intros K LT. induction fuel as [|f IH]; intros q acc TQ LA FC.
    { destruct q as [|x q]; [|cbn in TQ; pose proof (count_pos x); lia]. exists []. rewrite app_nil_r. cbn. repeat split; auto; try lia; intros; contradiction. }
    destruct q as [|cur q]. { exists []. rewrite app_nil_r. cbn. repeat split; auto; try lia; intros; contradiction. }
    inversion FC as [|? ? CC CQ]; subst. cbn [total fold_right] in TQ. fold (total q) in TQ. cbn [bfs]. destruct cur as [i|lo hi l r].
    - cbn [count] in TQ. destruct (Nat.eqb_spec (nth i indices 0%nat) ignore) as [EI|NI].
      + destruct (IH q acc ltac:(lia) LA CQ) as (ex & E & B1 & B2 & B3). exists ex. split; [auto|]. split; [auto|]. split.
        * intros j Ij. destruct (B2 j Ij) as (z & Iz & R). exists z. split; [cbn; auto|auto].
        * intros LL z [<-|Iz] HZ; [destruct HZ; congruence|auto].
      + cbv zeta. destruct (lt_b _ t) eqn:LB.
        * apply lt_b_true in LB. destruct (Nat.leb_spec k (length (acc ++ [nth i indices 0%nat]))) as [GE|LE].
          -- exists [nth i indices 0%nat]. split; [auto|]. rewrite app_length in GE. cbn in GE. split; [rewrite app_length; cbn; lia|]. split; [intros j [<-|[]]; exists i; split; [cbn; auto|split; [split; auto|auto]]|]. rewrite app_length. cbn. lia.
          -- destruct (IH q _ ltac:(lia) LE CQ) as (ex & E & B1 & B2 & B3). exists (nth i indices 0%nat :: ex). rewrite <- app_assoc in E, B1, B3. cbn [app] in *. split; [auto|]. split; [auto|]. split.
             ++ intros j [<-|Ij]; [exists i; split; [cbn; auto|split; [split; auto|auto]]|]. destruct (B2 j Ij) as (z & Iz & R). exists z. split; [cbn; auto|auto].
             ++ intros LL z [<-|Iz] HZ; [left; auto|right; auto].
        * apply lt_b_false in LB. destruct (Nat.leb_spec k (length acc)) as [GE|LE]; [lia|]. destruct (IH q _ ltac:(lia) LE CQ) as (ex & E & B1 & B2 & B3). exists ex. split; [auto|]. split; [auto|]. split.
          -- intros j Ij. destruct (B2 j Ij) as (z & Iz & R). exists z. split; [cbn; auto|auto].
          -- intros LL z [<-|Iz] HZ; [destruct HZ; lra|auto].
    - cbn [count] in TQ. destruct (contains D lo hi p) eqn:EC.
      + destruct CC as (C0 & C1 & C2). set (two := if Nat.even (length q) then [l; r] else [r; l]). assert (TT : total two = (count l + count r)%nat) by (unfold two; destruct (Nat.even _); cbn; lia).
        destruct (IH (q ++ two) acc) as (ex & E & B1 & B2 & B3); [rewrite total_app; lia|auto|apply Forall_app; split; [auto|unfold two; destruct (Nat.even _); auto]|].
        assert (IN : forall z, In z (flat_map leaves (q ++ two)) <-> In z (flat_map leaves (Inner lo hi l r :: q))).
        { intros z. rewrite flat_map_app, in_app_iff. cbn [flat_map leaves]. rewrite !in_app_iff. unfold two. destruct (Nat.even _); cbn [flat_map]; rewrite !in_app_iff; cbn [In]; tauto. }
        exists ex. split; [auto|]. split; [auto|]. split; [intros j Ij; destruct (B2 j Ij) as (z & Iz & R); exists z; split; [apply IN; auto|auto]|]. intros LL z Iz HZ. apply B3; auto. apply IN. auto.
      + destruct (IH q acc ltac:(lia) LA CQ) as (ex & E & B1 & B2 & B3). exists ex. split; [auto|]. split; [auto|]. split.
        * intros j Ij. destruct (B2 j Ij) as (z & Iz & R). exists z. split; [apply in_or_app; auto|auto].
        * intros LL z Iz HZ. cbn [flat_map] in Iz. apply in_app_or in Iz. destruct Iz as [Iz|Iz]; [exfalso; eapply outside_box; eauto|auto].
  Qed.
End T.
