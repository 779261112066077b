From Verif Require Import NumpyModel NumpyProofs TopoModel TopoSpec TopoProofs CorrProofs.
From Coq Require Import Permutation.
Open Scope Z_scope.

Lemma flip_flip e : flip (flip e) = e. Proof. destruct e; auto. Qed.
Lemma same_edge_cases e f : same_edge e f <-> f = e \/ f = flip e.
Proof.
  destruct e as [a b], f as [c d]; unfold same_edge, flip; cbn.
  split; [intros [[-> ->]|[-> ->]]; auto | intros [Q|Q]; injection Q; intros; subst; auto].
Qed.
Lemma sort2_flip e : sort2 (flip e) = sort2 e.
Proof. apply sort2_same, same_edge_cases. right. rewrite flip_flip. auto. Qed.
Lemma flip_inj e f : flip e = flip f -> e = f.
Proof. intros Q. rewrite <- (flip_flip e), Q, flip_flip; auto. Qed.
Lemma in_map_flip e l : In e (map flip l) <-> In (flip e) l.
Proof.
  rewrite in_map_iff. split.
  - intros (x & <- & I). rewrite flip_flip; auto.
  - intros I. exists (flip e). rewrite flip_flip; auto.
Qed.
Lemma first_index_flip e l : first_index e (map flip l) = first_index (flip e) l.
Proof.
  induction l as [|x l IH]; cbn [map first_index]; auto.
  destruct (eqb_spec e (flip x)), (eqb_spec (flip e) x); subst; rewrite ?flip_flip in *; try congruence.
Qed.
Lemma flatF_NoDup F : oriented_manifold F -> NoDup (flatF F).
Proof. intros N. eapply Permutation_NoDup; [symmetry; apply flatF_perm | exact N]. Qed.

(** number of half-edges on an edge of an oriented manifold list *)
Lemma filter_same_bound e l : NoDup l -> (length (filter (same_edgeb e) l) <= 2)%nat.
Proof.
  intros N. transitivity (length [e; flip e]); auto.
  apply NoDup_incl_length.
  - apply NoDup_filter; auto.
  - intros f I. apply filter_In in I as [_ I]. apply same_edgeb_spec, same_edge_cases in I. cbn.
    destruct I; auto.
Qed.
Lemma incidence_le_2 F e : oriented_manifold F -> (incidence F e <= 2)%nat.
Proof. apply filter_same_bound. Qed.

Lemma incidence_two F e : oriented_manifold F -> incidence F e = 2%nat ->
  In e (all_sides F) /\ In (flip e) (all_sides F) /\ e <> flip e.
Proof.
  intros N Q. unfold incidence in Q.
  assert (N' := NoDup_filter (same_edgeb e) N).
  destruct (filter (same_edgeb e) (all_sides F)) as [|x [|y [|]]] eqn:E; try discriminate.
  assert (Ix : In x (filter (same_edgeb e) (all_sides F))) by (rewrite E; cbn; auto).
  assert (Iy : In y (filter (same_edgeb e) (all_sides F))) by (rewrite E; cbn; auto).
  apply filter_In in Ix as [Ix Sx]. apply filter_In in Iy as [Iy Sy].
  apply same_edgeb_spec, same_edge_cases in Sx. apply same_edgeb_spec, same_edge_cases in Sy.
  assert (x <> y) by (inversion N' as [|? ? NI]; intros ->; apply NI; left; auto).
  destruct Sx as [->| ->], Sy as [->| ->]; try congruence; auto.
Qed.

Lemma incidence_ge_two F e f : In e (all_sides F) -> In f (all_sides F) -> e <> f -> same_edge e f -> (2 <= incidence F e)%nat.
Proof.
  intros Ie If NE S. unfold incidence. change 2%nat with (length [e; f]). apply NoDup_incl_length.
  - repeat constructor; cbn; intuition.
  - intros x [<-|[<-|[]]]; apply filter_In; split; auto; apply same_edgeb_spec; auto.
    apply same_edge_cases; auto.
Qed.

Lemma combine_map {A B C} (f : A -> B) (g : A -> C) l : combine (map f l) (map g l) = map (fun x => (f x, g x)) l.
Proof. induction l; cbn; congruence. Qed.

Lemma gather_first_index flat idx b : NoDup flat -> gather flat idx = Some b -> idx = map (fun e : edge => first_index e flat) b.
Proof.
  intros N G. revert b G; induction idx as [|k idx IH]; cbn; intros b G.
  - injection G as <-; auto.
  - destruct (nth_error flat k) eqn:E; [|discriminate]. destruct (gather flat idx) eqn:G'; [|discriminate].
    injection G as <-. cbn. rewrite (first_index_NoDup _ _ _ N E). f_equal. apply IH; auto.
Qed.

Lemma corr_in (flat : list edge) e : In e flat -> corr flat e = Z.of_nat (first_index e flat).
Proof. intros I. unfold corr. apply first_index_lt in I. destruct (Nat.ltb_spec (first_index e flat) (length flat)); auto; lia. Qed.

Lemma In_combine_seq {A} (l : list A) k x : In (k, x) (combine (seq 0 (length l)) l) <-> nth_error l k = Some x.
Proof.
  assert (G : forall s, In (k, x) (combine (seq s (length l)) l) <-> exists j, k = (s + j)%nat /\ nth_error l j = Some x).
  { induction l as [|y l IH]; intros s; cbn.
    - split; [tauto|]. intros (j & _ & Q). destruct j; discriminate.
    - rewrite IH. split.
      + intros [Q|(j & -> & Q)]; [injection Q as <- <-; exists 0%nat; cbn; split; auto | exists (S j); cbn; split; auto; lia].
      + intros ([|j] & -> & Q); cbn in Q; [left; injection Q as ->; f_equal; lia | right; exists j; split; auto; lia]. }
  rewrite G. split; [intros (j & -> & Q); auto | intros Q; exists k; auto].
Qed.

Definition HemResult (F : list tri) (E : list edge) (h2e : table) (e2h : list ((Z * Z) * (Z * Z))) : Prop :=
  (forall e, (exists e', In e' E /\ same_edge e e') <-> (0 < incidence F e)%nat)
  /\ (forall k l e f, nth_error E k = Some e -> nth_error E l = Some f -> same_edge e f -> k = l)
  /\ length e2h = length E
  /\ (forall f i t, nth_error F f = Some t -> (i < 3)%nat ->
       exists k e h0 h1, h2e (Z.of_nat f) (Z.of_nat i) = Z.of_nat k /\ nth_error E k = Some e
         /\ same_edge e (side_opp t i) /\ nth_error e2h k = Some (h0, h1)
         /\ (h0 = (Z.of_nat f, Z.of_nat i) \/ h1 = (Z.of_nat f, Z.of_nat i)))
  /\ (forall k e, nth_error E k = Some e -> exists f i t h1,
       nth_error e2h k = Some ((Z.of_nat f, Z.of_nat i), h1)
       /\ (i < 3)%nat /\ nth_error F f = Some t /\ side_opp t i = e
       /\ h2e (Z.of_nat f) (Z.of_nat i) = Z.of_nat k
       /\ (incidence F e = 1%nat /\ h1 = (-1, -1)
           \/ incidence F e = 2%nat /\ exists g j s, h1 = (Z.of_nat g, Z.of_nat j) /\ (j < 3)%nat
                /\ nth_error F g = Some s /\ side_opp s j = (snd e, fst e)
                /\ h2e (Z.of_nat g) (Z.of_nat j) = Z.of_nat k)).

Section Hem.
  Variable F : list tri.
  Hypothesis NE : F <> [].
  Hypothesis OM : oriented_manifold F.
  Let flat := flatF F.
  Let m := Z.of_nat (length F).
  Let pos e := Z.of_nat (first_index e flat).

  Lemma in_flat e : In e flat <-> In e (all_sides F).
  Proof. split; apply Permutation_in; [|symmetry]; apply flatF_perm. Qed.
  Lemma ND : NoDup flat. Proof. apply flatF_NoDup; auto. Qed.

  Lemma pos_unflat e : In e flat -> exists f i t, unflat m (pos e) = (Z.of_nat f, Z.of_nat i)
    /\ (i < 3)%nat /\ nth_error F f = Some t /\ side_opp t i = e.
  Proof.
    intros I. apply first_index_In in I. apply flatF_nth_inv in I as (r & c & t & Hr & Hc & K & Ht & S).
    exists r, c, t. unfold pos. fold flat in K. rewrite K. unfold m. rewrite unflat_flat by auto. auto.
  Qed.
  Lemma pos_at f i t : nth_error F f = Some t -> (i < 3)%nat ->
    unflat m (pos (side_opp t i)) = (Z.of_nat f, Z.of_nat i) /\ In (side_opp t i) flat.
  Proof.
    intros Hf Hi. assert (Lf : (f < length F)%nat) by (apply nth_error_Some; congruence).
    assert (Q : nth_error flat (f + i * length F) = Some (side_opp t i)).
    { unfold flat. rewrite flatF_nth by auto. rewrite Hf. auto. }
    unfold pos. rewrite (first_index_NoDup _ _ _ ND Q). unfold m. rewrite unflat_flat by auto.
    split; auto. eapply nth_error_In; eauto.
  Qed.

  Lemma hem_ok : exists E h2e e2h, halfedge_edge_map F = Some (E, h2e, e2h) /\ HemResult F E h2e e2h.
  Proof.
    destruct (hem_edges_struct F NE) as (b & i & bi & ii & Q & Mb & Mi & Ib & Ii & G).
    destruct (hem_edge_facts F b i Mb Mi) as (C1 & C2 & C3).
    fold flat in Q, Ib, Ii, G.
    assert (INE : forall e, In e (b ++ i) -> In e flat) by (intros e I; apply in_app_iff in I as [I|I]; auto).
    assert (INC : forall k e, nth_error (b ++ i) k = Some e -> (1 <= incidence F e <= 2)%nat).
    { intros k e Hk. split; [|apply incidence_le_2; auto].
      apply C1. exists e. split; [eapply nth_error_In; eauto|]. apply same_edge_cases; auto. }
    assert (IFL : forall e, In e i -> In (flip e) flat).
    { intros e I. apply In_nth_error in I as [k Hk].
      assert (Hk' : nth_error (b ++ i) (length b + k) = Some e).
      { rewrite nth_error_app2 by lia. rewrite <- Hk. f_equal; lia. }
      pose proof (INC _ _ Hk') as IN.
      assert (incidence F e <> 1%nat) by (rewrite <- (C3 _ _ Hk'); lia).
      apply in_flat. apply incidence_two; auto. lia. }
    pose proof (gather_first_index _ _ _ ND G) as BI.
    unfold halfedge_edge_map. rewrite Q.
    rewrite BI, map_length, skipn_app, skipn_all, Nat.sub_diag. cbn [app skipn].
    assert (FN : flat <> []).
    { unfold flat. intros Z0. assert (L := flatF_length F). rewrite Z0 in L. destruct F; [congruence | discriminate]. }
    rewrite !array_correspondence_map; [|intros Z0; destruct flat; [congruence|discriminate] | intros; congruence].
    rewrite combine_map, !map_map. cbn [fst snd].
    rewrite (map_ext_in _ (fun e => (unflat m (pos e), unflat m (pos (flip e)))) i).
    2: { intros e I. unfold pos. rewrite corr_in by auto.
         replace (corr (map flip flat) e) with (corr flat (flip e)).
         - rewrite corr_in by auto. auto.
         - unfold corr. rewrite first_index_flip, map_length. auto. }
    fold m.
    set (e2h := map (fun x => (unflat m (Z.of_nat (first_index x flat)), (-1, -1))) b
                ++ map (fun e => (unflat m (pos e), unflat m (pos (flip e)))) i).
    assert (LE : length e2h = length (b ++ i)) by (unfold e2h; rewrite !app_length, !map_length; auto).
    assert (E2H : forall k e, nth_error (b ++ i) k = Some e ->
      nth_error e2h k = Some (unflat m (pos e), if Nat.ltb k (length b) then (-1,-1) else unflat m (pos (flip e)))).
    { intros k e Hk. unfold e2h. destruct (Nat.ltb_spec k (length b)) as [L|L].
      - rewrite nth_error_app1 in * by (rewrite ?map_length; auto). rewrite nth_error_map, Hk. auto.
      - rewrite nth_error_app2 in * by (rewrite ?map_length; auto). rewrite map_length, nth_error_map, Hk. auto. }
    set (writes := filter _ _).
    assert (W : forall r c v, In (r, c, v) writes <-> exists k e, v = Z.of_nat k /\ nth_error (b ++ i) k = Some e
       /\ ((r, c) = unflat m (pos e) \/ (length b <= k)%nat /\ (r, c) = unflat m (pos (flip e)))).
    { intros r c v. unfold writes. rewrite filter_In, in_flat_map. cbn [fst snd]. split.
      - intros [([k [h0 h1]] & I & J) V]. apply In_combine_seq in I.
        destruct (nth_error (b ++ i) k) as [e|] eqn:Hk.
        2: { apply nth_error_None in Hk. rewrite <- LE in Hk. apply nth_error_None in Hk. congruence. }
        rewrite (E2H _ _ Hk) in I. injection I as <- <-. exists k, e.
        destruct J as [J|[J|[]]]; injection J as J1 J2 J3; subst v; split; auto; split; auto.
        + left. rewrite <- J1, <- J2. symmetry; apply surjective_pairing.
        + destruct (Nat.ltb_spec k (length b)).
          * cbn in J1. subst r. discriminate.
          * right. split; auto. rewrite <- J1, <- J2. symmetry; apply surjective_pairing.
      - intros (k & e & -> & Hk & J).
        assert (POS : forall x, In x flat -> 0 <= fst (unflat m (pos x))).
        { intros x I. destruct (pos_unflat x I) as (f & j & t & -> & _). cbn. lia. }
        split.
        + exists (k, (unflat m (pos e), if Nat.ltb k (length b) then (-1,-1) else unflat m (pos (flip e)))).
          split; [apply In_combine_seq, E2H; auto|].
          destruct J as [J|[L J]].
          * left. rewrite <- J. auto.
          * right; left. destruct (Nat.ltb_spec k (length b)); [lia|]. rewrite <- J. auto.
        + apply Z.leb_le. destruct J as [J|[L J]].
          * replace r with (fst (unflat m (pos e))) by (rewrite <- J; auto). apply POS, INE. eapply nth_error_In; eauto.
          * replace r with (fst (unflat m (pos (flip e)))) by (rewrite <- J; auto). apply POS, IFL.
            rewrite nth_error_app2 in Hk by auto. eapply nth_error_In; eauto. }
    assert (WF : forall r c k e, nth_error (b ++ i) k = Some e ->
       ((r, c) = unflat m (pos e) \/ (length b <= k)%nat /\ (r, c) = unflat m (pos (flip e))) ->
       exists f j t, r = Z.of_nat f /\ c = Z.of_nat j /\ (j < 3)%nat /\ nth_error F f = Some t /\ same_edge e (side_opp t j)).
    { intros r c k e Hk J.
      assert (X : exists x, In x flat /\ (r, c) = unflat m (pos x) /\ same_edge e x).
      { destruct J as [J|[L J]].
        - exists e. split; [apply INE; eapply nth_error_In; eauto|]. split; auto. apply same_edge_cases; auto.
        - exists (flip e). split; [apply IFL; rewrite nth_error_app2 in Hk by auto; eapply nth_error_In; eauto|].
          split; auto. apply same_edge_cases; auto. }
      destruct X as (x & Ix & Rx & Sx). destruct (pos_unflat x Ix) as (f & j & t & U & Lj & Hf & S).
      rewrite U in Rx. injection Rx as -> ->. exists f, j, t. subst x. auto 6. }
    destruct (scatter_ok m writes (fun _ _ => -1)) as (h2e & SC & P).
    { intros r c v I. apply W in I as (k & e & _ & Hk & J). destruct (WF _ _ _ _ Hk J) as (f & j & t & -> & -> & Lj & Hf & _).
      assert (f < length F)%nat by (apply nth_error_Some; congruence). unfold m. lia. }
    rewrite SC.
    (* every half-edge gets the index of its edge *)
    assert (H2E : forall f j t, nth_error F f = Some t -> (j < 3)%nat -> exists k e,
       h2e (Z.of_nat f) (Z.of_nat j) = Z.of_nat k /\ nth_error (b ++ i) k = Some e /\ same_edge e (side_opp t j)).
    { intros f j t Hf Lj. destruct (pos_at f j t Hf Lj) as [PA IA].
      destruct (P (Z.of_nat f) (Z.of_nat j)) as [[_ NW]|(v & I & E)].
      - exfalso. apply NW.
        destruct (proj2 (C1 (side_opp t j))) as (e & Ie & S).
        { unfold incidence. apply in_flat in IA.
          assert (IN : In (side_opp t j) (filter (same_edgeb (side_opp t j)) (all_sides F))).
          { apply filter_In; split; auto. apply same_edgeb_spec, same_edge_cases; auto. }
          destruct (filter (same_edgeb (side_opp t j)) (all_sides F)); [destruct IN | cbn; lia]. }
        apply In_nth_error in Ie as [k Hk].
        exists (Z.of_nat k). apply W. exists k, e. split; auto. split; auto.
        apply same_edge_cases in S as [S|S].
        + left. subst e. auto.
        + assert (S' : side_opp t j = flip e) by (rewrite S, flip_flip; auto).
          destruct (Nat.ltb_spec k (length b)) as [L|L]; [|right; split; auto; rewrite <- S'; auto].
          left. apply (C3 _ _ Hk) in L.
          destruct (eqb_spec e (flip e)) as [EF|EF]; [rewrite EF, <- S'; auto|].
          exfalso. assert (2 <= incidence F e)%nat; [|lia].
          apply incidence_ge_two with (flip e); auto.
          * apply in_flat, INE. eapply nth_error_In; eauto.
          * apply in_flat. rewrite <- S'; auto.
          * apply same_edge_cases; auto.
      - apply W in I as (k & e & -> & Hk & J). exists k, e. split; auto. split; auto.
        destruct (WF _ _ _ _ Hk J) as (f' & j' & t' & Q1 & Q2 & Lj' & Hf' & S).
        apply Nat2Z.inj in Q1, Q2. subst f' j'. rewrite Hf in Hf'. injection Hf' as <-. auto. }
    assert (EX : existsb (fun p => h2e (fst p) (snd p) =? -1) (all_cells (length F)) = false).
    { destruct (existsb _ _) eqn:EX; auto. apply existsb_exists in EX as ([r c] & I & V).
      apply In_all_cells in I as [Hr Hc]. cbn in V. apply Z.eqb_eq in V.
      destruct (nth_error F (Z.to_nat r)) as [t|] eqn:Hf; [|apply nth_error_None in Hf; lia].
      destruct (H2E _ (Z.to_nat c) _ Hf) as (k & e & Hk & _); [lia|].
      rewrite !Z2Nat.id in Hk by lia. lia. }
    rewrite EX. exists (b ++ i), h2e, e2h. split; auto.
    assert (UNI : forall f j t k e, nth_error F f = Some t -> (j < 3)%nat -> nth_error (b ++ i) k = Some e ->
      same_edge e (side_opp t j) -> h2e (Z.of_nat f) (Z.of_nat j) = Z.of_nat k).
    { intros f j t k e Hf Lj Hk S. destruct (H2E _ _ _ Hf Lj) as (k' & e' & V & Hk' & S').
      rewrite V. f_equal. eapply C2; eauto. apply sort2_same. apply sort2_same in S, S'. congruence. }
    split; [exact C1|]. split; [exact C2|]. split; [exact LE|]. split.
    - intros f j t Hf Lj. destruct (H2E _ _ _ Hf Lj) as (k & e & V & Hk & S).
      destruct (pos_at f j t Hf Lj) as [PA IA].
      exists k, e. eexists; eexists. split; [exact V|]. split; [exact Hk|]. split; [exact S|].
      split; [exact (E2H _ _ Hk)|].
      apply same_edge_cases in S as [S|S].
      + left. rewrite <- S. auto.
      + destruct (Nat.ltb_spec k (length b)) as [L|L].
        * left. apply (C3 _ _ Hk) in L.
          destruct (eqb_spec e (flip e)) as [EF|EF]; [rewrite EF, <- S; auto|].
          exfalso. assert (2 <= incidence F e)%nat; [|lia].
          apply incidence_ge_two with (flip e); auto.
          -- apply in_flat, INE. eapply nth_error_In; eauto.
          -- apply in_flat. rewrite <- S; auto.
          -- apply same_edge_cases; auto.
        * right. rewrite <- S. auto.
    - intros k e Hk. pose proof (nth_error_In _ _ Hk) as Ie.
      destruct (pos_unflat e (INE _ Ie)) as (f & j & t & U & Lj & Hf & S).
      exists f, j, t. eexists. split; [rewrite (E2H _ _ Hk), U; reflexivity|].
      split; auto. split; auto. split; auto. split.
      { eapply UNI; eauto. rewrite S. apply same_edge_cases; auto. }
      destruct (Nat.ltb_spec k (length b)) as [L|L].
      + left. split; auto. apply (C3 _ _ Hk); auto.
      + right. split.
        * pose proof (INC _ _ Hk). assert (incidence F e <> 1%nat) by (rewrite <- (C3 _ _ Hk); lia). lia.
        * assert (I : In (flip e) flat) by (apply IFL; rewrite nth_error_app2 in Hk by auto; eapply nth_error_In; eauto).
          destruct (pos_unflat (flip e) I) as (g & j' & s & U' & Lj' & Hg & S').
          exists g, j', s. rewrite U'. repeat split; auto.
          eapply UNI; eauto. rewrite S'. apply same_edge_cases; auto.
  Qed.
End Hem.
