From Verif Require Import NumpyModel NumpyProofs TopoModel TopoSpec TopoProofs CorrProofs HemProofs.
From Coq Require Import Permutation.
Open Scope Z_scope.

Lemma edge_eqb_spec e h : edge_eqb e h || edge_eqb (flip e) h = true <-> same_edge e h.
Proof.
  unfold edge_eqb, flip, same_edge. cbn. rewrite orb_true_iff, !andb_true_iff, !Z.eqb_eq. intuition.
Qed.

Definition HemNmResult (F : list tri) (E : list edge) (h2e : table) (e2h : list (list (Z * Z))) : Prop :=
  (forall e, (exists e', In e' E /\ same_edge e e') <-> (0 < incidence F e)%nat)
  /\ (forall k l e f, nth_error E k = Some e -> nth_error E l = Some f -> same_edge e f -> k = l)
  /\ length e2h = length E
  /\ (forall k e hs, nth_error E k = Some e -> nth_error e2h k = Some hs ->
        NoDup hs
        /\ length hs = incidence F e
        /\ forall r c, In (r, c) hs <-> exists f i t, r = Z.of_nat f /\ c = Z.of_nat i /\ (i < 3)%nat
               /\ nth_error F f = Some t /\ same_edge e (side_opp t i))
  /\ (forall f i t, nth_error F f = Some t -> (i < 3)%nat ->
       exists k e, h2e (Z.of_nat f) (Z.of_nat i) = Z.of_nat k /\ nth_error E k = Some e /\ same_edge e (side_opp t i)).

Lemma NoDup_map_inj_in {A B} (f : A -> B) l : (forall x y, In x l -> In y l -> f x = f y -> x = y) -> NoDup l -> NoDup (map f l).
Proof.
  intros I N. induction N as [|x l NI N IH]; cbn; constructor.
  - intros J. apply in_map_iff in J as (y & Q & Iy). apply NI. rewrite (I x y); cbn; auto.
  - apply IH. intros; apply I; cbn; auto.
Qed.

Lemma count_positions (p : edge -> bool) flat (ps : list nat) : NoDup ps ->
  (forall k, In k ps <-> exists h, nth_error flat k = Some h /\ p h = true) ->
  length ps = length (filter p flat).
Proof.
  intros N C.
  assert (P : Permutation ps (np_where (map p flat))).
  { apply NoDup_Permutation; [auto | apply np_where_NoDup|]. intros k. rewrite C, In_np_where, nth_error_map.
    destruct (nth_error flat k) as [h|]; cbn.
    - split; [intros (h' & Q & Q'); congruence | intros Q; exists h; split; congruence].
    - split; [intros (h' & Q & _); discriminate | discriminate]. }
  rewrite (Permutation_length P). unfold np_where. rewrite map_length.
  generalize 0%nat as s. clear. induction flat as [|h flat IH]; intros s; cbn; auto.
  destruct (p h); cbn; rewrite IH; auto.
Qed.

Section HemNm.
  Variable F : list tri.
  Hypothesis NE : F <> [].
  Let flat := flatF F.
  Let m := Z.of_nat (length F).

  Lemma hem_nm_ok : exists E h2e e2h, halfedge_edge_map_nm F = Some (E, h2e, e2h) /\ HemNmResult F E h2e e2h.
  Proof.
    destruct (hem_edges_struct F NE) as (b & i & bi & ii & Q & Mb & Mi & Ib & Ii & G).
    destruct (hem_edge_facts F b i Mb Mi) as (C1 & C2 & C3).
    unfold halfedge_edge_map_nm. rewrite Q.
    apply gather_spec in G as [LB GB].
    rewrite <- LB, skipn_app, skipn_all, Nat.sub_diag. cbn [app skipn].
    fold flat m.
    set (e2h := map (fun k => [unflat m (Z.of_nat k)]) bi ++ _).
    assert (LE : length e2h = length (b ++ i)) by (unfold e2h; rewrite !app_length, !map_length; congruence).
    assert (HS : forall k e, nth_error (b ++ i) k = Some e -> exists ps, nth_error e2h k = Some (map (fun p => unflat m (Z.of_nat p)) ps)
       /\ NoDup ps /\ (forall p, In p ps <-> exists h, nth_error flat p = Some h /\ same_edge e h)).
    { intros k e Hk. unfold e2h. destruct (Nat.ltb_spec k (length b)) as [L|L].
      - assert (I1 := proj1 (C3 _ _ Hk) L).
        rewrite nth_error_app1 in * by (rewrite ?map_length; congruence).
        destruct (nth_error bi k) as [p|] eqn:Hp; [|apply nth_error_None in Hp; lia].
        exists [p]. rewrite nth_error_map, Hp. split; auto. split; [repeat constructor; auto|].
        destruct (GB _ _ Hp) as (x & Hx & Hx'). rewrite Hk in Hx'. injection Hx' as <-.
        intros q. split.
        + intros [<-|[]]. exists e. split; auto. apply same_edge_cases; auto.
        + intros (h & Hh & S). left. rewrite incidence_count in I1.
          apply (count_one (sort2 e) (map sort2 (flatF F))); auto.
          * rewrite nth_error_map, Hx; auto.
          * fold flat. rewrite nth_error_map, Hh. cbn. f_equal. symmetry. apply sort2_same; auto.
      - rewrite nth_error_app2 in Hk by auto. rewrite nth_error_app2 by (rewrite map_length; lia).
        rewrite map_length, <- LB, nth_error_map, Hk. eexists. split; [reflexivity|].
        split; [apply np_where_NoDup|]. intros p. rewrite In_np_where, nth_error_map.
        destruct (nth_error flat p) as [h|]; cbn [option_map].
        + split.
          * intros V. exists h. split; auto. apply edge_eqb_spec. congruence.
          * intros (h' & V & S). f_equal. injection V as <-. apply edge_eqb_spec; auto.
        + split; [discriminate | intros (h & V & _); discriminate]. }
    assert (HP : forall k e hs, nth_error (b ++ i) k = Some e -> nth_error e2h k = Some hs -> forall r c,
       In (r, c) hs <-> exists f j t, r = Z.of_nat f /\ c = Z.of_nat j /\ (j < 3)%nat /\ nth_error F f = Some t /\ same_edge e (side_opp t j)).
    { intros k e hs Hk Hh r c. destruct (HS _ _ Hk) as (ps & V & _ & C). rewrite V in Hh. injection Hh as <-.
      rewrite in_map_iff. split.
      - intros (p & U & Ip). apply C in Ip as (h & Hp & S).
        apply flatF_nth_inv in Hp as (f & j & t & Lf & Lj & -> & Hf & Sh).
        unfold m in U. rewrite unflat_flat in U by auto. injection U as <- <-. exists f, j, t. subst h. auto 6.
      - intros (f & j & t & -> & -> & Lj & Hf & S). assert (Lf : (f < length F)%nat) by (apply nth_error_Some; congruence).
        exists (f + j * length F)%nat. unfold m. rewrite unflat_flat by auto. split; auto.
        apply C. exists (side_opp t j). split; auto. unfold flat. rewrite flatF_nth, Hf by auto. auto. }
    set (writes := flat_map _ _).
    assert (W : forall r c v, In (r, c, v) writes <-> exists k e hs, v = Z.of_nat k /\ nth_error (b ++ i) k = Some e
       /\ nth_error e2h k = Some hs /\ In (r, c) hs).
    { intros r c v. unfold writes. rewrite in_flat_map. split.
      - intros ([k hs] & I & J). apply In_combine_seq in I. apply in_map_iff in J as ([r' c'] & V & J). injection V as <- <- <-.
        destruct (nth_error (b ++ i) k) as [e|] eqn:Hk.
        2: { apply nth_error_None in Hk. rewrite <- LE in Hk. apply nth_error_None in Hk. congruence. }
        exists k, e, hs. auto.
      - intros (k & e & hs & -> & Hk & Hh & I). exists (k, hs). split; [apply In_combine_seq; auto|].
        apply in_map_iff. exists (r, c). auto. }
    destruct (scatter_ok m writes (fun _ _ => -1)) as (h2e & SC & P).
    { intros r c v I. apply W in I as (k & e & hs & _ & Hk & Hh & J). apply (HP _ _ _ Hk Hh) in J as (f & j & t & -> & -> & Lj & Hf & _).
      assert (f < length F)%nat by (apply nth_error_Some; congruence). unfold m. lia. }
    rewrite SC.
    assert (H2E : forall f j t, nth_error F f = Some t -> (j < 3)%nat -> exists k e,
       h2e (Z.of_nat f) (Z.of_nat j) = Z.of_nat k /\ nth_error (b ++ i) k = Some e /\ same_edge e (side_opp t j)).
    { intros f j t Hf Lj.
      destruct (P (Z.of_nat f) (Z.of_nat j)) as [[_ NW]|(v & I & E)].
      - exfalso. apply NW.
        assert (IA : In (side_opp t j) (all_sides F)).
        { eapply Permutation_in; [apply flatF_perm|]. apply nth_error_In with (f + j * length F)%nat.
          rewrite flatF_nth, Hf; auto. apply nth_error_Some; congruence. }
        destruct (proj2 (C1 (side_opp t j))) as (e & Ie & S).
        { unfold incidence.
          assert (IN : In (side_opp t j) (filter (same_edgeb (side_opp t j)) (all_sides F))).
          { apply filter_In; split; auto. apply same_edgeb_spec, same_edge_cases; auto. }
          destruct (filter (same_edgeb (side_opp t j)) (all_sides F)); [destruct IN | cbn; lia]. }
        apply In_nth_error in Ie as [k Hk].
        destruct (HS _ _ Hk) as (ps & V & _).
        exists (Z.of_nat k). apply W. exists k, e. eexists. split; auto. split; auto. split; [exact V|].
        apply (HP _ _ _ Hk V). exists f, j, t. repeat split; auto.
        apply sort2_same. apply sort2_same in S. auto.
      - apply W in I as (k & e & hs & -> & Hk & Hh & J). exists k, e. split; auto. split; auto.
        apply (HP _ _ _ Hk Hh) in J as (f' & j' & t' & Q1 & Q2 & Lj' & Hf' & S).
        apply Nat2Z.inj in Q1, Q2. subst f' j'. rewrite Hf in Hf'. injection Hf' as <-. auto. }
    assert (EX : existsb (fun p => h2e (fst p) (snd p) =? -1) (all_cells (length F)) = false).
    { destruct (existsb _ _) eqn:EX; auto. apply existsb_exists in EX as ([r c] & I & V).
      apply In_all_cells in I as [Hr Hc]. cbn in V. apply Z.eqb_eq in V.
      destruct (nth_error F (Z.to_nat r)) as [t|] eqn:Hf; [|apply nth_error_None in Hf; lia].
      destruct (H2E _ (Z.to_nat c) _ Hf) as (k & e & Hk & _); [lia|].
      rewrite !Z2Nat.id in Hk by lia. lia. }
    rewrite EX. exists (b ++ i), h2e, e2h. split; auto.
    split; [exact C1|]. split; [exact C2|]. split; [exact LE|]. split; [|exact H2E].
    intros k e hs Hk Hh. split; [|split; [|exact (HP _ _ _ Hk Hh)]].
    - destruct (HS _ _ Hk) as (ps & V & N & C). rewrite V in Hh. injection Hh as <-.
      apply NoDup_map_inj_in; auto. intros x y Ix Iy U.
      apply C in Ix as (hx & Hx & _). apply C in Iy as (hy & Hy & _).
      apply flatF_nth_inv in Hx as (f & j & t & Lf & Lj & -> & _).
      apply flatF_nth_inv in Hy as (f' & j' & t' & Lf' & Lj' & -> & _).
      unfold m in U. rewrite !unflat_flat in U by auto. injection U as U1 U2. apply Nat2Z.inj in U1, U2. subst; auto.
    - destruct (HS _ _ Hk) as (ps & V & N & C). rewrite V in Hh. injection Hh as <-.
      rewrite map_length. rewrite (count_positions (same_edgeb e) flat ps N).
      + unfold incidence. apply perm_filter_length, flatF_perm.
      + intros p. rewrite C. split; intros (h & A & B); exists h; split; auto; apply same_edgeb_spec; auto.
  Qed.
End HemNm.

(** ** C09 *)
Section TTA.
  Variable F : list tri.
  Hypothesis NE : F <> [].
  Let flat := flatF F.
  Let m := length F.

  (** index of the half-edge reverse to [h], as the model computes it *)
  Let mp := map (corr (map flip flat)) flat.

  Lemma nth_reshape (g : Z -> Z) f i : (f < m)%nat -> (i < 3)%nat ->
    nth_error (map (fun r => (nth r (map g mp) 0, nth (r + m) (map g mp) 0, nth (r + 2 * m) (map g mp) 0)) (seq 0 m)) f
    = Some (nth f (map g mp) 0, nth (f + m) (map g mp) 0, nth (f + 2 * m) (map g mp) 0).
  Proof.
    intros L _. rewrite nth_error_map.
    rewrite nth_error_nth' with (d := 0%nat) by (rewrite seq_length; auto). rewrite seq_nth by auto. auto.
  Qed.

  Lemma nth_mp (g : Z -> Z) f i t : nth_error F f = Some t -> (i < 3)%nat ->
    nth (f + i * m) (map g mp) 0 = g (corr (map flip flat) (side_opp t i)).
  Proof.
    intros Hf Li. assert (Lf : (f < length F)%nat) by (apply nth_error_Some; congruence).
    apply nth_error_nth. rewrite nth_error_map. unfold mp. rewrite nth_error_map. unfold flat, m.
    rewrite flatF_nth, Hf by auto. auto.
  Qed.

  Lemma tta_value : exists TT TTi, triangle_triangle_adjacency F = Some (TT, TTi)
    /\ length TT = m /\ length TTi = m
    /\ forall f i t, nth_error F f = Some t -> (i < 3)%nat ->
        exists r ri, nth_error TT f = Some r /\ nth_error TTi f = Some ri
        /\ (let k := corr (map flip flat) (side_opp t i) in
            row3 r i = (if k <? 0 then -1 else k mod Z.of_nat m)
            /\ row3 ri i = (if k <? 0 then -1 else k / Z.of_nat m)).
  Proof.
    unfold triangle_triangle_adjacency. rewrite halfedges_some by auto. fold (flatF F). fold flat.
    rewrite array_correspondence_map by (intros Q; destruct flat; [auto | discriminate]). fold mp. fold m.
    eexists; eexists. split; [reflexivity|]. rewrite !map_length, !seq_length. split; auto. split; auto.
    intros f i t Hf Li. assert (Lf : (f < m)%nat) by (apply nth_error_Some; congruence).
    eexists; eexists. split; [apply nth_reshape with (i := i); auto|]. split; [apply nth_reshape with (i := i); auto|].
    cbv zeta.
    destruct i as [|[|[|]]]; [| | |lia]; cbn [row3 fst snd].
    all: set (g1 := fun k : Z => if k <? 0 then -1 else k mod Z.of_nat m);
      set (g2 := fun k : Z => if k <? 0 then -1 else k / Z.of_nat m).
    - pose proof (nth_mp g1 f 0 t Hf ltac:(auto)) as X1. pose proof (nth_mp g2 f 0 t Hf ltac:(auto)) as X2.
      rewrite Nat.mul_0_l, Nat.add_0_r in X1, X2. rewrite X1, X2. auto.
    - pose proof (nth_mp g1 f 1 t Hf ltac:(auto)) as X1. pose proof (nth_mp g2 f 1 t Hf ltac:(auto)) as X2.
      rewrite Nat.mul_1_l in X1, X2. rewrite X1, X2. auto.
    - pose proof (nth_mp g1 f 2 t Hf ltac:(auto)) as X1. pose proof (nth_mp g2 f 2 t Hf ltac:(auto)) as X2.
      rewrite X1, X2. auto.
  Qed.

  Hypothesis OM : oriented_manifold F.

  Lemma tta_ok : exists TT TTi, triangle_triangle_adjacency F = Some (TT, TTi)
    /\ length TT = length F /\ length TTi = length F
    /\ forall f i t r ri, nth_error F f = Some t -> (i < 3)%nat ->
        nth_error TT f = Some r -> nth_error TTi f = Some ri ->
        (row3 r i = -1 /\ row3 ri i = -1 /\ ~ In (snd (side_opp t i), fst (side_opp t i)) (all_sides F))
        \/ exists g j s rg rgi, row3 r i = Z.of_nat g /\ row3 ri i = Z.of_nat j /\ (j < 3)%nat
             /\ nth_error F g = Some s /\ side_opp s j = (snd (side_opp t i), fst (side_opp t i))
             /\ nth_error TT g = Some rg /\ nth_error TTi g = Some rgi
             /\ row3 rg j = Z.of_nat f /\ row3 rgi j = Z.of_nat i.
  Proof.
    destruct tta_value as (TT & TTi & Q & L1 & L2 & V). exists TT, TTi. split; auto. split; auto. split; auto.
    assert (COR : forall g j s h, nth_error F g = Some s -> (j < 3)%nat -> h = flip (side_opp s j) ->
       corr (map flip flat) h = Z.of_nat (g + j * m)).
    { intros g j s h Hg Lj ->. unfold corr. rewrite first_index_flip, flip_flip, map_length.
      assert (Lg : (g < length F)%nat) by (apply nth_error_Some; congruence).
      assert (N : nth_error flat (g + j * m) = Some (side_opp s j)) by (unfold flat, m; rewrite flatF_nth, Hg; auto).
      rewrite (first_index_NoDup _ _ _ (flatF_NoDup F OM) N).
      assert (g + j * m < length flat)%nat by (apply nth_error_Some; congruence).
      destruct (Nat.ltb_spec (g + j * m) (length flat)); auto; lia. }
    intros f i t r ri Hf Li Hr Hri. destruct (V f i t Hf Li) as (r' & ri' & Hr' & Hri' & A & B).
    rewrite Hr in Hr'. injection Hr' as <-. rewrite Hri in Hri'. injection Hri' as <-.
    destruct (in_dec (fun x y => match eqb_spec x y with ReflectT _ p => left p | ReflectF _ n => right n end) (flip (side_opp t i)) flat) as [I|I].
    - right. apply In_nth_error in I as [p Hp]. apply flatF_nth_inv in Hp as (g & j & s & Lg & Lj & -> & Hg & S).
      assert (Lf : (f < length F)%nat) by (apply nth_error_Some; congruence).
      rewrite (COR g j s) in A, B by (auto; rewrite S, flip_flip; auto).
      destruct (Z.ltb_spec (Z.of_nat (g + j * m)) 0); [lia|].
      pose proof (unflat_flat (length F) g j Lg) as U. unfold unflat in U. fold m in U. injection U as U1 U2.
      rewrite U1 in A. rewrite U2 in B.
      destruct (V g j s Hg Lj) as (rg & rgi & Hrg & Hrgi & A' & B').
      rewrite (COR f i t) in A', B' by (auto; rewrite S; auto).
      destruct (Z.ltb_spec (Z.of_nat (f + i * m)) 0); [lia|].
      pose proof (unflat_flat (length F) f i Lf) as U. unfold unflat in U. fold m in U. injection U as U3 U4.
      rewrite U3 in A'. rewrite U4 in B'.
      exists g, j, s, rg, rgi. repeat split; auto.
    - left. assert (C : corr (map flip flat) (side_opp t i) = -1).
      { apply corr_spec. rewrite in_map_flip. auto. }
      rewrite C in A, B. cbn in A, B. repeat split; auto.
      intros J. apply I. eapply Permutation_in; [symmetry; apply flatF_perm | exact J].
  Qed.
End TTA.
