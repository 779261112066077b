From Verif Require Import NumpyModel NumpyProofs TopoModel TopoSpec.
From Coq Require Import Permutation Sorted.
Open Scope Z_scope.

(** ** Generic theory of [uniq_rows] *)
Section UniqP.
  Context {H : Type} `{Ord H}.
  Variable canon : H -> H.
  Hypothesis canon_idem : forall x, canon (canon x) = canon x.
  Local Notation mult flat x := (count (canon x) (map canon flat)).

  Lemma len_filter_split (p : nat -> bool) (q : nat -> bool) (c : H -> nat) l :
    (forall x, In x l -> p (c x) = negb (q (c x))) ->
    (length (filter (fun x => p (c x)) l) + length (filter (fun x => q (c x)) l) = length l)%nat.
  Proof.
    induction l as [|x l IH]; cbn; auto. intros Q.
    rewrite (Q x) by auto. destruct (q (c x)); cbn; rewrite <- IH; auto; lia.
  Qed.

  Definition ucount flat u := count u (map canon flat).

  Lemma bdry_struct (p : nat -> bool) flat :
    exists r, gather flat (mask (np_unique_index (map canon flat)) (map p (np_unique_counts (map canon flat)))) = Some r
      /\ map canon r = filter (fun u => p (ucount flat u)) (np_unique (map canon flat))
      /\ (forall x, In x r -> In x flat).
  Proof.
    unfold np_unique_index, np_unique_counts. rewrite map_map, mask_map.
    apply gather_map_first. intros u Hu. apply filter_In in Hu as [Hu _]. apply (proj1 (In_np_unique _ _)) in Hu. auto.
  Qed.

  Lemma interior_struct (p : nat -> bool) flat :
    mask (np_unique (map canon flat)) (map p (np_unique_counts (map canon flat)))
    = filter (fun u => p (ucount flat u)) (np_unique (map canon flat)).
  Proof. unfold np_unique_counts. rewrite map_map, mask_filter. auto. Qed.

  Lemma filter_canon_id (p : H -> bool) flat :
    map canon (filter p (np_unique (map canon flat))) = filter p (np_unique (map canon flat)).
  Proof.
    rewrite <- (map_id (filter _ _)) at 2. apply map_ext_in. intros u Hu.
    apply filter_In in Hu as [Hu _]. apply (proj1 (In_np_unique _ _)), in_map_iff in Hu as (x & <- & _). auto.
  Qed.

  Lemma count_pos_unique flat u : In u (np_unique (map canon flat)) -> (1 <= ucount flat u)%nat.
  Proof. intros Hu. apply (proj1 (In_np_unique _ _)), count_pos in Hu. unfold ucount. lia. Qed.

  (** characterisation: E splits in a boundary part and an interior part *)
  Lemma uniq_rows_total flat :
    exists b, uniq_rows canon flat =
      Some (b ++ filter (fun u => Nat.ltb 1 (ucount flat u)) (np_unique (map canon flat)),
            seq 0 (length b),
            np_where (map (fun c => Nat.ltb 1 c) (np_unique_counts (map canon flat))),
            np_where (map (fun c => Nat.ltb 2 c) (np_unique_counts (map canon flat))))
      /\ map canon b = filter (fun u => Nat.eqb (ucount flat u) 1) (np_unique (map canon flat))
      /\ (forall x, In x b -> In x flat).
  Proof.
    destruct (bdry_struct (fun c => Nat.eqb c 1) flat) as (b & Hb & Mb & Ib).
    exists b. unfold uniq_rows. rewrite Hb, interior_struct.
    assert (L : length (b ++ filter (fun u => Nat.ltb 1 (ucount flat u)) (np_unique (map canon flat)))
                = length (np_unique (map canon flat))).
    { rewrite app_length, <- (map_length canon b), Mb.
      apply (len_filter_split (fun c => Nat.eqb c 1) (fun c => Nat.ltb 1 c) (ucount flat)).
      intros u Hu. apply count_pos_unique in Hu.
      destruct (Nat.eqb_spec (ucount flat u) 1), (Nat.ltb_spec 1 (ucount flat u)); cbn; auto; lia. }
    rewrite L, Nat.eqb_refl. auto.
  Qed.

  Section Split.
    Variables (flat b i : list H).
    Hypothesis Mb : map canon b = filter (fun u => Nat.eqb (ucount flat u) 1) (np_unique (map canon flat)).
    Hypothesis Mi : map canon i = filter (fun u => Nat.ltb 1 (ucount flat u)) (np_unique (map canon flat)).

    Lemma split_In e : In (canon e) (map canon (b ++ i)) <-> (0 < mult flat e)%nat.
    Proof.
      rewrite map_app, in_app_iff, Mb, Mi, !filter_In, In_np_unique, <- count_pos.
      split; [tauto|]. intros I.
      assert (P := proj1 (count_pos _ _) I). unfold ucount.
      destruct (Nat.eqb_spec (count (canon e) (map canon flat)) 1), (Nat.ltb_spec 1 (count (canon e) (map canon flat))); auto; lia.
    Qed.

    Lemma split_NoDup : NoDup (map canon (b ++ i)).
    Proof.
      rewrite map_app, Mb, Mi.
      assert (N := np_unique_NoDup (map canon flat)). revert N.
      generalize (np_unique (map canon flat)) as l. intros l N.
      assert (Dis : forall u, In u (filter (fun u => Nat.eqb (ucount flat u) 1) l) -> ~ In u (filter (fun u => Nat.ltb 1 (ucount flat u)) l)).
      { intros u H1 H2. apply filter_In in H1 as [_ H1]. apply filter_In in H2 as [_ H2].
        apply Nat.eqb_eq in H1. apply Nat.ltb_lt in H2. lia. }
      revert Dis. assert (N1 := NoDup_filter (fun u => Nat.eqb (ucount flat u) 1) N).
      assert (N2 := NoDup_filter (fun u => Nat.ltb 1 (ucount flat u)) N). revert N1 N2.
      generalize (filter (fun u => Nat.eqb (ucount flat u) 1) l) as l1.
      generalize (filter (fun u => Nat.ltb 1 (ucount flat u)) l) as l2.
      intros l2 l1 N1 N2 D. induction l1 as [|x l1 IH]; cbn; auto.
      inversion N1; subst. constructor.
      - rewrite in_app_iff. intros [?|?]; [contradiction|]. eapply D; [left; eauto | auto].
      - apply IH; auto. intros u Hu; apply D; right; auto.
    Qed.

    Lemma split_unique k l e f : nth_error (b ++ i) k = Some e -> nth_error (b ++ i) l = Some f ->
      canon e = canon f -> k = l.
    Proof.
      intros Hk Hl Q. apply (NoDup_nth_error (map canon (b ++ i))); [apply split_NoDup| |].
      - rewrite map_length. apply nth_error_Some. congruence.
      - rewrite !nth_error_map, Hk, Hl; cbn; congruence.
    Qed.

    Lemma split_bdry k e : nth_error (b ++ i) k = Some e -> ((k < length b)%nat <-> mult flat e = 1%nat).
    Proof.
      intros Hk. destruct (Nat.ltb_spec k (length b)) as [L|L].
      - split; auto. intros _. rewrite nth_error_app1 in Hk by auto.
        apply nth_error_In, (in_map canon) in Hk. rewrite Mb in Hk. apply filter_In in Hk as [_ Q].
        apply Nat.eqb_eq in Q; auto.
      - split; [lia|]. intros Q. rewrite nth_error_app2 in Hk by auto.
        apply nth_error_In, (in_map canon) in Hk. rewrite Mi in Hk. apply filter_In in Hk as [_ Q'].
        apply Nat.ltb_lt in Q'. unfold ucount in Q'. lia.
    Qed.
  End Split.
End UniqP.

(** ** rows *)
Lemma sort2_idem e : sort2 (sort2 e) = sort2 e.
Proof. destruct e as [a b]; cbn. destruct (Z.ltb_spec b a); cbn; [destruct (Z.ltb_spec a b)| destruct (Z.ltb_spec b a)]; auto; lia. Qed.
Lemma sort2_same e f : sort2 e = sort2 f <-> same_edge e f.
Proof.
  destruct e as [a b], f as [c d]; unfold same_edge; cbn.
  destruct (Z.ltb_spec b a), (Z.ltb_spec d c); split;
    first [intros Q; injection Q; intros; lia | intros [[? ?]|[? ?]]; f_equal; lia].
Qed.
Lemma same_edgeb_spec e f : same_edgeb e f = true <-> same_edge e f.
Proof.
  unfold same_edgeb, same_edge. rewrite orb_true_iff, !andb_true_iff, !Z.eqb_eq. tauto.
Qed.

Lemma sort3_idem t : sort3 (sort3 t) = sort3 t.
Proof.
  destruct t as [[a b] c]; cbn.
  repeat match goal with
  | |- context [?x <? ?y] => destruct (Z.ltb_spec x y); cbn; try lia
  end; auto.
Qed.
Lemma sort3_perm t : In (sort3 t) (perms3 t).
Proof.
  destruct t as [[a b] c]; cbn.
  repeat match goal with
  | |- context [?x <? ?y] => destruct (Z.ltb_spec x y); cbn; try lia
  end; tauto.
Qed.
Lemma sort3_sorted t : let '(a, b, c) := sort3 t in a <= b <= c.
Proof.
  destruct t as [[a b] c]; cbn.
  repeat match goal with
  | |- context [?x <? ?y] => destruct (Z.ltb_spec x y); cbn; try lia
  end.
Qed.
Lemma same_tri_refl t : same_tri t t.
Proof. destruct t as [[a b] c]; cbn; tauto. Qed.
Lemma same_tri_sym s t : same_tri s t -> same_tri t s.
Proof.
  destruct s as [[a b] c], t as [[a' b'] c']; unfold same_tri; cbn.
  intros [Q|[Q|[Q|[Q|[Q|[Q|[]]]]]]]; injection Q as -> -> ->; tauto.
Qed.
Lemma same_tri_trans s t u : same_tri s t -> same_tri t u -> same_tri s u.
Proof.
  destruct s as [[a b] c], t as [[a' b'] c'], u as [[a'' b''] c'']; unfold same_tri; cbn.
  intros [Q|[Q|[Q|[Q|[Q|[Q|[]]]]]]]; injection Q as -> -> ->;
  (intros [Q|[Q|[Q|[Q|[Q|[Q|[]]]]]]]; injection Q as -> -> ->; tauto).
Qed.
Lemma sorted_perm_eq s t : same_tri s t ->
  (let '(a, b, c) := s in a <= b <= c) -> (let '(a, b, c) := t in a <= b <= c) -> s = t.
Proof.
  destruct s as [[a b] c], t as [[a' b'] c']; unfold same_tri; cbn.
  intros [Q|[Q|[Q|[Q|[Q|[Q|[]]]]]]]; injection Q as -> -> ->; intros; repeat f_equal; lia.
Qed.
Lemma sort3_same s t : sort3 s = sort3 t <-> same_tri s t.
Proof.
  split; intros Q.
  - eapply same_tri_trans; [apply same_tri_sym, sort3_perm|]. rewrite Q. apply sort3_perm.
  - apply sorted_perm_eq; [|apply sort3_sorted|apply sort3_sorted].
    eapply same_tri_trans; [apply sort3_perm|]. eapply same_tri_trans; [exact Q|]. apply same_tri_sym, sort3_perm.
Qed.
Lemma tri_eqb_spec s t : tri_eqb s t = true <-> s = t.
Proof.
  destruct s as [[a b] c], t as [[a' b'] c']; cbn. rewrite !andb_true_iff, !Z.eqb_eq.
  split; [intros [[-> ->] ->] | intros Q; injection Q]; auto.
Qed.
Lemma same_trib_spec s t : same_trib s t = true <-> same_tri s t.
Proof.
  unfold same_trib, same_tri. rewrite existsb_exists. split.
  - intros (x & I & Q). apply tri_eqb_spec in Q; subst; auto.
  - intros I; exists s; split; auto. apply tri_eqb_spec; auto.
Qed.

(** ** flat half-edges *)
Definition flatF (F : list tri) : list edge := flat_he (map he_row F).
Lemma halfedges_some F : F <> [] -> halfedges F = Some (map he_row F).
Proof. destruct F; [congruence | auto]. Qed.

Lemma flatF_eq F : flatF F = map (fun t => side_opp t 0) F ++ map (fun t => side_opp t 1) F ++ map (fun t => side_opp t 2) F.
Proof.
  unfold flatF, flat_he. rewrite !map_map. apply f_equal2; [|apply f_equal2]; apply map_ext; intros [[a b] c]; auto.
Qed.
Lemma flatF_length F : length (flatF F) = (3 * length F)%nat.
Proof. rewrite flatF_eq, !app_length, !map_length. lia. Qed.

Lemma perm_flat_map_cons {A B} (f : A -> B) (g : A -> list B) l :
  Permutation (flat_map (fun t => f t :: g t) l) (map f l ++ flat_map g l).
Proof.
  induction l as [|x l IH]; cbn; auto. constructor. rewrite IH.
  apply Permutation_app_swap_app.
Qed.
Lemma flatF_perm F : Permutation (flatF F) (all_sides F).
Proof.
  rewrite flatF_eq. unfold all_sides.
  transitivity (flat_map (fun t => [side_opp t 0; side_opp t 1; side_opp t 2]) F).
  - symmetry. rewrite perm_flat_map_cons. apply Permutation_app_head.
    rewrite perm_flat_map_cons. apply Permutation_app_head.
    rewrite perm_flat_map_cons. cbn. rewrite flat_map_concat_map. 
    replace (concat (map (fun _ : Z * Z * Z => @nil (Z*Z)) F)) with (@nil (Z*Z)).
    + rewrite app_nil_r; auto.
    + induction F; cbn; auto.
  - induction F as [|[[a b] c] F IH]; cbn; auto.
    change (Permutation ([(b,c);(c,a)] ++ (a,b) :: flat_map (fun t => [side_opp t 0; side_opp t 1; side_opp t 2]) F)
       ((a, b) :: (b,c) :: (c,a) :: flat_map sides F)).
    symmetry. rewrite <- IH. apply (Permutation_middle [(b,c);(c,a)]).
Qed.

Lemma count_map_filter {K} `{Ord K} (f : K -> K) (x : K) l :
  count x (map f l) = length (filter (fun y => eqb x (f y)) l).
Proof. unfold count. induction l as [|y l IH]; cbn; auto. destruct (eqb x (f y)); cbn; auto. Qed.

Lemma perm_filter_length {K} (p : K -> bool) l l' : Permutation l l' -> length (filter p l) = length (filter p l').
Proof. induction 1; cbn; repeat match goal with |- context [p ?x] => destruct (p x); cbn end; congruence. Qed.

Lemma incidence_count F e : incidence F e = count (sort2 e) (map sort2 (flatF F)).
Proof.
  rewrite count_map_filter, (perm_filter_length _ _ _ (flatF_perm F)). unfold incidence.
  f_equal. apply filter_ext. intros f.
  destruct (same_edgeb e f) eqn:E.
  - apply same_edgeb_spec, sort2_same in E. rewrite E. symmetry. apply eqb_refl.
  - symmetry. apply eqb_neq. intros Q. apply sort2_same, same_edgeb_spec in Q. congruence.
Qed.

(** ** C02 *)
Lemma edges_struct F : F <> [] -> exists b i,
  map sort2 b = filter (fun u => Nat.eqb (ucount sort2 (flatF F) u) 1) (np_unique (map sort2 (flatF F))) /\
  i = filter (fun u => Nat.ltb 1 (ucount sort2 (flatF F) u)) (np_unique (map sort2 (flatF F))) /\
  (forall x, In x b -> In x (flatF F)) /\
  edges F = Some (b ++ i, seq 0 (length b),
      np_where (map (fun c => Nat.ltb 1 c) (np_unique_counts (map sort2 (flatF F)))),
      np_where (map (fun c => Nat.ltb 2 c) (np_unique_counts (map sort2 (flatF F))))).
Proof.
  intros NE. unfold edges. rewrite halfedges_some by auto.
  destruct (uniq_rows_total sort2 (flatF F)) as (b & Q & Mb & Ib).
  exists b. eexists. split; [exact Mb|]. split; [reflexivity|]. split; [exact Ib|]. exact Q.
Qed.

Lemma edges_complete F E bi ii nm : edges F = Some (E, bi, ii, nm) ->
  (forall e, (exists e', In e' E /\ same_edge e e') <-> (0 < incidence F e)%nat)
  /\ (forall k l e f, nth_error E k = Some e -> nth_error E l = Some f -> same_edge e f -> k = l)
  /\ (forall k e, nth_error E k = Some e -> (In k bi <-> incidence F e = 1%nat))
  /\ NoDup bi
  /\ (forall k, In k bi -> exists e, nth_error E k = Some e /\ In e (all_sides F)).
Proof.
  intros Q. assert (NE : F <> []) by (intros ->; discriminate).
  destruct (edges_struct F NE) as (b & i & Mb & Mi & Ib & Q'). rewrite Q' in Q. injection Q as <- <- <- <-.
  assert (Mi' : map sort2 i = filter (fun u => Nat.ltb 1 (ucount sort2 (flatF F) u)) (np_unique (map sort2 (flatF F)))).
  { subst i. apply filter_canon_id. apply sort2_idem. }
  split; [|split; [|split; [|split]]].
  - intros e. rewrite incidence_count, <- (split_In sort2 (flatF F) b i Mb Mi' e), in_map_iff.
    split; intros (e' & A & B).
    + exists e'. split; auto. apply sort2_same in B; auto.
    + exists e'. split; auto. apply sort2_same; auto.
  - intros k l e f Hk Hl S. apply sort2_same in S.
    eapply (split_unique sort2 (flatF F) b i Mb Mi'); eauto.
  - intros k e Hk. rewrite incidence_count, <- (split_bdry sort2 (flatF F) b i Mb Mi' k e Hk), in_seq. lia.
  - apply seq_NoDup.
  - intros k Hk. apply in_seq in Hk as [_ Hk]. cbn in Hk.
    destruct (nth_error b k) as [e|] eqn:E; [|apply nth_error_None in E; lia].
    exists e. rewrite nth_error_app1 by auto. split; auto.
    eapply Permutation_in; [apply flatF_perm|]. apply Ib. eapply nth_error_In; eauto.
Qed.

Lemma edges_none F : edges F = None <-> F = [].
Proof.
  split; [|intros ->; auto]. intros Q. destruct F as [|t F]; auto.
  destruct (edges_struct (t :: F)) as (b & i & _ & _ & _ & Q'); [discriminate | congruence].
Qed.

(** ** C03 *)
Lemma nth_error_counts F k e : nth_error (np_unique (map sort2 (flatF F))) k = Some e ->
  nth_error (np_unique_counts (map sort2 (flatF F))) k = Some (incidence F e).
Proof.
  intros Q. unfold np_unique_counts. rewrite nth_error_map, Q. cbn. rewrite incidence_count.
  pose proof (nth_error_In _ _ Q) as I. apply (proj1 (In_np_unique _ _)), in_map_iff in I as (x & <- & _).
  rewrite sort2_idem; auto.
Qed.

Lemma filter_all {A} (p : A -> bool) l : (forall x, In x l -> p x = true) -> filter p l = l.
Proof. induction l as [|x l IH]; cbn; auto. intros Q. rewrite (Q x), IH; auto. Qed.
Lemma filter_none {A} (p : A -> bool) l : (forall x, In x l -> p x = false) -> filter p l = [].
Proof. induction l as [|x l IH]; cbn; auto. intros Q. rewrite (Q x), IH; auto. Qed.

Lemma edges_indices_closed F E bi ii nm : edges F = Some (E, bi, ii, nm) ->
  (forall e, incidence F e <> 1%nat) ->
  forall k e, nth_error E k = Some e ->
    (In k ii <-> (1 < incidence F e)%nat) /\ (In k nm <-> (2 < incidence F e)%nat).
Proof.
  intros Q NB k e Hk. assert (NE : F <> []) by (intros ->; discriminate).
  destruct (edges_struct F NE) as (b & i & Mb & Mi & Ib & Q'). rewrite Q' in Q. injection Q as <- <- <- <-.
  assert (U : forall u, In u (np_unique (map sort2 (flatF F))) -> ucount sort2 (flatF F) u = incidence F u).
  { intros u Hu. rewrite incidence_count. unfold ucount. apply (proj1 (In_np_unique _ _)), in_map_iff in Hu as (x & <- & _).
    rewrite sort2_idem; auto. }
  rewrite filter_none in Mb.
  2: { intros u Hu. rewrite U by auto. apply Nat.eqb_neq. auto. }
  assert (b = []) by (destruct b; [auto | discriminate]). subst b.
  assert (i = np_unique (map sort2 (flatF F))).
  { subst i. apply filter_all. intros u Hu. rewrite U by auto. apply Nat.ltb_lt.
    specialize (NB u). assert (P := count_pos_unique sort2 (flatF F) u Hu). rewrite U in P by auto. lia. }
  cbn [app] in Hk. rewrite H in Hk. apply nth_error_counts in Hk.
  rewrite !In_np_where, !nth_error_map, Hk; cbn [option_map].
  split; (split; [intros Q; injection Q; intros; apply Nat.ltb_lt; auto | intros; f_equal; apply Nat.ltb_lt; auto]).
Qed.

(** ** C04 *)
Definition flatT (T : list tet) : list tri := flat_hf (map hf_row T).
Lemma halffaces_some T : T <> [] -> halffaces T = Some (map hf_row T).
Proof. destruct T; [congruence | auto]. Qed.

Definition hf_list (t : tet) : list tri :=
  let '(f0, f1, f2, f3) := hf_row t in [f0; f1; f2; f3].
Lemma flatT_perm_hf T : Permutation (flatT T) (flat_map hf_list T).
Proof.
  unfold flatT, flat_hf. rewrite !map_map.
  transitivity (flat_map (fun t => [fst (fst (fst (hf_row t))); snd (fst (fst (hf_row t))); snd (fst (hf_row t)); snd (hf_row t)]) T).
  - symmetry. rewrite perm_flat_map_cons. apply Permutation_app_head.
    rewrite perm_flat_map_cons. apply Permutation_app_head.
    rewrite perm_flat_map_cons. apply Permutation_app_head.
    rewrite perm_flat_map_cons. rewrite flat_map_concat_map.
    replace (concat (map (fun _ : tet => @nil tri) T)) with (@nil tri); [rewrite app_nil_r; auto|].
    induction T; cbn; auto.
  - induction T as [|[[[a b] c] d] T IH]; cbn; auto.
Qed.
Lemma sort3_hf_list t : map sort3 (hf_list t) = map sort3 (facets t).
Proof.
  destruct t as [[[a b] c] d]. cbn [hf_list hf_row facets map].
  assert (X : forall s t, same_tri s t -> sort3 s = sort3 t) by (intros; apply sort3_same; auto).
  rewrite (X (d,c,a) (a,c,d)) by (cbn; tauto). rewrite (X (d,a,b) (a,b,d)) by (cbn; tauto).
  rewrite (X (b,a,c) (a,b,c)) by (cbn; tauto). auto.
Qed.
Lemma map_flat_map {A B C} (f : B -> C) (g : A -> list B) l : map f (flat_map g l) = flat_map (fun x => map f (g x)) l.
Proof. induction l as [|x l IH]; cbn; auto. rewrite map_app, IH; auto. Qed.

Lemma count_perm {K} `{Ord K} (x : K) l l' : Permutation l l' -> count x l = count x l'.
Proof. apply perm_filter_length. Qed.

Lemma facet_incidence_count T f : facet_incidence T f = count (sort3 f) (map sort3 (flatT T)).
Proof.
  rewrite (count_perm _ _ _ (Permutation_map sort3 (flatT_perm_hf T))).
  rewrite map_flat_map, (flat_map_ext _ _ sort3_hf_list), <- map_flat_map.
  rewrite count_map_filter. unfold facet_incidence. fold (all_facets T).
  f_equal. apply filter_ext. intros g.
  destruct (same_trib f g) eqn:E.
  - apply same_trib_spec, sort3_same in E. rewrite E. symmetry. apply eqb_refl.
  - symmetry. apply eqb_neq. intros Q. apply sort3_same, same_trib_spec in Q. congruence.
Qed.

Lemma faces_struct T : T <> [] -> exists b i,
  map sort3 b = filter (fun u => Nat.eqb (ucount sort3 (flatT T) u) 1) (np_unique (map sort3 (flatT T))) /\
  i = filter (fun u => Nat.ltb 1 (ucount sort3 (flatT T) u)) (np_unique (map sort3 (flatT T))) /\
  (forall x, In x b -> In x (flatT T)) /\
  faces T = Some (b ++ i, seq 0 (length b),
      np_where (map (fun c => Nat.ltb 1 c) (np_unique_counts (map sort3 (flatT T)))),
      np_where (map (fun c => Nat.ltb 2 c) (np_unique_counts (map sort3 (flatT T))))).
Proof.
  intros NE. unfold faces. rewrite halffaces_some by auto.
  destruct (uniq_rows_total sort3 (flatT T)) as (b & Q & Mb & Ib).
  exists b. eexists. split; [exact Mb|]. split; [reflexivity|]. split; [exact Ib|]. exact Q.
Qed.

Lemma hf_list_rot t f : In f (hf_list t) -> exists g, In g (bdry_facets t) /\ rot_eq f g.
Proof.
  destruct t as [[[a b] c] d]. cbn. intros [<-|[<-|[<-|[<-|[]]]]].
  - exists (b,c,d). cbn; auto.
  - exists (c,a,d). cbn; auto 6.
  - exists (a,b,d). cbn; auto 6.
  - exists (b,a,c). cbn; auto 6.
Qed.

Lemma faces_complete T F bi ii nm : faces T = Some (F, bi, ii, nm) ->
  (forall f, (exists f', In f' F /\ same_tri f f') <-> (0 < facet_incidence T f)%nat)
  /\ (forall k l e f, nth_error F k = Some e -> nth_error F l = Some f -> same_tri e f -> k = l)
  /\ (forall k f, nth_error F k = Some f -> (In k bi <-> facet_incidence T f = 1%nat))
  /\ NoDup bi
  /\ (forall k, In k bi -> exists f t g, nth_error F k = Some f /\ In t T /\ In g (bdry_facets t) /\ rot_eq f g).
Proof.
  intros Q. assert (NE : T <> []) by (intros ->; discriminate).
  destruct (faces_struct T NE) as (b & i & Mb & Mi & Ib & Q'). rewrite Q' in Q. injection Q as <- <- <- <-.
  assert (Mi' : map sort3 i = filter (fun u => Nat.ltb 1 (ucount sort3 (flatT T) u)) (np_unique (map sort3 (flatT T)))).
  { subst i. apply filter_canon_id. apply sort3_idem. }
  split; [|split; [|split; [|split]]].
  - intros e. rewrite facet_incidence_count, <- (split_In sort3 (flatT T) b i Mb Mi' e), in_map_iff.
    split; intros (e' & A & B).
    + exists e'. split; auto. apply sort3_same, same_tri_sym; auto.
    + exists e'. split; auto. apply same_tri_sym, sort3_same; auto.
  - intros k l e f Hk Hl S. apply sort3_same in S.
    eapply (split_unique sort3 (flatT T) b i Mb Mi'); eauto.
  - intros k e Hk. rewrite facet_incidence_count, <- (split_bdry sort3 (flatT T) b i Mb Mi' k e Hk), in_seq. lia.
  - apply seq_NoDup.
  - intros k Hk. apply in_seq in Hk as [_ Hk]. cbn in Hk.
    destruct (nth_error b k) as [e|] eqn:E; [|apply nth_error_None in E; lia].
    pose proof (nth_error_In _ _ E) as I. apply Ib in I.
    apply (Permutation_in _ (flatT_perm_hf T)), in_flat_map in I as (t & It & If).
    destruct (hf_list_rot _ _ If) as (g & Ig & Rg).
    exists e, t, g. rewrite nth_error_app1 by auto. auto.
Qed.
Lemma faces_none T : faces T = None <-> T = [].
Proof.
  split; [|intros ->; auto]. intros Q. destruct T as [|t T]; auto.
  destruct (faces_struct (t :: T)) as (b & i & _ & _ & _ & Q'); [discriminate | congruence].
Qed.

(** ** C05 *)
Lemma gather_seq {A} (l1 l2 : list A) : gather (l1 ++ l2) (seq 0 (length l1)) = Some l1.
Proof.
  apply gather_spec. rewrite seq_length. split; auto. intros k i Q.
  assert (k < length l1)%nat by (rewrite <- (seq_length (length l1) 0); apply nth_error_Some; congruence).
  rewrite nth_error_nth' with (d := 0%nat) in Q by (rewrite seq_length; auto).
  rewrite seq_nth in Q by auto. injection Q as <-. cbn.
  rewrite nth_error_app1 by auto. destruct (nth_error l1 k) eqn:E; eauto.
  apply nth_error_None in E; lia.
Qed.

Lemma boundary_edges_ok F : F <> [] -> exists B, boundary_edges F = Some B
  /\ (forall e, In e B <-> In e (all_sides F) /\ incidence F e = 1%nat)
  /\ (forall k l e f, nth_error B k = Some e -> nth_error B l = Some f -> same_edge e f -> k = l).
Proof.
  intros NE. destruct (edges_struct F NE) as (b & i & Mb & Mi & Ib & Q).
  exists b. unfold boundary_edges. rewrite Q. split; [apply gather_seq|].
  pose proof (edges_complete _ _ _ _ _ Q) as (C1 & C2 & C3 & _ & _).
  split.
  - intros e. split.
    + intros I. split.
      * eapply Permutation_in; [apply flatF_perm|]. auto.
      * apply In_nth_error in I as [k Hk]. assert (L : (k < length b)%nat) by (apply nth_error_Some; congruence).
        apply (C3 k e); [rewrite nth_error_app1; auto|]. apply in_seq; lia.
    + intros [I N].
      destruct (proj2 (C1 e)) as (e' & I' & S); [lia|].
      apply In_nth_error in I' as [k Hk].
      assert (N' : incidence F e' = 1%nat).
      { rewrite incidence_count in *. apply sort2_same in S. rewrite <- S; auto. }
      apply (C3 k e' Hk) in N'. apply in_seq in N'. rewrite nth_error_app1 in Hk by lia.
      apply nth_error_In in Hk. assert (I2 := Ib _ Hk).
      assert (I1 : In e (flatF F)) by (eapply Permutation_in; [symmetry; apply flatF_perm | auto]).
      rewrite incidence_count in N.
      apply In_nth_error in I1 as [x Hx]. apply In_nth_error in I2 as [y Hy].
      assert (x = y).
      { apply (count_one (sort2 e) (map sort2 (flatF F))); auto; rewrite nth_error_map, ?Hx, ?Hy; cbn; auto.
        f_equal. symmetry. apply sort2_same; auto. }
      congruence.
  - intros k l e f Hk Hl. apply C2; rewrite nth_error_app1; auto; apply nth_error_Some; congruence.
Qed.

Lemma boundary_vertices_ok F : F <> [] -> exists L, boundary_vertices F = Some L
  /\ StronglySorted Z.lt L
  /\ (forall v, In v L <-> exists e, In e (all_sides F) /\ incidence F e = 1%nat /\ (v = fst e \/ v = snd e)).
Proof.
  intros NE. destruct (boundary_edges_ok F NE) as (B & Q & C & _).
  unfold boundary_vertices. rewrite Q. eexists; split; [reflexivity|]. split.
  - generalize (np_unique_sorted (flat_map (fun e => [fst e; snd e]) B)).
    generalize (np_unique (flat_map (fun e => [fst e; snd e]) B)) as l. induction 1; constructor; auto.
  - intros v. rewrite In_np_unique, in_flat_map. split.
    + intros (e & I & J). apply C in I as [I N]. exists e. cbn in J. intuition.
    + intros (e & I & N & V). exists e. rewrite C. cbn. intuition.
Qed.

Lemma boundary_faces_ok T : T <> [] -> exists B, boundary_faces T = Some B
  /\ (forall f, (exists f', In f' B /\ same_tri f f') <-> facet_incidence T f = 1%nat)
  /\ (forall f, In f B -> exists t g, In t T /\ In g (bdry_facets t) /\ rot_eq f g)
  /\ (forall k l e f, nth_error B k = Some e -> nth_error B l = Some f -> same_tri e f -> k = l).
Proof.
  intros NE. destruct (faces_struct T NE) as (b & i & Mb & Mi & Ib & Q).
  exists b. unfold boundary_faces. rewrite Q. split; [apply gather_seq|].
  pose proof (faces_complete _ _ _ _ _ Q) as (C1 & C2 & C3 & _ & C5).
  split; [|split].
  - intros f. split.
    + intros (f' & I & S). apply In_nth_error in I as [k Hk]. assert (L : (k < length b)%nat) by (apply nth_error_Some; congruence).
      assert (N' : facet_incidence T f' = 1%nat).
      { apply (C3 k f'); [rewrite nth_error_app1; auto|]. apply in_seq; lia. }
      rewrite facet_incidence_count in *. apply sort3_same in S. rewrite S; auto.
    + intros N. destruct (proj2 (C1 f)) as (e' & I' & S); [lia|].
      apply In_nth_error in I' as [k Hk].
      assert (N' : facet_incidence T e' = 1%nat).
      { rewrite facet_incidence_count in *. apply sort3_same in S. rewrite <- S; auto. }
      apply (C3 k e' Hk) in N'. apply in_seq in N'. rewrite nth_error_app1 in Hk by lia.
      apply nth_error_In in Hk. eauto.
  - intros f I. apply In_nth_error in I as [k Hk]. assert (L : (k < length b)%nat) by (apply nth_error_Some; congruence).
    destruct (C5 k) as (f' & t & g & A & B); [apply in_seq; lia|].
    rewrite nth_error_app1 in A by auto. rewrite Hk in A. injection A as <-. eauto.
  - intros k l e f Hk Hl. apply C2; rewrite nth_error_app1; auto; apply nth_error_Some; congruence.
Qed.

(** ** C06 *)
Lemma non_manifold_edges_ok F : F <> [] -> exists L, non_manifold_edges F = Some L
  /\ StronglySorted (fun x y => fst x < fst y \/ fst x = fst y /\ snd x < snd y) L
  /\ (forall a b, In (a, b) L <-> a <= b /\ (2 < incidence F (a, b))%nat).
Proof.
  intros NE. unfold non_manifold_edges. rewrite halfedges_some by auto.
  eexists; split; [reflexivity|].
  set (fl := flat_map (fun r => [fst (fst r); snd (fst r); snd r]) (map he_row F)).
  assert (P : Permutation fl (flatF F)).
  { subst fl. unfold flatF, flat_he. rewrite perm_flat_map_cons. apply Permutation_app_head.
    rewrite perm_flat_map_cons. apply Permutation_app_head.
    rewrite perm_flat_map_cons. rewrite flat_map_concat_map.
    replace (concat (map (fun _ : edge * edge * edge => @nil edge) (map he_row F))) with (@nil edge); [rewrite app_nil_r; auto|].
    induction (map he_row F); cbn; auto. }
  rewrite (interior_struct sort2 (fun c => Nat.ltb 2 c) fl). split.
  - generalize (np_unique_sorted (map sort2 fl)). generalize (np_unique (map sort2 fl)) as l.
    induction 1 as [|x l S IH Fa]; cbn [filter]; [constructor|].
    destruct (2 <? ucount sort2 fl x)%nat; auto. constructor; auto.
    rewrite Forall_forall in *. intros y Hy. apply filter_In in Hy as [Hy _].
    specialize (Fa y Hy). destruct x, y. revert Fa. unfold Lto; cbn. unfold lex; cbn.
    destruct (Z.compare_spec z z1); [|lia|discriminate]. rewrite Z.compare_lt_iff. lia.
  - intros a b. rewrite filter_In, In_np_unique, Nat.ltb_lt.
    assert (U : sort2 (a,b) = (a,b) -> ucount sort2 fl (a,b) = incidence F (a,b)).
    { intros S. unfold ucount. rewrite incidence_count, S. apply count_perm, Permutation_map; auto. }
    split.
    + intros [I N]. apply in_map_iff in I as ([x y] & S & I).
      assert (S' : sort2 (a,b) = (a,b)) by (rewrite <- S; apply sort2_idem).
      rewrite U in N by auto. split; auto.
      cbn in S'. destruct (Z.ltb_spec b a); [injection S'; lia | auto].
    + intros [L N].
      assert (S' : sort2 (a,b) = (a,b)) by (cbn; destruct (Z.ltb_spec b a); [lia | auto]).
      rewrite U by auto. split; auto.
      apply (count_pos (a,b)). fold (ucount sort2 fl (a,b)). rewrite U by auto. lia.
Qed.
