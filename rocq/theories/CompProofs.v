From Verif Require Import NumpyModel NumpyProofs PyExn TopoModel TopoSpec TopoProofs TopoLemmas CompModel CompSpec.
From Coq Require Import Relations.
Open Scope Z_scope.

Lemma max_of_ge l x : In x l -> x <= max_of l.
Proof.
  destruct l as [|y r]; [intros []|]. cbn. assert (G : forall r y, y <= fold_left Z.max r y /\ forall z, In z r -> z <= fold_left Z.max r y).
  { clear. induction r as [|z r IH]; intros y; cbn; [split; [lia|intros ? []]|]. destruct (IH (Z.max y z)) as [A B]. split; [lia|].
    intros w [->|I]; [lia|]. auto. }
  destruct (G r y) as [G1 G2]. intros [->|I]; auto.
Qed.
Lemma max_of_in l : l <> [] -> In (max_of l) l.
Proof.
  destruct l as [|y r]; [congruence|]. intros _. cbn. assert (G : forall r y, y = fold_left Z.max r y \/ In (fold_left Z.max r y) r).
  { clear. induction r as [|z r IH]; intros y; cbn; [auto|]. destruct (IH (Z.max y z)) as [A|A]; [|auto].
    rewrite <- A. destruct (Z.max_spec y z) as [[_ ->]|[_ ->]]; auto. }
  destruct (G r y) as [<-|]; auto.
Qed.

Definition sym_pairs (E : list edge) := combine (map fst E ++ map snd E) (map snd E ++ map fst E).
Lemma combine_app_eq {A B} (a a' : list A) (b b' : list B) : length a = length b ->
  combine (a ++ a') (b ++ b') = combine a b ++ combine a' b'.
Proof. revert b; induction a as [|x a IH]; intros [|y b] L; cbn in *; try discriminate; auto. rewrite IH; auto. Qed.
Lemma combine_fst_snd (E : list edge) : combine (map fst E) (map snd E) = E /\ combine (map snd E) (map fst E) = map (fun e => (snd e, fst e)) E.
Proof. induction E as [|[a b] E [IH1 IH2]]; cbn; [auto|]. rewrite IH1, IH2; auto. Qed.
Lemma sym_pairs_eq E : sym_pairs E = E ++ map (fun e => (snd e, fst e)) E.
Proof. unfold sym_pairs. rewrite combine_app_eq by (rewrite !map_length; auto). destruct (combine_fst_snd E) as [-> ->]. auto. Qed.

Lemma aentry_pos n l i j : aentry (n, l) i j <> 0 <-> In (i, j) l.
Proof.
  unfold aentry; cbn [snd]. split.
  - intros Q. destruct (filter _ l) as [|[a b] r] eqn:E; [cbn in Q; lia|].
    assert (I : In (a, b) (filter (fun p => (fst p =? i) && (snd p =? j)) l)) by (rewrite E; left; auto).
    apply filter_In in I as [I T]. cbn in T. apply andb_true_iff in T as [T1 T2]. apply Z.eqb_eq in T1, T2. congruence.
  - intros I. assert (J : In (i, j) (filter (fun p => (fst p =? i) && (snd p =? j)) l)).
    { apply filter_In. split; auto. cbn. rewrite !Z.eqb_refl. auto. }
    destruct (filter _ l); [destruct J|cbn; lia].
Qed.
Lemma aentry_sym E n i j : aentry (n, sym_pairs E) i j = aentry (n, sym_pairs E) j i.
Proof.
  rewrite sym_pairs_eq. unfold aentry; cbn [snd]. rewrite !filter_app, !app_length. f_equal. rewrite Nat.add_comm. f_equal;
  induction E as [|[a b] E IH]; cbn; auto; rewrite (andb_comm (b =? i)) || rewrite (andb_comm (a =? i)); destruct (_ && _); cbn; auto.
Qed.

Lemma adjacency_of_edges_ok E : E <> [] -> (forall e, In e E -> 0 <= fst e /\ 0 <= snd e) ->
  let n := max_of (map fst E ++ map snd E) + 1 in
  adjacency_of_edges E = Ok (n, sym_pairs E)
  /\ (forall p, In p (sym_pairs E) -> 0 <= fst p < n /\ 0 <= snd p < n)
  /\ (exists e, In e E /\ (fst e = n - 1 \/ snd e = n - 1)).
Proof.
  intros NE P n.
  assert (B : forall p, In p (sym_pairs E) -> 0 <= fst p < n /\ 0 <= snd p < n).
  { intros p I. rewrite sym_pairs_eq in I. apply in_app_iff in I.
    assert (H : forall e, In e E -> 0 <= fst e < n /\ 0 <= snd e < n).
    { intros e Ie. pose proof (P e Ie). pose proof (max_of_ge (map fst E ++ map snd E) (fst e)). pose proof (max_of_ge (map fst E ++ map snd E) (snd e)).
      rewrite in_app_iff in *. pose proof (in_map fst _ _ Ie). pose proof (in_map snd _ _ Ie). unfold n. intuition lia. }
    destruct I as [I|I]; [auto|]. apply in_map_iff in I as (e & <- & I). cbn. apply H in I. tauto. }
  split; [|split; auto].
  - unfold adjacency_of_edges, acsr. fold n. fold (sym_pairs E).
    assert (forallb (fun p => (0 <=? fst p) && (fst p <? n) && (0 <=? snd p) && (snd p <? n)) (sym_pairs E) = true) as ->; auto.
    apply forallb_forall. intros p I. apply B in I. rewrite !andb_true_iff, !Z.leb_le, !Z.ltb_lt. lia.
  - assert (I : In (max_of (map fst E ++ map snd E)) (map fst E ++ map snd E)) by (apply max_of_in; destruct E; cbn; congruence).
    unfold n. apply in_app_iff in I as [I|I]; apply in_map_iff in I as (e & Q & I); exists e; split; auto; lia.
Qed.

Lemma edges_sides F E bi ii nm : edges F = Some (E, bi, ii, nm) ->
  forall u v, (In (u,v) E \/ In (v,u) E) <-> edge_of F u v.
Proof.
  intros Q u v. destruct (edges_complete F E bi ii nm Q) as (H & _). specialize (H (u, v)).
  assert (INC : (0 < incidence F (u,v))%nat <-> edge_of F u v).
  { unfold incidence, edge_of. split.
    - intros L. destruct (filter _ _) as [|[a b] r] eqn:E0; [cbn in L; lia|].
      assert (I : In (a,b) (filter (same_edgeb (u,v)) (all_sides F))) by (rewrite E0; left; auto).
      apply filter_In in I as [I T]. unfold same_edgeb in T; cbn in T. apply orb_true_iff in T.
      rewrite !andb_true_iff, !Z.eqb_eq in T. destruct T as [[-> ->]|[-> ->]]; auto.
    - intros I. assert (exists p, In p (filter (same_edgeb (u,v)) (all_sides F))) as [p Ip].
      { destruct I as [I|I]; [exists (u,v)|exists (v,u)]; apply filter_In; split; auto; unfold same_edgeb; cbn; rewrite !Z.eqb_refl; auto. cbn. apply orb_true_r. }
      destruct (filter _ _); [destruct Ip|cbn; lia]. }
  rewrite <- INC, <- H. split.
  - intros [I|I]; [exists (u,v)|exists (v,u)]; split; auto; unfold same_edge; cbn; auto.
  - intros ([a b] & I & [[A B]|[A B]]); cbn in *; subst; auto.
Qed.

Definition nonneg_faces (F : list tri) := forall t, In t F -> 0 <= fst (fst t) /\ 0 <= snd (fst t) /\ 0 <= snd t.
Lemma sides_of t F : In t F -> let '(a,b,c) := t in In (a,b) (all_sides F) /\ In (b,c) (all_sides F) /\ In (c,a) (all_sides F).
Proof. destruct t as [[a b] c]. intros I. unfold all_sides. rewrite !in_flat_map. repeat split; exists (a,b,c); cbn; auto. Qed.
Lemma sides_inv F u v : In (u,v) (all_sides F) -> exists t, In t F /\ In (u,v) (sides t).
Proof. unfold all_sides. rewrite in_flat_map. auto. Qed.

Lemma adjacency3_ok F : F <> [] -> nonneg_faces F -> exists n l,
  adjacency_matrix3 F = Ok (n, l)
  /\ (forall p, In p l -> 0 <= fst p < n /\ 0 <= snd p < n)
  /\ (forall i j, aentry (n,l) i j = aentry (n,l) j i)
  /\ (forall i j, aentry (n,l) i j <> 0 <-> edge_of F i j)
  /\ (forall i j, i <> j -> edge_of F i j -> aentry (n,l) i j = 1)
  /\ (forall t, In t F -> fst (fst t) < n /\ snd (fst t) < n /\ snd t < n)
  /\ (exists t, In t F /\ (fst (fst t) = n - 1 \/ snd (fst t) = n - 1 \/ snd t = n - 1)).
Proof.
  intros NE NN. unfold adjacency_matrix3. destruct (edges F) as [[[[E bi] ii] nm]|] eqn:Q.
  2:{ apply edges_none in Q. congruence. }
  pose proof (edges_sides F E bi ii nm Q) as ES.
  assert (PE : forall e, In e E -> 0 <= fst e /\ 0 <= snd e).
  { intros [u v] I. assert (X : edge_of F u v) by (apply ES; auto).
    assert (forall a b, In (a,b) (all_sides F) -> 0 <= a /\ 0 <= b).
    { intros a b Ia. apply sides_inv in Ia as ([[x y] z] & It & Is). specialize (NN _ It). cbn in *. intuition congruence. }
    cbn. destruct X as [X|X]; apply H in X; tauto. }
  assert (NE' : E <> []).
  { destruct F as [|[[a b] c] F']; [congruence|]. assert (X : edge_of ((a,b,c)::F') a b) by (left; cbn; auto).
    apply ES in X. intros ->. destruct X as [[]|[]]. }
  destruct (adjacency_of_edges_ok E NE' PE) as (OK & B & (e & Ie & MX)). set (n := max_of _ + 1) in *.
  exists n, (sym_pairs E). split; [exact OK|]. split; auto. split; [intros; apply aentry_sym|].
  assert (IS : forall i j, In (i,j) (sym_pairs E) <-> In (i,j) E \/ In (j,i) E).
  { intros i j. rewrite sym_pairs_eq, in_app_iff, in_map_iff. split; intros [H|H]; auto.
    - destruct H as ([a b] & Q' & I). cbn in Q'. injection Q' as -> ->. auto.
    - right. exists (j,i). auto. }
  assert (NZ : forall i j, aentry (n, sym_pairs E) i j <> 0 <-> edge_of F i j) by (intros; rewrite aentry_pos, IS; apply ES).
  split; auto. split; [|split].
  - intros i j N X. apply ES in X. destruct (edges_complete F E bi ii nm Q) as (_ & U & _).
    assert (CNT : forall i j, i <> j -> (In (i,j) E \/ In (j,i) E) ->
       length (filter (fun p : edge => (fst p =? i) && (snd p =? j)) (E ++ map (fun e => (snd e, fst e)) E)) = 1%nat).
    { clear - U. assert (UU : forall k l a b, nth_error E k = Some a -> nth_error E l = Some b -> same_edge a b -> k = l) by eauto. clear U.
      intros i j N X.
      assert (G : length (filter (same_edgeb (i,j)) E) = 1%nat).
      { assert (EX : exists e, In e E /\ same_edge e (i,j)).
        { destruct X as [X|X]; eexists; split; eauto; unfold same_edge; cbn; auto. }
        clear X. destruct EX as (e & Ie & Se). revert UU Ie. induction E as [|x E IH]; intros UU Ie; [destruct Ie|]. cbn.
        destruct (same_edgeb (i,j) x) eqn:T.
        - cbn. f_equal. assert (filter (same_edgeb (i,j)) E = []) as ->; auto.
          destruct (filter _ E) as [|y r] eqn:FE; auto. exfalso.
          assert (Iy : In y (filter (same_edgeb (i,j)) E)) by (rewrite FE; left; auto). apply filter_In in Iy as [Iy Ty].
          apply In_nth_error in Iy as [k Hk].
          assert (SE : forall z, same_edgeb (i,j) z = true -> same_edge z (i,j)).
          { intros [a b] Tz. unfold same_edgeb in Tz; cbn in Tz. apply orb_true_iff in Tz. rewrite !andb_true_iff, !Z.eqb_eq in Tz. unfold same_edge; cbn. intuition. }
          pose proof (SE _ T) as S1. pose proof (SE _ Ty) as S2.
          assert (0%nat = S k); [|discriminate]. apply (UU 0%nat (S k) x y); auto. clear - S1 S2. unfold same_edge in *; cbn in *. intuition congruence.
        - apply IH.
          + intros k l a b Ha Hb SS. assert (S k = S l) by (eapply UU; eauto). congruence.
          + destruct Ie as [->|]; auto. exfalso. clear - Se T. unfold same_edge in Se; unfold same_edgeb in T; cbn in *.
            apply orb_false_iff in T. rewrite !andb_false_iff, !Z.eqb_neq in T. intuition congruence. }
      rewrite filter_app, app_length. rewrite <- G. clear - N. induction E as [|[a b] E IH]; cbn; auto.
      unfold same_edgeb; cbn. rewrite (Z.eqb_sym i a), (Z.eqb_sym j b), (Z.eqb_sym i b), (Z.eqb_sym j a).
      fold (same_edgeb (i,j)) in *.
      destruct (Z.eqb_spec a i), (Z.eqb_spec b j), (Z.eqb_spec b i), (Z.eqb_spec a j); cbn; try (unfold same_edgeb in *; cbn in *; lia); exfalso; congruence. }
    unfold aentry; cbn [snd]. rewrite sym_pairs_eq, CNT; auto.
  - intros [[a b] c] It. destruct (sides_of _ _ It) as (S1 & S2 & S3). cbn.
    assert (H : forall u v, In (u,v) (all_sides F) -> u < n /\ v < n).
    { intros u v S. assert (X : edge_of F u v) by (left; auto). apply ES in X. apply IS in X. apply B in X. cbn in X. lia. }
    apply H in S1, S2. lia.
  - destruct e as [u v]. cbn in MX. assert (X : edge_of F u v) by (apply ES; auto).
    assert (exists t, In t F /\ (In (u,v) (sides t) \/ In (v,u) (sides t))) as ([[a b] c] & It & Is).
    { destruct X as [X|X]; apply sides_inv in X as (t & It & Is); eauto. }
    exists (a,b,c). split; auto. cbn in *. destruct Is as [Is|Is]; intuition congruence.
Qed.

Lemma clos_ext {A} (R S : A -> A -> Prop) : (forall x y, R x y <-> S x y) -> forall x y, clos_refl_trans A R x y <-> clos_refl_trans A S x y.
Proof. intros H x y. split; intros C; induction C; [apply rt_step, H | apply rt_refl | eapply rt_trans | apply rt_step, H | apply rt_refl | eapply rt_trans]; eauto. Qed.

Lemma gather_exists {A} (l : list A) idx : (forall i, In i idx -> (i < length l)%nat) -> exists r, gather l idx = Some r.
Proof.
  induction idx as [|i idx IH]; intros H; cbn; eauto.
  destruct (nth_error l i) eqn:E; [|apply nth_error_None in E; specialize (H i (or_introl eq_refl)); lia].
  destruct IH as [r ->]; eauto. intros j I. apply H; right; auto.
Qed.

Lemma connected_components_ok cc F : csgraph_ok cc -> F <> [] -> nonneg_faces F ->
  exists C CF n, connected_components cc F = Ok (C, CF)
   /\ (exists t, In t F /\ (fst (fst t) = n - 1 \/ snd (fst t) = n - 1 \/ snd t = n - 1))
   /\ (forall t, In t F -> fst (fst t) < n /\ snd (fst t) < n /\ snd t < n)
   /\ length C = Z.to_nat n /\ length CF = length F
   /\ (forall u v, 0 <= u < n -> 0 <= v < n ->
        (nth_error C (Z.to_nat u) = nth_error C (Z.to_nat v) <-> linked F u v))
   /\ (forall f t, nth_error F f = Some t -> forall v, v = fst (fst t) \/ v = snd (fst t) \/ v = snd t ->
        nth_error CF f = nth_error C (Z.to_nat v)).
Proof.
  intros CC NE NN. destruct (adjacency3_ok F NE NN) as (n & l & EA & B & _ & NZ & _ & LT & (t0 & I0 & M0)).
  assert (N0 : 0 <= n). { pose proof (NN _ I0). pose proof (LT _ I0). lia. }
  destruct (CC n l N0 B) as [LC H].
  unfold connected_components. destruct F as [|tf F'] eqn:EF; [congruence|]. rewrite <- EF in *. clear EF tf F'. rewrite EA. cbn [bind].
  destruct (gather_exists (cc (n,l)) (map (fun t => Z.to_nat (fst (fst t))) F)) as [CF G].
  { intros i I. apply in_map_iff in I as (t & <- & I). rewrite LC. pose proof (LT _ I). pose proof (NN _ I). lia. }
  rewrite G. cbn [lift bind]. exists (cc (n,l)), CF, n. split; auto. split; eauto. split; auto. split; auto.
  assert (HL : forall u v, 0 <= u < n -> 0 <= v < n -> (nth_error (cc (n,l)) (Z.to_nat u) = nth_error (cc (n,l)) (Z.to_nat v) <-> linked F u v)).
  { intros u v Hu Hv. rewrite H by auto. apply clos_ext. intros x y. unfold nonzero_link. rewrite !NZ. unfold edge_of. tauto. }
  assert (GS := G). apply gather_spec in GS.
  assert (GF : length CF = length F /\ forall f t, nth_error F f = Some t -> nth_error CF f = nth_error (cc (n,l)) (Z.to_nat (fst (fst t)))).
  { clear - G. revert CF G. induction F as [|t F IH]; intros CF G; cbn in *.
    - injection G as <-. split; auto. intros [|f] t E; discriminate.
    - destruct (nth_error _ _) as [x|] eqn:E1; [|discriminate]. destruct (gather _ _) as [xs|] eqn:E2; [|discriminate].
      injection G as <-. destruct (IH xs eq_refl) as [L2 H2]. split; [cbn; lia|]. intros [|f] u E; cbn in *; [injection E as <-; auto|auto]. }
  split; [apply GF|]. split; auto.
  intros f t Hf v Hv. destruct GF as [_ GF]. rewrite (GF f t Hf).
  apply nth_error_In in Hf. pose proof (LT t Hf). pose proof (NN t Hf). apply HL; try lia; destruct t as [[a b] c]; cbn in *.
  destruct (sides_of _ _ Hf) as (S1 & S2 & S3). destruct Hv as [ -> | [ -> | -> ] ]; [apply rt_refl | apply rt_step; left; auto | apply rt_step; right; auto].
Qed.

(** ** the contract is satisfiable: relabelling edge by edge *)
Definition relabel_edge (C : Z -> Z) (p : Z * Z) : Z -> Z := fun v => if C v =? C (snd p) then C (fst p) else C v.
Definition components_by_edges (A : amat) : list Z :=
  map (fold_left relabel_edge (snd A) (fun v => v)) (map Z.of_nat (seq 0 (Z.to_nat (fst A)))).
Definition pair_link (l : list (Z*Z)) i j := In (i,j) l \/ In (j,i) l.
Lemma relabel_inv l C (R : Z -> Z -> Prop) : (forall i j, C i = C j <-> clos_refl_trans Z R i j) -> (forall i j, R i j -> R j i) ->
  forall i j, fold_left relabel_edge l C i = fold_left relabel_edge l C j <-> clos_refl_trans Z (fun a b => R a b \/ pair_link l a b) i j.
Proof.
  revert C R. induction l as [|[p q] l IH]; intros C R H SY i j; cbn [fold_left].
  - rewrite H. apply clos_ext. intros x y. unfold pair_link; cbn. tauto.
  - assert (SYM : forall (S : Z -> Z -> Prop), (forall i j, S i j -> S j i) -> forall x y, clos_refl_trans Z S x y -> clos_refl_trans Z S y x).
    { intros S HS x y Cx. induction Cx; [apply rt_step; auto|apply rt_refl|eapply rt_trans; eauto]. }
    set (R' := fun a b => R a b \/ (a = p /\ b = q) \/ (a = q /\ b = p)).
    rewrite (IH (relabel_edge C (p,q)) R').
    + apply clos_ext. intros x y. unfold R', pair_link; cbn. split.
      * intros [[D|[[-> ->]|[-> ->]]]|[D|D]]; auto.
      * intros [D|[[D|D]|[D|D]]]; auto; injection D as -> ->; auto.
    + assert (SY' : forall a b, R' a b -> R' b a) by (unfold R'; intuition).
      assert (INC : forall x y, clos_refl_trans Z R x y -> clos_refl_trans Z R' x y).
      { intros x y Cx. induction Cx; [apply rt_step; left; auto|apply rt_refl|eapply rt_trans; eauto]. }
      assert (PQ : clos_refl_trans Z R' p q) by (apply rt_step; right; auto).
      assert (QP := SYM R' SY' _ _ PQ).
      intros x y. unfold relabel_edge; cbn [fst snd]. split.
      * destruct (Z.eqb_spec (C x) (C q)) as [A|A], (Z.eqb_spec (C y) (C q)) as [B|B]; intros E.
        -- apply INC, H. congruence.
        -- apply H in A, E. eapply rt_trans; [apply INC, A|]. eapply rt_trans; [exact QP|]. apply INC, E.
        -- apply H in B, E. eapply rt_trans; [apply INC, E|]. eapply rt_trans; [exact PQ|]. apply (SYM R' SY'), INC, B.
        -- apply INC, H, E.
      * intros Cx. induction Cx as [x y D|x|x y z _ IH1 _ IH2].
        -- destruct D as [D|[[-> ->]|[-> ->]]].
           ++ assert (C x = C y) as -> by (apply H, rt_step, D). auto.
           ++ rewrite Z.eqb_refl. destruct (C p =? C q); auto.
           ++ rewrite Z.eqb_refl. destruct (C p =? C q); auto.
        -- auto.
        -- congruence.
    + unfold R'. intuition.
Qed.
Lemma components_by_edges_ok : csgraph_ok components_by_edges.
Proof.
  intros n l N B. unfold components_by_edges; cbn [fst snd]. rewrite !map_length, seq_length. split; auto.
  intros i j Hi Hj. rewrite !map_map.
  set (f := fold_left relabel_edge l (fun v => v)).
  assert (NT : forall k, 0 <= k < n -> nth_error (map (fun x => f (Z.of_nat x)) (seq 0 (Z.to_nat n))) (Z.to_nat k) = Some (f k)).
  { intros k Hk. rewrite nth_error_map. rewrite nth_error_nth' with (d := 0%nat) by (rewrite seq_length; lia).
    rewrite seq_nth by lia. cbn. rewrite Z2Nat.id by lia. auto. }
  rewrite !NT by auto.
  pose proof (relabel_inv l (fun v => v) (fun _ _ => False)) as G.
  assert (Some (f i) = Some (f j) <-> f i = f j) as -> by (split; congruence).
  unfold f. rewrite G.
  - apply clos_ext. intros x y. unfold nonzero_link, pair_link. rewrite !aentry_pos. tauto.
  - intros a b. split; [intros ->; apply rt_refl|]. intros Cx. induction Cx; [contradiction|auto|congruence].
  - auto.
Qed.
