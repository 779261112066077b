(** C83: the edge-splitting stage of remesh_botsch (src/cpp/remesher/split_edges.cpp, split_edges_until_bound.cpp) *)
From Coq Require Import Reals Lra List Arith Bool Lia.
From Verif Require SubdivProofs.
From Verif Require Import Vec MatModel MatProofs BiharmProofs SplitModel SplitProofs Split3Proofs Split4Proofs Split5Proofs.
Import ListNotations.
Open Scope nat_scope.

(** -- specification (with omesh, coherent, once, edge, surface and total_area2 of SplitProofs and Split3Proofs) -- *)
(** x and y are the ends of an interior edge that is longer than the mean of the targets at its ends and is either a feature edge or touches no feature vertex *)
Definition too_long (m : nat) (st : state) (feature : list nat) (fe : list (nat * nat)) (x y : nat) : Prop :=
  edge (F st) m x y /\ edge (F st) m y x /\ ((high st x + high st y) / 2 < norm3 (sub3 (V st x) (V st y)))%R
  /\ ((~ In x feature /\ ~ In y feature) \/ In (x, y) fe \/ In (y, x) fe).
(** points of a polyline given by a table of edges *)
Definition on_seg (A B p : vec3) : Prop := exists t : R, (0 <= t <= 1)%R /\ p = add3 (scal3 (1 - t) A) (scal3 t B).
Definition polyline (V : nat -> vec3) (fe : list (nat * nat)) (p : vec3) : Prop := exists a b, In (a, b) fe /\ on_seg (V a) (V b) p.

(** -- proofs -- *)
Lemma edge_listed F0 M N K e x y : omesh F0 M N -> coherent F0 M K M e -> edge F0 M x y -> exists u, u < K /\ (uE e u = (x, y) \/ uE e u = (y, x)) /\ exists f c, f < M /\ c < 3 /\ he F0 f c = (x, y) /\ EMAP e (f + c * M) = u.
Proof.
  intros HO HC (f & c & Lf & Lc & HE). destruct (co_map _ _ _ _ _ HC f c Lf Lc) as (LU & Q). set (u := EMAP e (f + c * M)) in *. exists u. split; [auto|]. split; [|exists f, c; auto].
  destruct (co_one _ _ _ _ _ HC u LU) as (f' & c' & Lf' & Lc' & S0 & EM & UE). destruct Q as [Q|(S2 & Q)].
  - assert (EQ : f = f' /\ c = c') by (apply (enc_inj M); auto; congruence). destruct EQ as (-> & ->). rewrite HE in UE. exact UE.
  - destruct (co_two _ _ _ _ _ HC u LU S2) as (g & d & g' & d' & Lg & Ld & Lg' & Ld' & T0 & T1 & _ & HS).
    assert (EQ : f = g' /\ c = d') by (apply (enc_inj M); auto; congruence). destruct EQ as (<- & <-). assert (EQ : f' = g /\ c' = d) by (apply (enc_inj M); auto; congruence). destruct EQ as (<- & <-).
    rewrite HS, HE in UE. unfold swap in UE. cbn [fst snd] in UE. tauto.
Qed.
Lemma size_two F0 M N K e u : omesh F0 M N -> coherent F0 M K M e -> once K e -> u < K -> (size e u = 2 <-> edge F0 M (fst (uE e u)) (snd (uE e u)) /\ edge F0 M (snd (uE e u)) (fst (uE e u))).
Proof.
  intros HO HC ON LU. destruct (co_one _ _ _ _ _ HC u LU) as (f & c & Lf & Lc & S0 & EM & UE). split.
  - intros S2. destruct (co_two _ _ _ _ _ HC u LU S2) as (g & d & g' & d' & Lg & Ld & Lg' & Ld' & T0 & T1 & _ & HS).
    assert (EQ : f = g /\ c = d) by (apply (enc_inj M); auto; congruence). destruct EQ as (<- & <-).
    assert (HS' : he F0 g' d' = swap (he F0 f c)) by (rewrite HS; destruct (he F0 g' d'); reflexivity).
    destruct (he F0 f c) as [a b] eqn:EH. destruct UE as [UE|UE]; rewrite UE; unfold swap in *; cbn [fst snd] in *; [split; [exists f, c|exists g', d']|split; [exists g', d'|exists f, c]]; auto.
  - intros (E1 & E2). destruct (edge_listed _ _ _ _ _ _ _ HO HC E1) as (u1 & L1 & Q1 & f1 & c1 & Lf1 & Lc1 & H1 & M1). destruct (edge_listed _ _ _ _ _ _ _ HO HC E2) as (u2 & L2 & Q2 & f2 & c2 & Lf2 & Lc2 & H2 & M2).
    assert (u1 = u) by (apply ON; auto; destruct (uE e u) as [a b]; unfold swap; cbn [fst snd] in *; tauto). assert (u2 = u) by (apply ON; auto; destruct (uE e u) as [a b]; unfold swap; cbn [fst snd] in *; tauto). subst u1 u2.
    destruct (co_map _ _ _ _ _ HC f1 c1 Lf1 Lc1) as (_ & P1). destruct (co_map _ _ _ _ _ HC f2 c2 Lf2 Lc2) as (_ & P2). rewrite H in P1. rewrite H0 in P2.
    destruct P1 as [P1|(P1 & _)]; [|exact P1]. destruct P2 as [P2|(P2 & _)]; [|exact P2]. exfalso.
    assert (EQ : f1 = f2 /\ c1 = c2) by (apply (enc_inj M); auto; congruence). destruct EQ as (-> & ->). rewrite H1 in H2. injection H2 as E3. destruct (ends _ _ _ _ _ _ HO HC u LU) as (_ & _ & NE). congruence.
Qed.
Lemma norm3_sub_sym A B : norm3 (sub3 A B) = norm3 (sub3 B A).
Proof. unfold norm3. f_equal. unfold dot3, sub3, X, Y, Zc; cbn [fst snd]. ring. Qed.
Lemma isf_spec v feature : existsb (Nat.eqb v) feature = true <-> In v feature.
Proof. rewrite existsb_exists. split; [intros (x & I & E); apply Nat.eqb_eq in E; subst; auto|intros I; exists v; rewrite Nat.eqb_refl; auto]. Qed.
Lemma fe_spec fe x y : has (feature_row fe (x, y)) = true <-> In (x, y) fe \/ In (y, x) fe.
Proof. rewrite feature_has. split; [intros (b & I & S); apply same_edge_spec in S; destruct S as [->|E]; [auto|right; destruct b; unfold swap in E; injection E as -> ->; auto]|intros [I|I]; [exists (x, y)|exists (y, x)]; (split; [auto|]); apply same_edge_spec; auto]. Qed.
Lemma to_split_spec n m k st feature fe u : omesh (F st) m n -> coherent (F st) m k m (ed st) -> once k (ed st) -> u < k ->
  (to_split feature fe st u = true <-> too_long m st feature fe (fst (uE (ed st) u)) (snd (uE (ed st) u))).
Proof.
  intros HO HC ON LU. pose proof (size_two _ _ _ _ _ u HO HC ON LU) as SZ. unfold to_split, too_long. set (a := fst (uE (ed st) u)) in *. set (b := snd (uE (ed st) u)) in *.
  rewrite !andb_true_iff, negb_true_iff, Nat.eqb_eq, SZ, andb_false_iff, negb_false_iff, orb_false_iff, fe_spec.
  assert (NF : forall v, existsb (Nat.eqb v) feature = false <-> ~ In v feature) by (intros v; rewrite <- isf_spec, <- not_true_iff_false; tauto). rewrite !NF.
  destruct (Rlt_dec ((high st a + high st b) / 2) (norm3 (sub3 (V st a) (V st b)))) as [L|L]; intuition discriminate.
Qed.
Lemma too_long_sym m st feature fe x y : too_long m st feature fe x y <-> too_long m st feature fe y x.
Proof. unfold too_long. rewrite norm3_sub_sym, (Rplus_comm (high st x)). tauto. Qed.

(** For every oriented edge-manifold mesh (with or without boundary), every table of targets and every set of features: exactly the too-long edges are split, each into two halves at its midpoint;
    all other edges, all old vertices and all their targets stay; the result is again an oriented edge-manifold that covers the same points with the same area; and the edge tables built incrementally are
    again what igl::unique_edge_map would give, with three more edges, two more faces and one more vertex per split (so the Euler characteristic is unchanged). *)
Theorem C83_split n m k st feature fe : omesh (F st) m n -> coherent (F st) m k m (ed st) -> once k (ed st) ->
  exists L : list (nat * nat),
    NoDup L /\ (forall x y x' y', In (x, y) L -> In (x', y') L -> (x = x' /\ y = y') \/ (x = y' /\ y = x') -> (x, y) = (x', y'))
    /\ (forall x y, too_long m st feature fe x y <-> In (x, y) L \/ In (y, x) L)
    /\ let out := split_edges_until_bound n m k st feature fe in let st' := sst out in let s := length L in
       sn out = n + s /\ sm out = m + 2 * s
       /\ omesh (F st') (sm out) (sn out)
       /\ coherent (F st') (sm out) (k + 3 * s) (sm out) (ed st') /\ once (k + 3 * s) (ed st')
       /\ (forall v, v < n -> V st' v = V st v /\ high st' v = high st v /\ low st' v = low st v)
       /\ (forall x y, x < n -> y < n -> (edge (F st') (sm out) x y <-> edge (F st) m x y /\ ~ too_long m st feature fe x y))
       /\ (forall j x y, nth_error L j = Some (x, y) -> let w := n + j in
            V st' w = mid3 (V st x) (V st y) /\ high st' w = ((high st x + high st y) / 2)%R /\ low st' w = ((low st x + low st y) / 2)%R
            /\ edge (F st') (sm out) x w /\ edge (F st') (sm out) w y /\ edge (F st') (sm out) y w /\ edge (F st') (sm out) w x)
       /\ (forall p, surface (V st') (F st') (sm out) p <-> surface (V st) (F st) m p)
       /\ total_area2 (V st') (F st') (sm out) = total_area2 (V st) (F st) m.
Proof.
  intros HO HC ON. set (es := filter (to_split feature fe st) (seq 0 k)).
  assert (IE : forall u, In u es <-> u < k /\ to_split feature fe st u = true) by (intros u; unfold es; rewrite filter_In, in_seq; split; intros (A & B); (split; [lia|auto])).
  assert (NE : NoDup es) by (apply NoDup_filter, seq_NoDup).
  assert (IJ : forall u u', u < k -> u' < k -> uE (ed st) u = uE (ed st) u' \/ uE (ed st) u = swap (uE (ed st) u') -> u = u') by exact ON.
  exists (map (uE (ed st)) es). split; [|split; [|split]].
  - assert (G : forall l, incl l es -> NoDup l -> NoDup (map (uE (ed st)) l)).
    { induction l as [|u l IH]; intros IC ND; cbn; [constructor|]. inversion ND; subst. constructor; [|apply IH; [intros z Iz; apply IC; right; auto|auto]]. rewrite in_map_iff. intros (u' & E & Iu). apply H1. rewrite (IJ u u'); auto; [apply IE, IC; left; auto|apply IE, IC; right; auto]. }
    apply G; [intros z; auto|auto].
  - intros x y x' y' I1 I2 E. apply in_map_iff in I1. apply in_map_iff in I2. destruct I1 as (u & E1 & I1), I2 as (u' & E2 & I2). assert (u = u'); [|subst; congruence]. apply IE in I1. apply IE in I2. apply IJ; try tauto. rewrite E1, E2. unfold swap. cbn [fst snd]. destruct E as [(-> & ->)|(-> & ->)]; auto.
  - assert (IN : forall x y, In (x, y) (map (uE (ed st)) es) -> too_long m st feature fe x y).
    { intros x y I. apply in_map_iff in I. destruct I as (u & E & I). apply IE in I. destruct I as (LU & T). apply (to_split_spec n m k) in T; auto. rewrite E in T. exact T. }
    intros x y. split.
    + intros T. destruct (edge_listed _ _ _ _ _ _ _ HO HC (proj1 T)) as (u & LU & Q & _).
      assert (I : In u es). { apply IE. split; [auto|]. apply (to_split_spec n m k); auto. destruct Q as [Q|Q]; rewrite Q; cbn [fst snd]; [auto|apply too_long_sym; auto]. }
      destruct Q as [Q|Q]; [left|right]; rewrite <- Q; apply in_map; auto.
    + intros [I|I]; [apply IN; auto|apply too_long_sym, IN; auto].
  - assert (CH : forall x y, edge (F st) m x y -> (chosen (ed st) es x y <-> too_long m st feature fe x y)).
    { intros x y HE. split.
      - intros (u & I & Q). apply IE in I. destruct I as (LU & T). apply (to_split_spec n m k) in T; auto. destruct Q as [Q|Q]; rewrite Q in T; cbn [fst snd] in T; [auto|apply too_long_sym; auto].
      - intros T. destruct (edge_listed _ _ _ _ _ _ _ HO HC HE) as (u & LU & Q & _). exists u. split; [|auto]. apply IE. split; [auto|]. apply (to_split_spec n m k); auto. destruct Q as [Q|Q]; rewrite Q; cbn [fst snd]; [auto|apply too_long_sym; auto]. }
    cbv zeta. rewrite map_length. unfold split_edges_until_bound. fold es. set (st0 := {| V := V st; F := F st; high := high st; low := low st; ed := relayout m (length es) k (ed st) |}).
    assert (G : es <> [] -> run_facts n m k (m + 2 * length es) 0 es st0 (split_edges n m k es st)).
    { intros _. unfold split_edges. fold st0. apply run.
      - cbn [F st0]. rewrite Nat.mul_0_r, !Nat.add_0_r. exact HO.
      - cbn [F ed st0]. rewrite !Nat.mul_0_r, !Nat.add_0_r. apply relayout_ok. exact HC.
      - cbn. lia.
      - exact NE.
      - intros u I. apply IE in I. destruct I as (LU & T). split; [auto|]. cbn [ed st0]. unfold relayout. cbn [size]. destruct (Nat.ltb_spec u k); [|lia]. unfold to_split in T. rewrite !andb_true_iff, Nat.eqb_eq in T. tauto.
      - intros u LU. cbn [ed st0]. apply relayout_size. lia. }
    destruct es as [|u0 es0] eqn:EQ.
    + cbn [sn sm sst length map]. rewrite !Nat.mul_0_r, !Nat.add_0_r.
      split; [auto|]. split; [auto|]. split; [exact HO|]. split; [exact HC|]. split; [exact ON|]. split; [auto|]. split; [|split; [|split; [tauto|auto]]].
      * intros x y _ _. split; [|tauto]. intros HE. split; [auto|]. intros T. apply (CH x y HE) in T. destruct T as (u & [] & _).
      * intros j x y NJ. destruct j; discriminate.
    + rewrite <- EQ in *. specialize (G ltac:(rewrite EQ; discriminate)). cbn [sn sm sst]. set (st' := split_edges n m k es st) in *. clearbody st'. destruct G as [G1 G2 G3 G4 G5 G6 G7 G8 G9 G10]. rewrite ?Nat.mul_0_r, ?Nat.add_0_r, ?Nat.add_0_l in *.
      split; [auto|]. split; [auto|]. split; [exact G1|]. split; [exact G2|]. split; [apply G3; exact ON|]. split; [exact G6|]. split; [|split; [|split; [exact G9|exact G10]]].
      * intros x y Lx Ly. rewrite G7 by auto. cbn [F st0]. split; intros (A & B); (split; [auto|]); intros T; apply B; [apply CH; auto|apply (CH x y); auto].
      * intros j x y NJ. rewrite nth_error_map in NJ. destruct (nth_error es j) as [u|] eqn:NU; [|discriminate]. cbn in NJ. injection NJ as E. specialize (G8 j u NU). cbn zeta in G8. change (uE (ed st0) u) with (uE (ed st) u) in G8. rewrite E in G8. cbn [fst snd] in G8. rewrite Nat.add_0_l in G8. cbn [V high low st0] in G8. tauto.
Qed.

(** -- the feature edges -- *)
Lemma seg_split A B p : on_seg A B p <-> on_seg A (mid3 A B) p \/ on_seg (mid3 A B) B p.
Proof.
  split.
  - intros (t & (T0 & T1) & ->). destruct (Rle_dec t (/ 2)); [left; exists (2 * t)%R|right; exists (2 * t - 1)%R]; (split; [lra|]); apply vec3_eq; unfold add3, scal3, mid3, X, Y, Zc; cbn [fst snd add3 scal3 X Y Zc]; unfold X, Y, Zc; cbn [fst snd]; field.
  - intros [(t & (T0 & T1) & ->)|(t & (T0 & T1) & ->)]; [exists (t / 2)%R|exists ((1 + t) / 2)%R]; (split; [lra|]); apply vec3_eq; unfold add3, scal3, mid3, X, Y, Zc; cbn [fst snd add3 scal3 X Y Zc]; unfold X, Y, Zc; cbn [fst snd]; field.
Qed.
Lemma seg_sym A B p : on_seg A B p <-> on_seg B A p.
Proof. split; intros (t & (T0 & T1) & ->); exists (1 - t)%R; (split; [lra|]); apply vec3_eq; unfold add3, scal3, X, Y, Zc; cbn [fst snd]; ring. Qed.

(** If the rows of feature_edges are edges of the mesh, none of them twice (in either order), the table afterwards has the same property for the new mesh, and it describes the same polyline:
    a row that is not split stays in its place, a split one is replaced by its two halves. *)
Theorem C83_features n m k st feature fe : omesh (F st) m n -> coherent (F st) m k m (ed st) -> once k (ed st) ->
  sym_once fe -> (forall a b, In (a, b) fe -> edge (F st) m a b \/ edge (F st) m b a) ->
  let out := split_edges_until_bound n m k st feature fe in
  sym_once (sfe out) /\ (forall a b, In (a, b) (sfe out) -> edge (F (sst out)) (sm out) a b \/ edge (F (sst out)) (sm out) b a)
  /\ (forall p, polyline (V (sst out)) (sfe out) p <-> polyline (V st) fe p)
  /\ (forall r a b, nth_error fe r = Some (a, b) -> ~ too_long m st feature fe a b -> nth_error (sfe out) r = Some (a, b))
  /\ (forall a b, In (a, b) fe -> too_long m st feature fe a b -> exists w, n <= w < sn out /\ V (sst out) w = mid3 (V st a) (V st b) /\ ((In (a, w) (sfe out) /\ In (w, b) (sfe out)) \/ (In (b, w) (sfe out) /\ In (w, a) (sfe out)))).
Proof.
  intros HO HC ON SO FE. set (es := filter (to_split feature fe st) (seq 0 k)).
  assert (IE : forall u, In u es <-> u < k /\ to_split feature fe st u = true) by (intros u; unfold es; rewrite filter_In, in_seq; split; intros (A & B); (split; [lia|auto])).
  assert (NE : NoDup es) by (apply NoDup_filter, seq_NoDup).
  assert (LT : forall a b, In (a, b) fe -> a < n /\ b < n).
  { assert (LE : forall x y, edge (F st) m x y -> x < n /\ y < n) by (intros x y (f & c & Lf & Lc & E); destruct (mod3 c Lc) as (M1 & M2 & _); injection E as <- <-; split; apply (om_range _ _ _ HO); auto). intros a b I. destruct (FE a b I) as [E|E]; apply LE in E; tauto. }
  assert (TL : forall a b, edge (F st) m a b \/ edge (F st) m b a -> (too_long m st feature fe a b <-> exists u, In u es /\ same_edge (uE (ed st) u) (a, b) = true)).
  { intros a b EA. split.
    - intros T. destruct (edge_listed _ _ _ _ _ _ _ HO HC (proj1 T)) as (u & LU & Q & _). exists u. split; [|apply same_edge_spec; destruct Q as [->| ->]; auto]. apply IE. split; [auto|]. apply (to_split_spec n m k); auto. destruct Q as [Q|Q]; rewrite Q; cbn [fst snd]; [auto|apply too_long_sym; auto].
    - intros (u & I & S). apply same_edge_spec in S. apply IE in I. destruct I as (LU & T). apply (to_split_spec n m k) in T; auto. destruct S as [S|S]; rewrite S in T; cbn [swap fst snd] in T; [auto|apply too_long_sym; auto]. }
  cbv zeta. unfold split_edges_until_bound. fold es. set (st0 := {| V := V st; F := F st; high := high st; low := low st; ed := relayout m (length es) k (ed st) |}).
  assert (G : es <> [] -> run_facts n m k (m + 2 * length es) 0 es st0 (split_edges n m k es st)).
  { intros _. unfold split_edges. fold st0. apply run.
    - cbn [F st0]. rewrite Nat.mul_0_r, !Nat.add_0_r. exact HO.
    - cbn [F ed st0]. rewrite !Nat.mul_0_r, !Nat.add_0_r. apply relayout_ok. exact HC.
    - cbn. lia.
    - exact NE.
    - intros u I. apply IE in I. destruct I as (LU & T). split; [auto|]. cbn [ed st0]. unfold relayout. cbn [size]. destruct (Nat.ltb_spec u k); [|lia]. unfold to_split in T. rewrite !andb_true_iff, Nat.eqb_eq in T. tauto.
    - intros u LU. cbn [ed st0]. apply relayout_size. lia. }
  destruct es as [|u0 es0] eqn:EQ.
  - cbn [sn sm sst sfe]. split; [exact SO|]. split; [exact FE|]. split; [tauto|]. split; [auto|]. intros a b I T. apply TL in T; [|auto]. destruct T as (u & [] & _).
  - rewrite <- EQ in *. specialize (G ltac:(rewrite EQ; discriminate)). cbn [sn sm sst sfe]. set (st' := split_edges n m k es st) in *. clearbody st'. destruct G as [G1 G2 G3 G4 G5 G6 G7 G8 G9 G10]. rewrite ?Nat.mul_0_r, ?Nat.add_0_r, ?Nat.add_0_l in *.
    assert (G8' : forall j u, nth_error es j = Some u -> let a := fst (uE (ed st) u) in let b := snd (uE (ed st) u) in V st' (n + j) = mid3 (V st a) (V st b) /\ edge (F st') (m + 2 * length es) a (n + j) /\ edge (F st') (m + 2 * length es) (n + j) b).
    { intros j u NU. specialize (G8 j u NU). cbv zeta in G8. change (uE (ed st0) u) with (uE (ed st) u) in G8. rewrite Nat.add_0_l in G8. cbn [V high low st0] in G8. cbv zeta. tauto. }
    assert (EN : forall j u, nth_error es j = Some u -> fst (uE (ed st) u) < n /\ snd (uE (ed st) u) < n /\ fst (uE (ed st) u) <> snd (uE (ed st) u)) by (intros j u NU; apply (ends _ _ _ _ _ _ HO HC); apply IE; eapply nth_error_In; eauto).
    destruct (features_spec n (uE (ed st)) fe es SO NE) as (A & B & E0 & LA & HA & HB & NB). { intros u u' I I' S. apply same_edge_spec in S. apply IE in I. apply IE in I'. apply ON; tauto. }
    rewrite E0.
    assert (KA : forall p r, nth_error A p = Some r -> exists b, nth_error fe p = Some b /\ ((r = b /\ forall u, In u es -> same_edge (uE (ed st) u) b = false) \/ exists j u, nth_error es j = Some u /\ same_edge (uE (ed st) u) b = true /\ r = (fst (uE (ed st) u), n + j))).
    { intros p r NP. destruct (nth_error fe p) as [b|] eqn:NF.
      - exists b. split; [auto|]. destruct (HA p b NF) as [(Q1 & Q2)|(j & u & Q1 & Q2 & Q3)]; [left; split; [congruence|auto]|right; exists j, u; repeat split; auto; congruence].
      - exfalso. apply nth_error_None in NF. assert (p < length A) by (apply nth_error_Some; congruence). lia. }
    assert (KI : forall r, In r A -> exists b, In b fe /\ ((r = b /\ forall u, In u es -> same_edge (uE (ed st) u) b = false) \/ exists j u, nth_error es j = Some u /\ same_edge (uE (ed st) u) b = true /\ r = (fst (uE (ed st) u), n + j))).
    { intros r I. apply In_nth_error in I. destruct I as (p & NP). destruct (KA p r NP) as (b & NF & Q). exists b. split; [eapply nth_error_In; eauto|exact Q]. }
    assert (UE : forall j j' u u', nth_error es j = Some u -> nth_error es j' = Some u' -> n + j = n + j' -> u = u') by (intros j j' u u' P Q E; assert (j = j') by lia; congruence).
    assert (MID : forall a b j u, In (a, b) fe -> nth_error es j = Some u -> same_edge (uE (ed st) u) (a, b) = true -> V st' (n + j) = mid3 (V st a) (V st b) /\ ((fst (uE (ed st) u) = a /\ snd (uE (ed st) u) = b) \/ (fst (uE (ed st) u) = b /\ snd (uE (ed st) u) = a))).
    { intros a b j u I NU S. destruct (G8' j u NU) as (VM & _). apply same_edge_spec in S. destruct S as [S|S]; rewrite S in VM |- *; cbn [swap fst snd] in VM |- *; (split; [|auto]); rewrite VM; [auto|apply mid3_comm]. }
    split; [|split; [|split; [|split]]].
    + split.
      * assert (NA : NoDup A).
        { apply NoDup_nth_error. intros p q Lp E. destruct (nth_error A p) as [r|] eqn:NP; [|apply nth_error_None in NP; lia]. symmetry in E. destruct (KA p r NP) as (b & F1 & Q1). destruct (KA q r E) as (b' & F2 & Q2).
          assert (b = b' -> p = q) by (intros <-; apply (proj1 (NoDup_nth_error fe) (proj1 SO)); [apply nth_error_Some; congruence|congruence]). apply H.
          destruct b as [x y], b' as [x' y']. pose proof (LT _ _ (nth_error_In _ _ F1)). pose proof (LT _ _ (nth_error_In _ _ F2)).
          destruct Q1 as [(R1 & _)|(j & u & J1 & S1 & R1)], Q2 as [(R2 & _)|(j' & u' & J2 & S2 & R2)].
          - congruence.
          - exfalso. rewrite R1 in R2. injection R2 as R3 R4. lia.
          - exfalso. rewrite R2 in R1. injection R1 as R3 R4. lia.
          - rewrite R1 in R2. injection R2 as R3 R4. assert (u = u') by (apply (UE j j'); auto; lia). subst u'. apply (proj2 SO); [eapply nth_error_In; eauto|eapply nth_error_In; eauto|]. eapply same_edge_trans; [apply same_edge_sym; exact S1|exact S2]. }
        apply SubdivProofs.NoDup_app_iff. split; [exact NA|]. split; [exact NB|]. intros r I1 I2. destruct (KI r I1) as ((x & y) & Ib & Q). apply HB in I2. destruct I2 as (j & u & b' & _ & _ & _ & ->). pose proof (LT _ _ Ib).
        destruct Q as [(Q & _)|(j' & u' & J' & _ & Q)]; injection Q as Qa Qb; [lia|]. destruct (EN j' u' J') as (Z & _). lia.
      * assert (KIND : forall r, In r (A ++ B) -> (In r fe) \/ (exists j u, nth_error es j = Some u /\ r = (fst (uE (ed st) u), n + j)) \/ (exists j u, nth_error es j = Some u /\ r = (n + j, snd (uE (ed st) u)))).
        { intros r I. apply in_app_or in I. destruct I as [I|I]; [destruct (KI r I) as (b & Ib & [(-> & _)|(j & u & J & _ & R)]); [auto|right; left; eauto]|]. apply HB in I. destruct I as (j & u & b & J & _ & _ & R). right; right; eauto. }
        intros r r' I I' S. destruct r as [x y], r' as [x' y']. apply same_edge_spec in S.
        destruct (KIND _ I) as [K1|[(j & u & J & R)|(j & u & J & R)]], (KIND _ I') as [K2|[(j' & u' & J' & R')|(j' & u' & J' & R')]].
        -- apply (proj2 SO); auto. apply same_edge_spec; auto.
        -- exfalso. injection R' as -> ->. destruct (EN j' u' J') as (Z1 & Z2 & Z3). pose proof (LT _ _ K1). unfold swap in S. cbn [fst snd] in S. destruct S as [S|S]; injection S as; lia.
        -- exfalso. injection R' as -> ->. destruct (EN j' u' J') as (Z1 & Z2 & Z3). pose proof (LT _ _ K1). unfold swap in S. cbn [fst snd] in S. destruct S as [S|S]; injection S as; lia.
        -- exfalso. injection R as -> ->. destruct (EN j u J) as (Z1 & Z2 & Z3). pose proof (LT _ _ K2). unfold swap in S. cbn [fst snd] in S. destruct S as [S|S]; injection S as; lia.
        -- injection R as -> ->. injection R' as -> ->. destruct (EN j u J) as (Z1 & Z2 & Z3), (EN j' u' J') as (Z1' & Z2' & Z3'). unfold swap in S. cbn [fst snd] in S. destruct S as [S|S]; [exact S|injection S as; lia].
        -- exfalso. injection R as -> ->. injection R' as -> ->. destruct (EN j u J) as (Z1 & Z2 & Z3), (EN j' u' J') as (Z1' & Z2' & Z3'). unfold swap in S. cbn [fst snd] in S. destruct S as [S|S]; injection S as S1 S2; [lia|]. assert (u = u') by (apply (UE j j'); auto). subst u'. congruence.
        -- exfalso. injection R as -> ->. destruct (EN j u J) as (Z1 & Z2 & Z3). pose proof (LT _ _ K2). unfold swap in S. cbn [fst snd] in S. destruct S as [S|S]; injection S as; lia.
        -- exfalso. injection R as -> ->. injection R' as -> ->. destruct (EN j u J) as (Z1 & Z2 & Z3), (EN j' u' J') as (Z1' & Z2' & Z3'). unfold swap in S. cbn [fst snd] in S. destruct S as [S|S]; injection S as S1 S2; [lia|]. assert (u = u') by (apply (UE j j'); auto). subst u'. congruence.
        -- injection R as -> ->. injection R' as -> ->. destruct (EN j u J) as (Z1 & Z2 & Z3), (EN j' u' J') as (Z1' & Z2' & Z3'). unfold swap in S. cbn [fst snd] in S. destruct S as [S|S]; [exact S|injection S as; lia].
    + intros a b I. apply in_app_or in I. destruct I as [I|I].
      * destruct (KI _ I) as (b' & Ib & [(E & NS)|(j & u & J & S & R)]).
        -- subst b'. pose proof (LT _ _ Ib) as (La & Lb). assert (NC : ~ chosen (ed st0) es a b /\ ~ chosen (ed st0) es b a).
           { assert (X : forall x y, same_edge (x, y) (a, b) = true -> ~ chosen (ed st0) es x y) by (intros x y S (u & Iu & Q); change (uE (ed st0) u) with (uE (ed st) u) in Q; assert (same_edge (uE (ed st) u) (a, b) = true) by (eapply same_edge_trans; [|exact S]; apply same_edge_spec; destruct Q as [->| ->]; auto); rewrite NS in H by auto; discriminate). split; apply X; apply same_edge_spec; auto. }
           destruct (FE a b Ib) as [E|E]; [left|right]; apply G7; auto; split; try tauto; exact E.
        -- injection R as -> ->. left. apply (G8' j u J).
      * apply HB in I. destruct I as (j & u & b' & J & _ & _ & R). injection R as -> ->. left. apply (G8' j u J).
    + intros p. split.
      * intros (a & b & I & S). apply in_app_or in I. destruct I as [I|I].
        -- destruct (KI _ I) as (b' & Ib & [(E & NS)|(j & u & J & SE & R)]).
           ++ subst b'. destruct (LT _ _ Ib) as (La & Lb). exists a, b. split; [auto|]. rewrite (proj1 (G6 a La)), (proj1 (G6 b Lb)) in S. exact S.
           ++ injection R as -> ->. destruct b' as [x y]. destruct (LT _ _ Ib) as (Lx & Ly). destruct (MID x y j u Ib J SE) as (VM & Q). exists x, y. split; [auto|]. rewrite VM in S. apply seg_split. destruct Q as [(Q1 & Q2)|(Q1 & Q2)]; rewrite Q1 in S.
              ** rewrite (proj1 (G6 x Lx)) in S. left. exact S. ** rewrite (proj1 (G6 y Ly)) in S. right. apply seg_sym. exact S.
        -- apply HB in I. destruct I as (j & u & b' & J & Ib & SE & R). injection R as -> ->. destruct b' as [x y]. destruct (LT _ _ Ib) as (Lx & Ly). destruct (MID x y j u Ib J SE) as (VM & Q). exists x, y. split; [auto|]. rewrite VM in S. apply seg_split. destruct Q as [(Q1 & Q2)|(Q1 & Q2)]; rewrite Q2 in S.
           ++ rewrite (proj1 (G6 y Ly)) in S. right. exact S. ++ rewrite (proj1 (G6 x Lx)) in S. left. apply seg_sym. exact S.
      * intros (a & b & I & S). destruct (LT _ _ I) as (La & Lb). destruct (In_nth_error _ _ I) as (r & NR). destruct (HA r (a, b) NR) as [(Q1 & Q2)|(j & u & J & SE & Q)].
        -- exists a, b. split; [apply in_or_app; left; eapply nth_error_In; eauto|]. rewrite (proj1 (G6 a La)), (proj1 (G6 b Lb)). exact S.
        -- destruct (MID a b j u I J SE) as (VM & Q'). assert (IA : In (fst (uE (ed st) u), n + j) (A ++ B)) by (apply in_or_app; left; eapply nth_error_In; eauto). assert (IB : In (n + j, snd (uE (ed st) u)) (A ++ B)) by (apply in_or_app; right; apply HB; exists j, u, (a, b); auto).
           apply seg_split in S. destruct Q' as [(Q1 & Q2)|(Q1 & Q2)]; rewrite Q1 in IA; rewrite Q2 in IB; destruct S as [S|S].
           ++ exists a, (n + j). rewrite VM, (proj1 (G6 a La)). auto.
           ++ exists (n + j), b. rewrite VM, (proj1 (G6 b Lb)). auto.
           ++ exists (n + j), a. rewrite VM, (proj1 (G6 a La)). split; [auto|]. apply seg_sym. exact S.
           ++ exists b, (n + j). rewrite VM, (proj1 (G6 b Lb)). split; [auto|]. apply seg_sym. exact S.
    + intros r a b NR NT. rewrite nth_error_app1 by (rewrite LA; apply nth_error_Some; congruence). destruct (HA r (a, b) NR) as [(Q1 & _)|(j & u & J & SE & _)]; [auto|]. exfalso. apply NT. apply TL; [apply FE; eapply nth_error_In; eauto|]. exists u. split; [eapply nth_error_In; eauto|auto].
    + intros a b I T. destruct (In_nth_error _ _ I) as (r & NR). destruct (HA r (a, b) NR) as [(Q1 & Q2)|(j & u & J & SE & Q)].
      * exfalso. apply TL in T; [|auto]. destruct T as (u & Iu & S). rewrite Q2 in S by auto. discriminate.
      * exists (n + j). assert (LJ : j < length es) by (apply nth_error_Some; congruence). split; [lia|]. destruct (MID a b j u I J SE) as (VM & Q'). split; [exact VM|].
        assert (IA : In (fst (uE (ed st) u), n + j) (A ++ B)) by (apply in_or_app; left; eapply nth_error_In; eauto). assert (IB : In (n + j, snd (uE (ed st) u)) (A ++ B)) by (apply in_or_app; right; apply HB; exists j, u, (a, b); auto).
        destruct Q' as [(Q1 & Q2)|(Q1 & Q2)]; rewrite Q1 in IA; rewrite Q2 in IB; auto.
Qed.

(** -- a tetrahedron: its edge tables are those of igl::unique_edge_map, three of its edges are longer than 1.2 -- *)
Definition tetF : nat -> nat -> nat := fun f c => nth c (nth f [[0; 2; 1]; [0; 1; 3]; [1; 2; 3]; [2; 0; 3]] []) 0.
Definition tetE : edges := {| uE := fun u => nth u [(1, 2); (1, 3); (2, 3); (0, 3); (0, 1); (0, 2)] (0, 0);
  EMAP := fun h => nth h [0; 1; 2; 3; 4; 3; 1; 2; 5; 4; 0; 5] 0;
  slot := fun u j => nth j (nth u [[0; 10]; [1; 6]; [2; 7]; [3; 5]; [4; 9]; [8; 11]] []) 0; size := fun _ => 2 |}.
Definition tetV : nat -> vec3 := fun v => nth v [(0, 0, 0); (1, 0, 0); (0, 1, 0); (0, 0, 1)]%R (0, 0, 0)%R.
Definition tet (h : R) : state := {| V := tetV; F := tetF; high := fun _ => h; low := fun _ => (h / 2)%R; ed := tetE |}.
Ltac small H := match type of H with ?x < 3 => let A := fresh in assert (A : x = 0 \/ x = 1 \/ x = 2) by lia; clear H; destruct A as [->|[->| ->]] | ?x < 4 => let A := fresh in assert (A : x = 0 \/ x = 1 \/ x = 2 \/ x = 3) by lia; clear H; destruct A as [->|[->|[->| ->]]]
  | ?x < 6 => let A := fresh in assert (A : x = 0 \/ x = 1 \/ x = 2 \/ x = 3 \/ x = 4 \/ x = 5) by lia; clear H; destruct A as [->|[->|[->|[->|[->| ->]]]]] | ?x < 2 => let A := fresh in assert (A : x = 0 \/ x = 1) by lia; clear H; destruct A as [->| ->] end.
Lemma tet_omesh : omesh tetF 4 4.
Proof.
  constructor.
  - intros f c H1 H2. small H1; small H2; cbn; lia.
  - intros f c d H1 H2 H3. small H1; small H2; small H3; cbn; intros; auto; discriminate.
  - intros f c g d H1 H2 H3 H4. small H1; small H2; small H3; small H4; cbn; intros; auto; discriminate.
  - intros f c g d H1 H2 H3 H4. small H1; small H2; small H3; small H4; vm_compute; intros Q R; first [discriminate Q|discriminate R].
Qed.
Lemma tet_coherent : coherent tetF 4 6 4 tetE.
Proof.
  constructor.
  - intros f c H1 H2. small H1; small H2; cbn; (split; [lia|auto]).
  - intros u H1. small H1; [exists 0, 0|exists 1, 0|exists 2, 0|exists 3, 0|exists 0, 1|exists 0, 2]; cbn; repeat split; auto; lia.
  - intros u H1 _. small H1; [exists 0, 0, 2, 2|exists 1, 0, 2, 1|exists 2, 0, 3, 1|exists 3, 0, 1, 1|exists 0, 1, 1, 2|exists 0, 2, 3, 2]; cbn; repeat split; auto; lia.
Qed.
Lemma tet_once : once 6 tetE.
Proof. intros u u' H1 H2. small H1; small H2; cbn; intros [E|E]; auto; discriminate. Qed.
Lemma tet_edge x y : In (x, y) [(2, 1); (1, 0); (0, 2); (1, 3); (3, 0); (0, 1); (2, 3); (3, 1); (1, 2); (0, 3); (3, 2); (2, 0)] -> edge tetF 4 x y.
Proof. cbn [In]. intros Q. decompose [or] Q; try tauto; match goal with X : _ = _ |- _ => injection X as <- <- end; [exists 0, 0|exists 0, 1|exists 0, 2|exists 1, 0|exists 1, 1|exists 1, 2|exists 2, 0|exists 2, 1|exists 2, 2|exists 3, 0|exists 3, 1|exists 3, 2]; cbn; repeat split; auto; lia. Qed.
Lemma tet_len12 : norm3 (sub3 (tetV 1) (tetV 2)) = sqrt 2.
Proof. unfold norm3. f_equal. cbn. unfold dot3, sub3, X, Y, Zc; cbn [fst snd]. ring. Qed.
Lemma tet_len01 : norm3 (sub3 (tetV 0) (tetV 1)) = 1%R.
Proof. unfold norm3. rewrite <- sqrt_1. f_equal. cbn. unfold dot3, sub3, X, Y, Zc; cbn [fst snd]. ring. Qed.
Lemma sqrt2_bound : (1.4 < sqrt 2)%R.
Proof. rewrite <- (sqrt_square 1.4) by lra. apply sqrt_lt_1; lra. Qed.
Lemma tet_long h feature fe : (h < 1.4)%R -> (~ In 1 feature /\ ~ In 2 feature) \/ In (1, 2) fe \/ In (2, 1) fe -> too_long 4 (tet h) feature fe 1 2.
Proof. intros L Q. pose proof sqrt2_bound. split; [apply tet_edge; cbn; auto 20|]. split; [apply tet_edge; cbn; auto 20|]. split; [|exact Q]. cbn [high V tet]. rewrite tet_len12. lra. Qed.
Theorem C83_example : omesh (F (tet 1.2)) 4 4 /\ coherent (F (tet 1.2)) 4 6 4 (ed (tet 1.2)) /\ once 6 (ed (tet 1.2)) /\ sym_once [(1, 2); (1, 0)]
  /\ (forall a b, In (a, b) [(1, 2); (1, 0)] -> edge (F (tet 1.2)) 4 a b \/ edge (F (tet 1.2)) 4 b a)
  /\ too_long 4 (tet 1.2) [1] [(1, 2); (1, 0)] 1 2 /\ ~ too_long 4 (tet 1.2) [1] [(1, 2); (1, 0)] 1 3 /\ ~ too_long 4 (tet 1.2) [1] [(1, 2); (1, 0)] 0 1.
Proof.
  split; [exact tet_omesh|]. split; [exact tet_coherent|]. split; [exact tet_once|]. split; [|split; [|split; [|split]]].
  - split; [repeat constructor; cbn; intuition discriminate|]. intros a b Ia Ib S. apply same_edge_spec in S. cbn in Ia, Ib. destruct Ia as [<-|[<-|[]]], Ib as [<-|[<-|[]]]; cbn in S; destruct S; auto; discriminate.
  - intros a b I. left. apply tet_edge. cbn in I |- *. destruct I as [I|[I|[]]]; rewrite <- I; auto 20.
  - apply tet_long; [lra|]. right; left. cbn. auto.
  - intros (_ & _ & _ & Q). cbn in Q. intuition discriminate.
  - intros (_ & _ & Q & _). cbn [high V tet] in Q. rewrite tet_len01 in Q. lra.
Qed.

(** -- what the stage does not do -- *)
(** it runs once, so an edge that is long enough is still too long afterwards (split_edges_until_bound.cpp:128), and its name notwithstanding the bound is not reached *)
Theorem C83_one_pass_refuted n m k st feature fe x y : omesh (F st) m n -> coherent (F st) m k m (ed st) -> once k (ed st) -> (forall v, In v feature -> v < n) -> ~ In x feature -> ~ In y feature ->
  too_long m st feature fe x y -> ((3 * high st x + high st y) / 2 < norm3 (sub3 (V st x) (V st y)))%R ->
  let out := split_edges_until_bound n m k st feature fe in exists w, too_long (sm out) (sst out) feature (sfe out) x w.
Proof.
  intros HO HC ON FN NX NY T LG. destruct (C83_split n m k st feature fe HO HC ON) as (L & _ & _ & TL & E1 & E2 & _ & _ & _ & OLD & _ & NEW & _). cbv zeta in *. set (out := split_edges_until_bound n m k st feature fe) in *. clearbody out.
  assert (LX : x < n /\ y < n) by (destruct T as ((f & c & Lf & Lc & E) & _); destruct (mod3 c Lc) as (M1 & M2 & _); injection E as <- <-; split; apply (om_range _ _ _ HO); auto). destruct LX as (LX & LY).
  assert (HALF : forall A B, norm3 (sub3 A (mid3 A B)) = (norm3 (sub3 A B) / 2)%R).
  { intros A B. replace (sub3 A (mid3 A B)) with (scal3 (/ 2) (sub3 A B)) by (apply vec3_eq; unfold sub3, mid3, scal3, add3, X, Y, Zc; cbn [fst snd]; field). rewrite norm3_scal by lra. field. }
  assert (FW : forall j, ~ In (n + j) feature) by (intros j I; apply FN in I; lia). destruct (OLD x LX) as (VX & HX & _).
  apply TL in T. destruct T as [I|I]; apply In_nth_error in I; destruct I as (j & NJ); destruct (NEW _ _ _ NJ) as (VW & HW & _ & N1 & N2 & N3 & N4); exists (n + j); unfold too_long; rewrite VX, HX, VW, HW.
  - rewrite HALF. split; [auto|]. split; [auto|]. split; [lra|]. left. auto.
  - rewrite mid3_comm, HALF. split; [auto|]. split; [auto|]. split; [lra|]. left. auto.
Qed.
Theorem C83_one_pass_example : too_long 4 (tet 0.1) [] [] 1 2 /\ ((3 * high (tet 0.1) 1 + high (tet 0.1) 2) / 2 < norm3 (sub3 (V (tet 0.1) 1) (V (tet 0.1) 2)))%R.
Proof. split; [apply tet_long; [lra|left; cbn; auto]|]. cbn [high V tet]. rewrite tet_len12. pose proof sqrt2_bound. lra. Qed.

(** a feature edge listed twice is only updated once: the other row then names an edge that is gone *)
Theorem C83_duplicate_refuted : let fe := [(1, 2); (2, 1)] in let out := split_edges_until_bound 4 4 6 (tet 1.2) [0; 1; 2; 3] fe in
  In (1, 2) (sfe out) /\ ~ edge (F (sst out)) (sm out) 1 2 /\ ~ edge (F (sst out)) (sm out) 2 1.
Proof.
  cbv zeta. destruct (C83_split 4 4 6 (tet 1.2) [0; 1; 2; 3] [(1, 2); (2, 1)] tet_omesh tet_coherent tet_once) as (L & _ & _ & _ & _ & _ & _ & _ & _ & _ & ED & _). cbv zeta in ED.
  assert (T : too_long 4 (tet 1.2) [0; 1; 2; 3] [(1, 2); (2, 1)] 1 2) by (apply tet_long; [lra|right; left; cbn; auto]).
  split; [|split; rewrite ED by lia; intros (_ & Q); apply Q; [exact T|apply too_long_sym; exact T]].
  assert (ES : filter (to_split [0; 1; 2; 3] [(1, 2); (2, 1)] (tet 1.2)) (seq 0 6) = [0]).
  { assert (T0 : to_split [0; 1; 2; 3] [(1, 2); (2, 1)] (tet 1.2) 0 = true) by (apply (to_split_spec 4 4 6); [exact tet_omesh|exact tet_coherent|exact tet_once|lia|exact T]).
    cbn [seq filter]. rewrite T0. reflexivity. }
  unfold split_edges_until_bound. rewrite ES. cbn [sfe]. unfold split_features. cbn. auto.
Qed.

(** two faces on the same three vertices (a closed oriented edge-manifold, excluded by the last field of omesh): splitting one edge makes a directed edge occur in two faces *)
Definition pillowF : nat -> nat -> nat := fun f c => nth c (nth f [[0; 1; 2]; [0; 2; 1]] []) 0.
Definition pillowE : edges := {| uE := fun u => nth u [(1, 2); (0, 2); (0, 1)] (0, 0); EMAP := fun h => nth h [0; 0; 1; 2; 2; 1] 0; slot := fun u j => nth j (nth u [[0; 1]; [2; 5]; [3; 4]] []) 0; size := fun _ => 2 |}.
Theorem C83_pillow_refuted Vt hi lo : let st := {| V := Vt; F := pillowF; high := hi; low := lo; ed := pillowE |} in
  (forall f c g d, f < 2 -> c < 3 -> g < 2 -> d < 3 -> he pillowF f c = he pillowF g d -> f = g /\ c = d) /\ (forall f c d, f < 2 -> c < 3 -> d < 3 -> pillowF f c = pillowF f d -> c = d) /\ coherent pillowF 2 3 2 pillowE /\ once 3 pillowE
  /\ let F' := F (split_edges 3 2 3 [0] st) in exists f c g d, f < 4 /\ c < 3 /\ g < 4 /\ d < 3 /\ f <> g /\ he F' f c = he F' g d.
Proof.
  cbv zeta. split; [|split; [|split; [|split]]].
  - intros f c g d H1 H2 H3 H4. small H1; small H2; small H3; small H4; cbn; intros; auto; discriminate.
  - intros f c d H1 H2 H3. small H1; small H2; small H3; cbn; intros; auto; discriminate.
  - constructor.
    + intros f c H1 H2. small H1; small H2; cbn; (split; [lia|auto]).
    + intros u H1. small H1; [exists 0, 0|exists 0, 1|exists 1, 1]; cbn; repeat split; auto; lia.
    + intros u H1 _. small H1; [exists 0, 0, 1, 0|exists 0, 1, 1, 2|exists 1, 1, 0, 2]; cbn; repeat split; auto; lia.
  - intros u u' H1 H2. small H1; small H2; cbn; intros [E|E]; auto; discriminate.
  - exists 0, 1, 2, 0. repeat split; try lia; vm_compute; reflexivity.
Qed.

(** on a mesh with boundary the renumbering also runs over the entry behind every one-element list of uE2E (split_edges.cpp:53-59): whatever half-edge-sized number is stored there is changed *)
Theorem C83_past_end_refuted m s k e u : u < k -> size e u = 1 -> 0 < s -> m <= slot e u 1 -> slot (relayout m s k e) u 1 <> slot e u 1 /\ size (relayout m s k e) u = 1.
Proof. intros LU S1 LS LM. unfold relayout. cbn [slot size]. destruct (Nat.ltb_spec u k); [|lia]. split; [|auto]. unfold shift. destruct (Nat.leb_spec (2 * m) (slot e u 1)); [lia|]. destruct (Nat.leb_spec m (slot e u 1)); lia. Qed.
