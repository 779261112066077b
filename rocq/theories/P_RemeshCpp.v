(** C87: the remeshing loop of remesh_botsch as a whole (src/cpp/remesher/remesh_botsch.cpp) *)
From Coq Require Import Reals Lra List Arith Bool Lia.
From Verif Require Import Vec SplitModel SplitProofs Split3Proofs Split4Proofs Split5Proofs FlipModel FlipProofs Flip2Proofs Flip3Proofs RelaxModel CollapseModel CollapseProofs RemeshCppModel RemeshCppProofs P_Split P_Flip P_Relax P_Collapse.
Import ListNotations.
Open Scope nat_scope.

(** -- specification (omesh, edge, coherent, once: P_Split; flip_ok: P_Flip; decimated: P_Collapse; nearest, pinned, on_line, regular, closest_on_mesh: P_Relax) -- *)
Definition referenced (F : nat -> nat -> nat) (m v : nat) : Prop := exists y, edge F m v y.
(** what is asked of libigl *)
Record igl_ok (g : igl) : Prop := {
  ig_tables : forall F m n, omesh F m n -> coherent F m (fst (unique_edge_map g F m)) m (snd (unique_edge_map g F m)) /\ once (fst (unique_edge_map g F m)) (snd (unique_edge_map g F m));
  ig_flip : flip_ok (flip_edge g);
  (** decimate works on an oriented edge-manifold, follows the callback, keeps the order of the vertices and all surviving vertices that have faces, and changes no face if it collapses nothing *)
  ig_decimate : forall cb V F n m, omesh F m n -> let r := decimate g cb V F n m in
    omesh (rG r) (rm r) (rn r) /\ (forall s t, s < t -> t < rn r -> rI r s < rI r t) /\
    exists M0 rep M, (forall v, cV M0 v = V v) /\ decimated cb n M0 r rep M /\
      (forall v, v < n -> rep v = v -> referenced F m v -> exists s, s < rn r /\ rI r s = v /\ referenced (rG r) (rm r) s) /\
      (merges r = [] -> rm r = m /\ forall f c, f < m -> c < 3 -> rI r (rG r f c) = F f c) }.

(** -- proofs -- *)
Lemma edge_range F m n x y : omesh F m n -> edge F m x y -> x < n /\ y < n.
Proof. intros HO (f & c & Lf & Lc & E). destruct (mod3 c Lc) as (M1 & M2 & _). unfold he in E. pose proof (f_equal fst E) as E1. pose proof (f_equal snd E) as E2. cbn [fst snd] in E1, E2. rewrite <- E1, <- E2. split; apply (om_range _ _ _ HO); auto. Qed.
Lemma ue_range F m n k e u : omesh F m n -> coherent F m k m e -> u < k -> fst (uE e u) < n /\ snd (uE e u) < n.
Proof.
  intros HO HC L. destruct (co_one _ _ _ _ _ HC u L) as (f & c & Lf & Lc & _ & _ & Q). assert (R : fst (he F f c) < n /\ snd (he F f c) < n) by (apply (edge_range F m n); [auto|exists f, c; destruct (he F f c); auto]). destruct Q as [-> | ->]; [auto|]. unfold swap. cbn [fst snd]. tauto.
Qed.
Lemma set_row_in l : forall j x y, In y (set_row l j x) -> y = x \/ In y l.
Proof. induction l as [|z l IH]; intros j x y I; [destruct I|]. destruct j as [|j]; cbn [set_row] in I; destruct I as [<-|I]; cbn; auto. apply IH in I. tauto. Qed.
Lemma split_features_range n old es fe0 N : (forall a b, In (a, b) fe0 -> a < n /\ b < n) -> (forall u, In u es -> fst (old u) < n /\ snd (old u) < n) -> n + length es <= N -> forall a b, In (a, b) (split_features n old es fe0) -> a < N /\ b < N.
Proof.
  intros R0 RO LN. unfold split_features. set (stp := fun fe (p : nat * nat) => match feature_row fe0 (old (snd p)) with None => fe | Some row => set_row fe row (fst (old (snd p)), n + fst p) ++ [(n + fst p, snd (old (snd p)))] end).
  assert (G : forall l fe, (forall i u, In (i, u) l -> i < length es /\ In u es) -> (forall a b, In (a, b) fe -> a < N /\ b < N) -> forall a b, In (a, b) (fold_left stp l fe) -> a < N /\ b < N).
  { induction l as [|(i, u) l IH]; intros fe HL HF; cbn [fold_left]; [auto|]. apply IH; [intros j w I; apply HL; right; auto|]. unfold stp. cbn [fst snd]. destruct (HL i u (or_introl eq_refl)) as (Li & Iu). destruct (RO u Iu) as (R1 & R2).
    destruct (feature_row fe0 (old u)); [|auto]. intros a b I. apply in_app_or in I. destruct I as [I|[I|[]]]; [apply set_row_in in I; destruct I as [I|I]; [injection I as -> ->; lia|auto]|injection I as <- <-; lia]. }
  apply G; [|intros a b I; apply R0 in I; lia]. intros i u I. pose proof (in_combine_l _ _ _ _ I) as I1. apply in_combine_r in I. apply in_seq in I1. split; [lia|auto].
Qed.
Record inv (k0 : nat) (V0 : nat -> vec3) (x : mesh) : Prop := {
  in_mesh : omesh (mF x) (fm x) (vn x); in_feat : mfeature x = seq 0 k0; in_ref : forall i, i < k0 -> referenced (mF x) (fm x) i; in_pos : forall i, i < k0 -> mV x i = V0 i;
  in_fe : forall a b, In (a, b) (mfe x) -> a < vn x /\ b < vn x }.
Lemma ref_range k0 V0 x i : inv k0 V0 x -> i < k0 -> i < vn x.
Proof. intros I L. destruct (in_ref _ _ _ I i L) as (y & E). apply (edge_range _ _ _ _ _ (in_mesh _ _ _ I)) in E. tauto. Qed.
(** the place of the vertices after smoothing *)
Definition placed (V0 : nat -> vec3) (F0 : nat -> nat -> nat) (m0 : nat) (featE0 : list (nat * nat)) (x : mesh) : Prop :=
  forall i, i < vn x -> pinned (mfeature x) (mfe x) i \/ (on_line (mfeature x) (mfe x) i /\ (featE0 <> [] -> polyline V0 featE0 (mV x i))) \/ (regular (mfeature x) (mfe x) i /\ surface V0 F0 m0 (mV x i)).
Lemma one_iteration g cf project Vr Fr mr featE0 k0 V0 x : igl_ok g -> (project = true -> forall n, closest_on_mesh Vr Fr mr n (point_mesh_distance g n mr)) -> inv k0 V0 x ->
  exists K x', (forall uf, K <= uf -> iteration g cf uf project Vr Fr mr Vr featE0 x = Some x') /\ inv k0 V0 x' /\ (project = true -> placed Vr Fr mr featE0 x').
Proof.
  intros IG CM IV. unfold iteration. destruct (ig_tables _ IG _ _ _ (in_mesh _ _ _ IV)) as (HC & ON). set (t := unique_edge_map g (mF x) (fm x)) in *. set (st0 := {| V := mV x; F := mF x; high := mhigh x; low := mlow x; ed := snd t |}).
  destruct (C83_split (vn x) (fm x) (fst t) st0 (mfeature x) (mfe x) (in_mesh _ _ _ IV) HC ON) as (L & _ & _ & TL & N1 & N2 & HO & _ & _ & OLD & ED & NEW & _). cbv zeta in *.
  assert (FR : forall a b, In (a, b) (sfe (split_edges_until_bound (vn x) (fm x) (fst t) st0 (mfeature x) (mfe x))) -> a < sn (split_edges_until_bound (vn x) (fm x) (fst t) st0 (mfeature x) (mfe x)) /\ b < sn (split_edges_until_bound (vn x) (fm x) (fst t) st0 (mfeature x) (mfe x))).
  { clear N1 N2 HO OLD ED NEW. unfold split_edges_until_bound. destruct (filter (to_split (mfeature x) (mfe x) st0) (seq 0 (fst t))) as [|u es] eqn:ES; cbn [sfe sn]; [apply (in_fe _ _ _ IV)|]. apply split_features_range; [apply (in_fe _ _ _ IV)| |lia].
    intros w I. rewrite <- ES in I. apply filter_In in I. destruct I as (I & _). apply in_seq in I. apply (ue_range _ _ _ _ _ _ (in_mesh _ _ _ IV) HC). lia. }
  set (s := split_edges_until_bound (vn x) (fm x) (fst t) st0 (mfeature x) (mfe x)) in *. clearbody s. clear HC ON.
  assert (REF : forall i, i < k0 -> referenced (F (sst s)) (sm s) i).
  { intros i Li. destruct (in_ref _ _ _ IV i Li) as (y & E). destruct (edge_range _ _ _ _ _ (in_mesh _ _ _ IV) E) as (Ri & Ry).
    assert (DEC : {In (i, y) L} + {~ In (i, y) L}) by (apply in_dec; decide equality; apply Nat.eq_dec). assert (DEC' : {In (y, i) L} + {~ In (y, i) L}) by (apply in_dec; decide equality; apply Nat.eq_dec).
    destruct DEC as [I|NI]; [|destruct DEC' as [I|NI']].
    - apply In_nth_error in I. destruct I as (j & NJ). destruct (NEW _ _ _ NJ) as (_ & _ & _ & Q & _). eexists; exact Q.
    - apply In_nth_error in I. destruct I as (j & NJ). destruct (NEW _ _ _ NJ) as (_ & _ & _ & _ & _ & Q & _). eexists; exact Q.
    - exists y. apply ED; auto. split; [exact E|]. rewrite TL. tauto. }
  assert (POS : forall i, i < k0 -> V (sst s) i = V0 i) by (intros i Li; destruct (OLD i (ref_range _ _ _ _ IV Li)) as (-> & _); apply (in_pos _ _ _ IV i Li)).
  assert (NK : forall i, i < k0 -> i < sn s) by (intros i Li; pose proof (ref_range _ _ _ _ IV Li); lia). rewrite (in_feat _ _ _ IV). clear TL N1 N2 OLD ED NEW.
  set (cb := cost_and_placement cf (sm s) (seq 0 k0) (sfe s) (high (sst s)) (low (sst s)) (adjacency_list g (F (sst s)) (sm s))).
  destruct (ig_decimate _ IG cb (V (sst s)) (F (sst s)) (sn s) (sm s) HO) as (HG & INC & M0 & rep & M & EV & DM & CO & _). set (r := decimate g cb (V (sst s)) (F (sst s)) (sn s) (sm s)) in *. clearbody r.
  pose proof (C86_positions _ _ _ _ _ _ _ _ _ _ _ _ DM) as PM.
  destruct (C86_output _ _ _ _ _ _ _ _ _ _ _ _ DM) as (K & HK); [intros v I; apply in_seq in I; apply NK; lia|exact FR|].
  assert (SURV : forall v, v < k0 -> exists s0, s0 < rn r /\ rI r s0 = v /\ referenced (rG r) (rm r) s0) by (intros v Lv; destruct (PM v) as (P1 & _); apply CO; [auto|apply P1; apply in_seq; lia|auto]).
  assert (ID : forall v, v < k0 -> v < rn r /\ rI r v = v) by (apply first_ids; [auto|intros v Lv; destruct (SURV v Lv) as (s0 & A & B & _); eauto]).
  destruct (HK K (Nat.le_refl _)) as (o & EO & ON & OV & OF & OS & SO & _ & OE).
  assert (INJ : forall s0 t0, s0 < rn r -> t0 < rn r -> rI r s0 = rI r t0 -> s0 = t0) by (destruct DM as (_ & _ & _ & Q); exact Q).
  assert (FEAT : ofeature o = seq 0 k0).
  { apply (forall2_seq (rI r) k0 (rn r)); [auto|auto|intros s0 I; apply OF in I; tauto|]. assert (F2 : Forall2 (fun v s => rI r s = v /\ oV o s = cV M0 v) (seq 0 k0) (ofeature o)) by (apply OS; intros v I; apply in_seq in I; destruct (SURV v) as (s0 & A & B & _); [lia|eauto]).
    clear -F2. induction F2 as [|v s l l' (Q & _) F2 IH]; constructor; auto. }
  assert (OG : oF o = rG r /\ om o = rm r) by (clear -EO; unfold collapse_edges in EO; destruct (birth2new K (sn s) r); [|discriminate]; cbn [bindo] in EO; injection EO as <-; auto). destruct OG as (OG & OMM).
  exists K. eexists. split; [intros uf LU; rewrite (collapse_mono _ _ _ _ _ _ _ _ _ LU EO); cbn [bindo]; reflexivity|]. rewrite OG, OMM, ON, FEAT.
  destruct (ig_tables _ IG _ _ _ HG) as (HC2 & ON2). set (t2 := unique_edge_map g (rG r) (rm r)) in *.
  destruct (C84_flips (flip_edge g) (rm r) (rn r) (fst t2) (oV o) (seq 0 k0) (ofe o) (rG r) (snd t2) (ig_flip _ IG) HG HC2 ON2) as (_ & HO2 & _).
  destruct (C84_effects (flip_edge g) (rm r) (rn r) (fst t2) (oV o) (seq 0 k0) (ofe o) (rG r) (snd t2) (ig_flip _ IG) HG HC2 ON2) as (KEEP & _).
  set (F2 := fF (equalize_valences (flip_edge g) (rm r) (oV o) (seq 0 k0) (ofe o) (fst t2) (rG r) (snd t2))) in *. clearbody F2.
  split.
  - constructor; cbn [mF fm vn mfeature mV mfe].
    + exact HO2.
    + reflexivity.
    + intros i Li. destruct (SURV i Li) as (s0 & L0 & E0 & (y & f & c & Lf & Lc & HE)). assert (s0 = i) by (apply INJ; auto; [apply ID; auto|rewrite E0; symmetry; apply ID; auto]). subst s0. exists y, f, c. split; [auto|]. split; [auto|].
      destruct (mod3 c Lc) as (M1 & M2 & _). unfold he in *. pose proof (f_equal fst HE) as E1. pose proof (f_equal snd HE) as E2. cbn [fst snd] in E1, E2. assert (IN : In (rG r f ((c + 1) mod 3)) (seq 0 k0)) by (rewrite E1; apply in_seq; lia). rewrite (KEEP f _ Lf M1 IN _ M1), (KEEP f _ Lf M1 IN _ M2). congruence.
    + intros i Li. destruct (ID i Li) as (L1 & E1). unfold tangential_relaxation. rewrite (proj2 (Nat.ltb_lt i (rn r)) L1). cbn [negb]. rewrite (proj2 (fixed_spec _ _ _)) by (left; apply in_seq; lia). destruct (OV i L1) as (-> & _). rewrite E1. destruct (PM i) as (_ & _ & P3 & _). rewrite P3 by (apply in_seq; lia). rewrite EV. auto.
    + intros a b I. destruct (OE a b) as (Q & _). destruct Q as (_ & A & B & _); auto.
  - intros PR. rewrite PR. intros i Li. cbn [vn mfeature mfe mV] in *.
    destruct (C85_relax (point_mesh_distance g (rn r) mr) (rn r) mr (seq 0 k0) (ofe o) (adjacency_list g F2 (rm r)) (per_vertex_normals g (oV o) F2 (rm r)) Vr Fr Vr featE0 true (oV o) (CM PR (rn r))) as (S & _ & LIN & REG & _).
    destruct (is_fixed (seq 0 k0) (ofe o) i) eqn:FX; [left; apply fixed_spec; auto|]. assert (NP : ~ pinned (seq 0 k0) (ofe o) i) by (intros P; apply fixed_spec in P; congruence).
    destruct (Nat.eq_dec (degree (ofe o) i) 2) as [D2|N2]; [right; left|right; right].
    + assert (OL : on_line (seq 0 k0) (ofe o) i) by (split; auto). split; [auto|]. intros NE. destruct (LIN i Li OL) as (u & w & _ & _ & Q & _). destruct (Q NE) as (Q1 & _). exact Q1.
    + assert (RG : regular (seq 0 k0) (ofe o) i) by (split; [auto|]; destruct (Nat.eq_dec (degree (ofe o) i) 0); [auto|exfalso; apply NP; right; auto]). split; [auto|]. destruct (REG i Li RG) as ((Q1 & _) & _). exact Q1.
Qed.

Lemma all_iterations g cf project Vr Fr mr featE0 k0 V0 : igl_ok g -> (project = true -> forall n, closest_on_mesh Vr Fr mr n (point_mesh_distance g n mr)) -> forall k x, inv k0 V0 x ->
  exists K x', (forall uf, K <= uf -> iterations k (iteration g cf uf project Vr Fr mr Vr featE0) x = Some x') /\ inv k0 V0 x' /\ (k = 0 -> x' = x) /\ (k <> 0 -> project = true -> placed Vr Fr mr featE0 x').
Proof.
  intros IG CM. induction k as [|k IH]; intros x IV; cbn [iterations].
  - exists 0, x. split; [auto|]. split; [auto|]. split; [auto|]. intros; congruence.
  - destruct (one_iteration g cf project Vr Fr mr featE0 k0 V0 x IG CM IV) as (K1 & x1 & E1 & IV1 & P1). destruct (IH x1 IV1) as (K2 & x2 & E2 & IV2 & Z2 & P2). exists (K1 + K2), x2. split; [intros uf LU; rewrite E1 by lia; cbn [bindo]; apply E2; lia|]. split; [auto|]. split; [intros; congruence|].
    intros _ PR. destruct k as [|k]; [rewrite (Z2 eq_refl); auto|apply P2; auto].
Qed.

(** The loop ends for every oriented edge-manifold, and the result is one again.  The feature vertices, first in the order as the Python wrapper arranges them, are still the first vertices of the result, in the same order, and have not moved.  With [project] and at least one iteration every other vertex that is not an end or junction of a feature curve lies on a feature curve of the input or on the input surface. *)
Theorem C87_remesh g cf V F n m h iters k0 fe project : igl_ok g -> (project = true -> forall n', closest_on_mesh V F m n' (point_mesh_distance g n' m)) ->
  omesh F m n -> (forall v, v < k0 -> referenced F m v) -> (forall a b, In (a, b) fe -> a < n /\ b < n) ->
  exists K out, (forall uf, K <= uf -> remesh g cf uf V F n m h iters (seq 0 k0) fe project = Some out)
    /\ omesh (mF out) (fm out) (vn out)
    /\ k0 <= vn out /\ (forall v, v < k0 -> mV out v = V v)
    /\ mfeature out = seq 0 k0 /\ (forall a b, In (a, b) (mfe out) -> a < vn out /\ b < vn out)
    /\ (iters <> 0 -> project = true -> forall v, v < vn out -> pinned (seq 0 k0) (mfe out) v \/ (on_line (seq 0 k0) (mfe out) v /\ (fe <> [] -> polyline V fe (mV out v))) \/ (regular (seq 0 k0) (mfe out) v /\ surface V F m (mV out v)))
    /\ (iters = 0 -> vn out = n /\ fm out = m /\ mV out = V /\ mF out = F).
Proof.
  intros IG CM HO RF FE. set (x := {| vn := n; fm := m; mV := V; mF := F; mhigh := fun _ => (1.4 * h)%R; mlow := fun _ => (0.7 * h)%R; mfeature := seq 0 k0; mfe := fe |}).
  assert (IV : inv k0 V x) by (constructor; cbn [x mF fm vn mfeature mV mfe]; auto).
  destruct (all_iterations g cf project V F m fe k0 V IG CM iters x IV) as (K & out & E & IO & Z & P). exists K, out. split; [exact E|]. split; [apply (in_mesh _ _ _ IO)|].
  split; [destruct k0 as [|k]; [lia|]; pose proof (ref_range _ _ _ k IO); lia|]. split; [apply (in_pos _ _ _ IO)|]. split; [apply (in_feat _ _ _ IO)|]. split; [apply (in_fe _ _ _ IO)|]. split.
  - intros N PR v Lv. specialize (P N PR v Lv). rewrite (in_feat _ _ _ IO) in P. exact P.
  - intros I0. rewrite (Z I0). auto.
Qed.
