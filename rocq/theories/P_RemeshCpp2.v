(** C87, continued: the libigl contracts can be met, and when the loop is a no-op *)
From Coq Require Import Reals Lra List Arith Bool Lia.
From Verif Require Import Vec SplitModel SplitProofs Split3Proofs Split4Proofs Split5Proofs FlipModel FlipProofs Flip2Proofs Flip3Proofs RelaxModel CollapseModel CollapseProofs RemeshCppModel RemeshCppProofs SqDistModel SqDistProofs P_Split P_Flip P_Relax P_Collapse P_RemeshCpp.
Import ListNotations.
Open Scope nat_scope.

(** -- a construction of the tables of igl::unique_edge_map -- *)
Definition pair_eqb (p q : nat * nat) : bool := Nat.eqb (fst p) (fst q) && Nat.eqb (snd p) (snd q).
Lemma pair_eqb_spec p q : pair_eqb p q = true <-> p = q.
Proof. unfold pair_eqb. rewrite andb_true_iff, !Nat.eqb_eq. destruct p, q; cbn [fst snd]. split; [intros (-> & ->); auto|intros E; injection E; auto]. Qed.
Fixpoint pos (x : nat) (l : list nat) : nat := match l with [] => 0 | y :: r => if Nat.eqb x y then 0 else S (pos x r) end.
Lemma pos_nth x l : In x l -> pos x l < length l /\ nth (pos x l) l 0 = x.
Proof. induction l as [|y l IH]; [intros []|]. intros I. cbn [pos length]. destruct (Nat.eqb_spec x y) as [->|N]; [cbn; split; [lia|auto]|]. destruct I as [->|I]; [congruence|]. destruct (IH I). cbn [nth]. split; [lia|auto]. Qed.
Lemma nth_pos l u : NoDup l -> u < length l -> pos (nth u l 0) l = u.
Proof.
  intros ND L. assert (I : In (nth u l 0) l) by (apply nth_In; auto). destruct (pos_nth _ _ I) as (L2 & E). apply (proj1 (NoDup_nth l 0) ND); auto.
Qed.
Section Tables.
  Variables (F : nat -> nat -> nat) (m n : nat).
  Hypothesis HO : omesh F m n.
  Definition hh (h : nat) : nat * nat := he F (h mod m) (h / m).
  Definition opp (h : nat) : option nat := find (fun g => pair_eqb (hh g) (swap (hh h))) (seq 0 (3 * m)).
  Definition isfirst (h : nat) : bool := match opp h with Some g => h <=? g | None => true end.
  Definition firsts : list nat := filter isfirst (seq 0 (3 * m)).
  Definition firstof (h : nat) : nat := match opp h with Some g => Nat.min g h | None => h end.
  Definition tables : edges := {| uE := fun u => hh (nth u firsts 0); EMAP := fun h => pos (firstof h) firsts;
    slot := fun u j => match j with 0 => nth u firsts 0 | _ => match opp (nth u firsts 0) with Some g => g | None => 0 end end;
    size := fun u => match opp (nth u firsts 0) with Some _ => 2 | None => 1 end |}.
  Lemma dec h : h < 3 * m -> exists f c, f < m /\ c < 3 /\ h = f + c * m /\ hh h = he F f c.
  Proof.
    intros L. assert (NZ : m <> 0) by lia. exists (h mod m), (h / m). split; [apply Nat.mod_upper_bound; auto|]. split; [apply Nat.div_lt_upper_bound; lia|]. split; [|reflexivity]. pose proof (Nat.div_mod h m NZ). lia.
  Qed.
  Lemma hh_enc f c : f < m -> hh (f + c * m) = he F f c.
  Proof. intros L. unfold hh. rewrite enc_mod, enc_div; auto. Qed.
  Lemma hh_inj h g : h < 3 * m -> g < 3 * m -> hh h = hh g -> h = g.
  Proof. intros L1 L2 E. destruct (dec h L1) as (f & c & A & B & -> & E1), (dec g L2) as (f' & c' & A' & B' & -> & E2). rewrite E1, E2 in E. destruct (om_inj _ _ _ HO _ _ _ _ A B A' B' E) as (-> & ->). auto. Qed.
  Lemma swap_swap p : swap (swap p) = p. Proof. destruct p; reflexivity. Qed.
  Lemma opp_some h g : opp h = Some g -> g < 3 * m /\ hh g = swap (hh h).
  Proof. intros E. apply find_some in E. destruct E as (I & E). apply in_seq in I. apply pair_eqb_spec in E. split; [lia|auto]. Qed.
  Lemma opp_intro h g : g < 3 * m -> hh g = swap (hh h) -> opp h = Some g.
  Proof.
    intros L E. destruct (opp h) as [g'|] eqn:O.
    - destruct (opp_some _ _ O) as (L' & E'). f_equal. apply hh_inj; auto. congruence.
    - exfalso. pose proof (find_none _ _ O g) as Q. cbv beta in Q. assert (T : pair_eqb (hh g) (swap (hh h)) = true) by (apply pair_eqb_spec; auto). rewrite Q in T; [discriminate|apply in_seq; lia].
  Qed.
  Lemma opp_sym h g : h < 3 * m -> opp h = Some g -> opp g = Some h.
  Proof. intros L O. destruct (opp_some _ _ O) as (L' & E). apply opp_intro; [auto|]. rewrite E, swap_swap. auto. Qed.
  Lemma in_firsts h : In h firsts <-> h < 3 * m /\ isfirst h = true.
  Proof. unfold firsts. rewrite filter_In, in_seq. split; intros (A & B); (split; [lia|auto]). Qed.
  Lemma firstof_in h : h < 3 * m -> In (firstof h) firsts.
  Proof.
    intros L. apply in_firsts. unfold firstof. destruct (opp h) as [g|] eqn:O.
    - destruct (opp_some _ _ O) as (L' & _). pose proof (opp_sym _ _ L O) as O'. destruct (Nat.min_spec g h) as [(M & ->)|(M & ->)]; (split; [lia|]); unfold isfirst; [rewrite O'|rewrite O]; apply Nat.leb_le; lia.
    - split; [auto|]. unfold isfirst. rewrite O. auto.
  Qed.
  Lemma firstof_first h : In h firsts -> firstof h = h.
  Proof. intros I. apply in_firsts in I. destruct I as (L & I). unfold firstof, isfirst in *. destruct (opp h); [apply Nat.leb_le in I; lia|auto]. Qed.
  Lemma firstof_opp h g : h < 3 * m -> opp h = Some g -> firstof g = firstof h.
  Proof. intros L O. unfold firstof. rewrite O, (opp_sym _ _ L O). lia. Qed.
  Lemma firsts_nodup : NoDup firsts. Proof. apply NoDup_filter, seq_NoDup. Qed.
  Lemma enc_lt f c : f < m -> c < 3 -> f + c * m < 3 * m. Proof. intros. nia. Qed.
  Lemma tables_coherent : coherent F m (length firsts) m tables.
  Proof.
    constructor.
    - intros f c Lf Lc. cbv zeta. set (h := f + c * m). assert (L : h < 3 * m) by (apply enc_lt; auto). cbn [EMAP slot size tables]. destruct (pos_nth _ _ (firstof_in h L)) as (P1 & P2). split; [auto|]. rewrite P2.
      unfold firstof in *. destruct (opp h) as [g|] eqn:O; [|auto]. destruct (Nat.min_spec g h) as [(M & E)|(M & E)]; rewrite E in *; [|auto]. right. rewrite (opp_sym _ _ L O). auto.
    - intros u Lu. cbn [EMAP slot uE tables]. assert (I : In (nth u firsts 0) firsts) by (apply nth_In; auto). pose proof (firstof_first _ I) as FF. pose proof I as I2. apply in_firsts in I2. destruct I2 as (L & _). destruct (dec _ L) as (f & c & Lf & Lc & E & EH).
      exists f, c. split; [auto|]. split; [auto|]. split; [auto|]. split; [rewrite <- E, FF; apply nth_pos; [apply firsts_nodup|auto]|]. left. auto.
    - intros u Lu. cbn [EMAP slot size tables]. assert (I : In (nth u firsts 0) firsts) by (apply nth_In; auto). pose proof (firstof_first _ I) as FF. pose proof I as I2. apply in_firsts in I2. destruct I2 as (L & _). destruct (opp (nth u firsts 0)) as [g|] eqn:O; [|discriminate]. intros _.
      destruct (opp_some _ _ O) as (LG & EG). destruct (dec _ L) as (f & c & Lf & Lc & E & EH), (dec _ LG) as (f' & c' & Lf' & Lc' & E' & EH'). exists f, c, f', c'. do 6 (split; [auto|]). split; [|rewrite <- EH, <- EH', EG, swap_swap; auto].
      rewrite <- E', (firstof_opp _ _ L O), FF. apply nth_pos; [apply firsts_nodup|auto].
  Qed.
  Lemma tables_once : once (length firsts) tables.
  Proof.
    intros u u' L L' E. cbn [uE tables] in E. assert (I : In (nth u firsts 0) firsts) by (apply nth_In; auto). assert (I' : In (nth u' firsts 0) firsts) by (apply nth_In; auto).
    apply (proj1 (NoDup_nth firsts 0) firsts_nodup); auto. pose proof (proj1 (in_firsts _) I) as (B & _). pose proof (proj1 (in_firsts _) I') as (B' & _).
    destruct E as [E|E]; [apply hh_inj; auto|]. assert (O : opp (nth u' firsts 0) = Some (nth u firsts 0)) by (apply opp_intro; auto). rewrite <- (firstof_first _ I), <- (firstof_first _ I'). apply firstof_opp; auto.
  Qed.
End Tables.

(** -- nearest points by trying all faces -- *)
Definition face_point (V : nat -> vec3) (F : nat -> nat -> nat) (p : vec3) (f : nat) : vec3 := let '(_, (x, y, z)) := sqd_triangle p (V (F f 0)) (V (F f 1)) (V (F f 2)) in conv3 (V (F f 0)) (V (F f 1)) (V (F f 2)) x y z.
Fixpoint best (p : vec3) (c : nat -> vec3) (m : nat) : vec3 := match m with 0 => c 0 | S k => let b := best p c k in if Rlt_dec (dist p (c k)) (dist p b) then c k else b end.
Definition proper (V : nat -> vec3) (F : nat -> nat -> nat) (m : nat) : Prop := forall f, f < m -> cross3 (sub3 (V (F f 1)) (V (F f 0))) (sub3 (V (F f 2)) (V (F f 0))) <> zero3.
Lemma best_ok p c m : (m <> 0 -> exists f, f < m /\ best p c m = c f) /\ forall f, f < m -> (dist p (best p c m) <= dist p (c f))%R.
Proof.
  induction m as [|m IH]; [split; [congruence|intros; lia]|]. destruct IH as (I1 & I2). cbn [best]. destruct (Rlt_dec (dist p (c m)) (dist p (best p c m))) as [L|L].
  - split; [intros _; exists m; auto|]. intros f Lf. destruct (Nat.eq_dec f m) as [->|N]; [lra|]. specialize (I2 f ltac:(lia)). lra.
  - destruct m as [|m].
    + split; [intros _; exists 0; auto|]. intros f Lf. assert (f = 0) by lia. subst. cbn [best]. lra.
    + split; [intros _; destruct (I1 ltac:(lia)) as (f & A & B); exists f; split; [lia|auto]|]. intros f Lf. destruct (Nat.eq_dec f (S m)) as [->|N]; [apply Rnot_lt_le; auto|apply I2; lia].
Qed.
Lemma brute_ok V F m n : m <> 0 -> proper V F m -> closest_on_mesh V F m n (fun W V F i => best (W i) (face_point V F (W i)) m).
Proof.
  intros NZ PR W i _. destruct (best_ok (W i) (face_point V F (W i)) m) as (B1 & B2). split.
  - destruct (B1 NZ) as (f & Lf & ->). exists f. split; [auto|]. unfold face_point. pose proof (sqd_triangle_ok (W i) _ _ _ (PR f Lf)) as K. destruct (sqd_triangle (W i) _ _ _) as [q [[x y] z]]. destruct K as (K1 & K2 & K3 & K4 & _). exists x, y, z. auto.
  - intros w (f & Lf & k & l & h & HK & HL & HM & E & ->). eapply Rle_trans; [apply (B2 f Lf)|]. unfold face_point. pose proof (sqd_triangle_ok (W i) _ _ _ (PR f Lf)) as K. destruct (sqd_triangle (W i) _ _ _) as [q [[x y] z]]. destruct K as (K1 & K2 & K3 & K4 & K5 & K6).
    unfold dist, norm3. apply sqrt_le_1_alt. change (d2 (W i) (conv3 (V (F f 0%nat)) (V (F f 1%nat)) (V (F f 2%nat)) x y z) <= d2 (W i) (conv3 (V (F f 0%nat)) (V (F f 1%nat)) (V (F f 2%nat)) k l h))%R. rewrite <- K5. apply K6; auto.
Qed.
Definition witness : igl := {|
  unique_edge_map := fun F m => (length (firsts F m), tables F m);
  decimate := fun cb V F n m => {| rU := V; rG := F; rI := fun i => i; rn := n; rm := m; merges := [] |};
  flip_edge := igl_flip; adjacency_list := fun _ _ _ => []; per_vertex_normals := fun _ _ _ _ => (0, 0, 1)%R;
  point_mesh_distance := fun n m W V F i => best (W i) (face_point V F (W i)) m |}.
(** All contracts can be met: edge tables for every oriented edge-manifold, nearest points for every mesh without degenerate faces (decimate by doing nothing).  The tetrahedron meets the other hypotheses of C87_remesh. *)
Theorem C87_example : igl_ok witness /\ (forall V F m, m <> 0 -> proper V F m -> forall n, closest_on_mesh V F m n (point_mesh_distance witness n m))
  /\ omesh tetF 4 4 /\ proper tetV tetF 4 /\ (forall v, v < 4 -> referenced tetF 4 v).
Proof.
  split; [constructor|split; [|split; [|split]]].
  - intros F m n HO. cbn [unique_edge_map witness fst snd]. split; [apply (tables_coherent F m n HO)|apply (tables_once F m n HO)].
  - exact igl_flip_ok.
  - intros cb V F n m HO. cbv zeta. cbn [decimate witness rG rm rn rI merges rU]. split; [auto|]. split; [auto|]. set (M0 := {| cV := V; cF := F; cE := fun _ => (0, 0); cEMAP := fun _ => 0; cEF := fun _ _ => 0; cEI := fun _ _ => 0 |}). exists M0, (fun o => o), M0. split; [reflexivity|]. split; [|split].
    + exists []. cbn [merges rn rI rU]. split; [constructor|]. split; [|auto]. intros s L. auto.
    + intros v L _ R. exists v. auto.
    + auto.
  - intros V F m NZ PR n. apply brute_ok; auto.
  - exact tet_omesh.
  - intros f Lf. assert (f = 0 \/ f = 1 \/ f = 2 \/ f = 3) as [->|[->|[->| ->]]] by lia; cbn [tetF tetV nth]; unfold cross3, sub3, zero3, X, Y, Zc; cbn [fst snd]; intros Q; injection Q; intros; lra.
  - intros v Lv. assert (v = 0 \/ v = 1 \/ v = 2 \/ v = 3) as [->|[->|[->| ->]]] by lia; [exists 1|exists 0|exists 0|exists 0]; apply tet_edge; cbn; tauto.
Qed.

(** -- the no-op -- *)
Lemma no_merges cb n M0 r rep M : decimated cb n M0 r rep M -> merges r = [] -> (forall v, rep v = v) /\ (forall v, cV M v = cV M0 v).
Proof. intros (hist & R & _) E. revert E. generalize (merges r), R. clear. intros l R. destruct R; [auto|]. intros Q. apply app_eq_nil in Q. destruct Q. discriminate. Qed.
Lemma all_there (I : nat -> nat) n N : (forall v, v < n -> v < N /\ I v = v) -> (forall s, s < N -> I s < n) -> (forall s t, s < N -> t < N -> I s = I t -> s = t) -> N = n.
Proof.
  intros A B C. destruct (Nat.lt_trichotomy N n) as [L|[E|L]]; [|auto|].
  - destruct (A N L). lia.
  - pose proof (B n L) as Q. destruct (A _ Q) as (Q1 & Q2). assert (I n = n) by (apply C; auto). lia.
Qed.
Lemma noop_iteration g cf project Vr Fr mr featE0 n m x : igl_ok g -> inv n (mV x) x -> vn x = n -> fm x = m -> mfe x = [] ->
  exists K x', (forall uf, K <= uf -> iteration g cf uf project Vr Fr mr Vr featE0 x = Some x') /\ vn x' = n /\ fm x' = m /\ mfe x' = [] /\ mfeature x' = seq 0 n /\ (forall v, v < n -> mV x' v = mV x v) /\ (forall f c, f < m -> c < 3 -> mF x' f c = mF x f c).
Proof.
  intros IG IV EN EM EF. unfold iteration. destruct (ig_tables _ IG _ _ _ (in_mesh _ _ _ IV)) as (HC & ON). set (t := unique_edge_map g (mF x) (fm x)) in *. set (st0 := {| V := mV x; F := mF x; high := mhigh x; low := mlow x; ed := snd t |}).
  rewrite EF, (in_feat _ _ _ IV), EN, EM. pose proof (in_mesh _ _ _ IV) as HO. rewrite EN, EM in HO. rewrite EM in HC.
  assert (FE : filter (to_split (seq 0 n) [] st0) (seq 0 (fst t)) = []).
  { destruct (filter (to_split (seq 0 n) [] st0) (seq 0 (fst t))) as [|u l] eqn:E; [auto|]. exfalso. assert (I : In u (filter (to_split (seq 0 n) [] st0) (seq 0 (fst t)))) by (rewrite E; left; auto). apply filter_In in I. destruct I as (I & T). apply in_seq in I. assert (L : u < fst t) by lia.
    apply (to_split_spec n m (fst t) st0) in T; auto. destruct T as (_ & _ & _ & [(T & _)|[[]|[]]]). apply T. apply in_seq. destruct (ue_range _ _ _ _ _ _ HO HC L). cbn [ed st0]. lia. }
  unfold split_edges_until_bound. rewrite FE. cbn [sn sm sst sfe st0 V F high low ed].
  set (cb := cost_and_placement cf m (seq 0 n) [] (mhigh x) (mlow x) (adjacency_list g (mF x) m)).
  destruct (ig_decimate _ IG cb (mV x) (mF x) n m HO) as (HG & INC & M0 & rep & M & EV & DM & CO & NOP). set (r := decimate g cb (mV x) (mF x) n m) in *. clearbody r.
  assert (ME : merges r = []).
  { destruct (merges r) as [|(a, b) l] eqn:E; [auto|]. exfalso. destruct (C86_merges _ _ _ _ _ _ _ _ _ _ _ _ DM a b) as (La & _ & _ & K0 & p & RU); [rewrite E; left; auto|]. destruct (ru_free _ _ _ _ _ _ _ _ _ RU) as (Q & _). apply Q. apply in_seq. lia. }
  destruct (no_merges _ _ _ _ _ _ DM ME) as (RI & CV). destruct (NOP ME) as (RM & RF).
  assert (SURV : forall v, v < n -> exists s0, s0 < rn r /\ rI r s0 = v) by (intros v Lv; destruct (CO v Lv (RI v)) as (s0 & A & B & _); [rewrite <- EM; apply (in_ref _ _ _ IV); auto|eauto]).
  assert (ID : forall v, v < n -> v < rn r /\ rI r v = v) by (apply first_ids; auto).
  pose proof DM as (hist & _ & OUT & INJ). assert (RN : rn r = n) by (apply (all_there (rI r)); [auto|intros s L; destruct (OUT s L); auto|auto]).
  assert (GF : forall f c, f < m -> c < 3 -> rG r f c = mF x f c).
  { intros f c Lf Lc. rewrite <- (RF f c Lf Lc). symmetry. apply ID. rewrite <- RN. apply (om_range _ _ _ HG); auto. rewrite RM. auto. }
  destruct (C86_output _ _ _ _ _ _ _ _ _ _ _ _ DM) as (K & HK); [intros v I; apply in_seq in I; lia|intros a b []|]. destruct (HK K (Nat.le_refl _)) as (o & EO & ON' & OV & OF & OS & SO & _ & OE).
  assert (FEAT : ofeature o = seq 0 n).
  { apply (forall2_seq (rI r) n (rn r)); [auto|auto|intros s0 I; apply OF in I; tauto|]. assert (F2 : Forall2 (fun v s => rI r s = v /\ oV o s = cV M0 v) (seq 0 n) (ofeature o)) by (apply OS; intros v I; apply in_seq in I; apply SURV; lia).
    clear -F2. induction F2 as [|v s l l' (Q & _) F2 IH]; constructor; auto. }
  assert (FNIL : ofe o = []). { destruct (ofe o) as [|(a, b) l] eqn:E; [auto|]. exfalso. destruct (OE a b) as (Q & _). destruct Q as (_ & _ & _ & a' & b' & [[]|[]] & _). left. left. auto. }
  assert (OG : oF o = rG r /\ om o = rm r) by (clear -EO; unfold collapse_edges in EO; destruct (birth2new K n r); [|discriminate]; cbn [bindo] in EO; injection EO as <-; auto). destruct OG as (OG & OMM).
  exists K. eexists. split; [intros uf LU; rewrite (collapse_mono _ _ _ _ _ _ _ _ _ LU EO); cbn [bindo]; reflexivity|]. cbn [vn fm mfe mfeature mV mF]. rewrite OG, OMM, ON', FEAT, FNIL, RN, RM.
  rewrite RM, RN in HG. destruct (ig_tables _ IG _ _ _ HG) as (HC2 & ON2). split; [auto|]. split; [auto|]. split; [auto|]. split; [auto|]. split.
  - intros v Lv. unfold tangential_relaxation. rewrite (proj2 (Nat.ltb_lt v n) Lv). cbn [negb]. rewrite (proj2 (fixed_spec _ _ _)) by (left; apply in_seq; lia). destruct (OV v) as (-> & _); [lia|]. destruct (ID v Lv) as (_ & ->). rewrite CV, EV. auto.
  - intros f c Lf Lc. rewrite (C84_all_features (flip_edge g) m n _ (oV o) (seq 0 n) [] (rG r) _ (ig_flip _ IG) HG HC2 ON2); auto. intros v Lv. apply in_seq. lia.
Qed.
Lemma referenced_eq F G m v : (forall f c, f < m -> c < 3 -> G f c = F f c) -> referenced F m v -> referenced G m v.
Proof. intros E (y & f & c & Lf & Lc & Q). exists y, f, c. split; [auto|]. split; [auto|]. destruct (mod3 c Lc) as (M1 & M2 & _). unfold he in *. rewrite !E; auto. Qed.
Lemma omesh_eq F G m n : (forall f c, f < m -> c < 3 -> G f c = F f c) -> omesh F m n -> omesh G m n.
Proof.
  intros E [A B C D]. assert (H : forall f c, f < m -> c < 3 -> he G f c = he F f c) by (intros f c Lf Lc; destruct (mod3 c Lc) as (M1 & M2 & _); unfold he; rewrite !E; auto).
  constructor; intros; repeat rewrite E in * by auto; repeat rewrite H in * by auto; eauto.
Qed.
(** The warning of the Python wrapper ("this call will be a no-op") is right when all vertices are features and no feature edges are given. *)
Theorem C87_noop g cf V F n m h iters project : igl_ok g -> omesh F m n -> (forall v, v < n -> referenced F m v) ->
  exists K out, (forall uf, K <= uf -> remesh g cf uf V F n m h iters (seq 0 n) [] project = Some out)
    /\ vn out = n /\ fm out = m /\ (forall v, v < n -> mV out v = V v) /\ (forall f c, f < m -> c < 3 -> mF out f c = F f c).
Proof.
  intros IG HO RF. unfold remesh. set (x0 := {| vn := n; fm := m; mV := V; mF := F; mhigh := _; mlow := _; mfeature := _; mfe := _ |}).
  assert (G : forall k x, vn x = n -> fm x = m -> mfe x = [] -> mfeature x = seq 0 n -> (forall v, v < n -> mV x v = V v) -> (forall f c, f < m -> c < 3 -> mF x f c = F f c) ->
    exists K x', (forall uf, K <= uf -> iterations k (iteration g cf uf project V F m V []) x = Some x') /\ vn x' = n /\ fm x' = m /\ (forall v, v < n -> mV x' v = V v) /\ (forall f c, f < m -> c < 3 -> mF x' f c = F f c)).
  { induction k as [|k IH]; intros x E1 E2 E3 E4 E5 E6; cbn [iterations]; [exists 0, x; auto|].
    assert (IV : inv n (mV x) x). { constructor; auto; [rewrite E1, E2; apply (omesh_eq F); auto|intros i Li; rewrite E2; apply (referenced_eq F); auto|rewrite E3; intros a b []]. }
    destruct (noop_iteration g cf project V F m [] n m x IG IV E1 E2 E3) as (K1 & x1 & I1 & A1 & A2 & A3 & A4 & A5 & A6). destruct (IH x1) as (K2 & x2 & I2 & R); auto; [intros v L; rewrite A5, E5; auto|intros f c L1 L2; rewrite A6, E6; auto|].
    exists (K1 + K2), x2. split; [|exact R]. intros uf LU. rewrite I1 by lia. cbn [bindo]. apply I2. lia. }
  apply G; auto.
Qed.
(** It is wrong when a feature edge is given: a long one is still split, whatever libigl does within its contracts. *)
Theorem C87_noop_refuted g cf project : igl_ok g -> exists K out, (forall uf, K <= uf -> remesh g cf uf tetV tetF 4 4 (1 / 2) 1 (seq 0 4) [(1, 2)] project = Some out) /\ vn out = 5.
Proof.
  intros IG. unfold remesh. cbn [iterations]. unfold iteration. cbn [vn fm mV mF mhigh mlow mfeature mfe].
  destruct (ig_tables _ IG _ _ _ tet_omesh) as (HC & ON). set (t := unique_edge_map g tetF 4) in *. set (st0 := {| V := tetV; F := tetF; high := fun _ => (1.4 * (1 / 2))%R; low := fun _ => (0.7 * (1 / 2))%R; ed := snd t |}).
  destruct (C83_split 4 4 (fst t) st0 (seq 0 4) [(1, 2)] tet_omesh HC ON) as (L & ND & SY & TL & N1 & N2 & HO & _ & _ & _ & ED & NEW & _). cbv zeta in *. set (s := split_edges_until_bound 4 4 (fst t) st0 (seq 0 4) [(1, 2)]) in *.
  assert (FR : forall a b, In (a, b) (sfe s) -> a < sn s /\ b < sn s).
  { clear N1 N2 HO ED NEW. unfold s, split_edges_until_bound. destruct (filter (to_split (seq 0 4) [(1, 2)] st0) (seq 0 (fst t))) as [|u es] eqn:ES; cbn [sfe sn]; [intros a b [Q|[]]; injection Q as <- <-; lia|]. apply split_features_range; [intros a b [Q|[]]; injection Q as <- <-; lia| |lia].
    intros w I. rewrite <- ES in I. apply filter_In in I. destruct I as (I & _). apply in_seq in I. apply (ue_range _ _ _ _ _ _ tet_omesh HC). lia. }
  clearbody s.
  assert (T12 : too_long 4 st0 (seq 0 4) [(1, 2)] 1 2).
  { split; [apply tet_edge; cbn; tauto|]. split; [apply tet_edge; cbn; tauto|]. split; [|right; left; left; auto]. cbn [high V st0]. rewrite tet_len12. pose proof sqrt2_bound. lra. }
  assert (ONLY : forall x y, In (x, y) L -> (x = 1 /\ y = 2) \/ (x = 2 /\ y = 1)).
  { intros x y I. assert (T : too_long 4 st0 (seq 0 4) [(1, 2)] x y) by (apply TL; auto). destruct T as (E & _ & _ & [(Q & _)|[[Q|[]]|[Q|[]]]]); [|injection Q as <- <-; auto|injection Q as <- <-; auto].
    exfalso. apply Q. apply in_seq. destruct (edge_range _ _ _ _ _ tet_omesh E). lia. }
  assert (LL : exists x y, L = [(x, y)] /\ ((x = 1 /\ y = 2) \/ (x = 2 /\ y = 1))).
  { destruct L as [|(x, y) [|(x', y') l]]; [apply TL in T12; destruct T12 as [[]|[]]|exists x, y; split; [auto|apply ONLY; left; auto]|]. exfalso.
    assert (Q : (x, y) = (x', y')) by (apply SY; [left; auto|right; left; auto|]; destruct (ONLY x y (or_introl eq_refl)) as [(-> & ->)|(-> & ->)], (ONLY x' y' (or_intror (or_introl eq_refl))) as [(-> & ->)|(-> & ->)]; auto).
    inversion ND as [|? ? NI _]; subst. apply NI. rewrite Q. left. auto. }
  destruct LL as (x & y & EL & XY). rewrite EL in *. cbn [length] in N1, N2. replace (4 + 1) with 5 in N1 by reflexivity. replace (4 + 2 * 1) with 6 in N2 by reflexivity. rewrite N1, N2 in *.
  destruct (NEW 0 x y eq_refl) as (_ & _ & _ & E1 & E2 & E3 & E4). change (4 + 0) with 4 in *.
  assert (REF : forall v, v < 5 -> referenced (F (sst s)) 6 v).
  { intros v Lv. assert (v = 0 \/ v = 1 \/ v = 2 \/ v = 3 \/ v = 4) as [->|[->|[->|[->| ->]]]] by lia.
    - exists 3. apply ED; [lia|lia|]. split; [apply tet_edge; cbn; tauto|]. rewrite TL. intros [[Q|[]]|[Q|[]]]; injection Q as -> ->; lia.
    - exists 3. apply ED; [lia|lia|]. split; [apply tet_edge; cbn; tauto|]. rewrite TL. intros [[Q|[]]|[Q|[]]]; injection Q as -> ->; lia.
    - exists 3. apply ED; [lia|lia|]. split; [apply tet_edge; cbn; tauto|]. rewrite TL. intros [[Q|[]]|[Q|[]]]; injection Q as -> ->; lia.
    - exists 0. apply ED; [lia|lia|]. split; [apply tet_edge; cbn; tauto|]. rewrite TL. intros [[Q|[]]|[Q|[]]]; injection Q as -> ->; lia.
    - eexists; exact E2. }
  set (cb := cost_and_placement cf 6 (seq 0 4) (sfe s) (high (sst s)) (low (sst s)) (adjacency_list g (F (sst s)) 6)).
  destruct (ig_decimate _ IG cb (V (sst s)) (F (sst s)) 5 6 HO) as (_ & INC & M0 & rep & M & _ & DM & CO & _). set (r := decimate g cb (V (sst s)) (F (sst s)) 5 6) in *. clearbody r.
  assert (ME : merges r = []).
  { destruct (merges r) as [|(a, b) l] eqn:E; [auto|]. exfalso. destruct (C86_merges _ _ _ _ _ _ _ _ _ _ _ _ DM a b) as (La & Lb & NE & K0 & p & RU); [rewrite E; left; auto|]. destruct (ru_free _ _ _ _ _ _ _ _ _ RU) as (Q & Q').
    rewrite in_seq in Q, Q'. lia. }
  destruct (no_merges _ _ _ _ _ _ DM ME) as (RI & _).
  assert (ID : forall v, v < 5 -> v < rn r /\ rI r v = v) by (apply first_ids; [auto|intros v Lv; destruct (CO v Lv (RI v) (REF v Lv)) as (s0 & A & B & _); eauto]).
  pose proof DM as (hist & _ & OUT & INJ). assert (RN : rn r = 5) by (apply (all_there (rI r)); [auto|intros s0 L0; destruct (OUT s0 L0); auto|auto]).
  destruct (C86_output _ _ _ _ _ _ _ _ _ _ _ _ DM) as (K & HK); [intros v I; apply in_seq in I; lia|exact FR|]. destruct (HK K (Nat.le_refl _)) as (o & EO & ON' & _).
  exists K. eexists. split; [intros uf LU; rewrite (collapse_mono _ _ _ _ _ _ _ _ _ LU EO); cbn [bindo]; reflexivity|]. cbn [vn]. lia.
Qed.
