(** C84: the edge-flipping stage of remesh_botsch (src/cpp/remesher/equalize_valences.cpp) *)
From Coq Require Import Reals Lra List Arith Bool Lia ZArith.
From Verif Require Import Vec SplitModel SplitProofs Split3Proofs Split4Proofs Split5Proofs FlipModel FlipProofs Flip2Proofs Flip3Proofs P_Split.
Import ListNotations.
Open Scope nat_scope.

(** -- specification (with omesh, coherent, once and edge of the splitting stage, flipped, flip_ok and valence of FlipProofs, normal and good_shape of Flip2Proofs) -- *)
(** sum over all vertices of |number of faces at the vertex - 6| *)
Definition deviation (F : nat -> nat -> nat) (m n : nat) : Z := zsum n (fun v => Z.abs (Z.of_nat (valence F m v) - 6)).
(** one admissible flip: no corner of the quadrilateral is a feature vertex, the edge is no feature edge, the new diagonal is not yet an edge, both new faces have positive area and normals within sixty degrees of both old ones, and the valences get closer to six *)
Definition flip_step (m n : nat) (V : nat -> vec3) (feature : list nat) (fe : list (nat * nat)) (F F' : nat -> nat -> nat) : Prop :=
  exists f1 c1 f2 c2, f1 < m /\ c1 < 3 /\ f2 < m /\ c2 < 3 /\ he F f1 c1 = swap (he F f2 c2) /\
  let v1 := F f1 ((c1 + 1) mod 3) in let v2 := F f1 ((c1 + 2) mod 3) in let v4 := F f1 c1 in let v3 := F f2 c2 in
  (forall v, In v [v1; v2; v3; v4] -> ~ In v feature) /\ ~ In (v1, v2) fe /\ ~ In (v2, v1) fe /\ ~ edge F m v3 v4 /\ ~ edge F m v4 v3
  /\ flipped F F' m f1 c1 f2 c2 /\ good_shape (V v1) (V v2) (V v3) (V v4) /\ (deviation F' m n < deviation F m n)%Z.
Inductive flips (m n : nat) (V : nat -> vec3) (feature : list nat) (fe : list (nat * nat)) : (nat -> nat -> nat) -> (nat -> nat -> nat) -> Prop :=
  | no_flip F : flips m n V feature fe F F
  | more_flips F F1 F2 : flips m n V feature fe F F1 -> flip_step m n V feature fe F1 F2 -> flips m n V feature fe F F2.

(** -- proofs -- *)
Record inv (m n k : nat) (st : fstate) : Prop := { i_mesh : omesh (fF st) m n; i_coh : coherent (fF st) m k m (fE st); i_once : once k (fE st);
  i_val : forall v, v < n -> fval st v = Z.of_nat (valence (fF st) m v); i_adj : forall x y, edge (fF st) m x y -> In y (fadj st x) /\ In x (fadj st y) }.
Lemma dev_change F F' m n f1 c1 f2 c2 v1 v2 v3 v4 : omesh F m n -> f1 < m -> c1 < 3 -> f2 < m -> c2 < 3 -> he F f1 c1 = swap (he F f2 c2) ->
  v1 = F f1 ((c1 + 1) mod 3) -> v2 = F f1 ((c1 + 2) mod 3) -> v4 = F f1 c1 -> v3 = F f2 c2 -> flipped F F' m f1 c1 f2 c2 -> let val v := Z.of_nat (valence F m v) in
  (deviation F' m n + (Z.abs (val v1 - 6) + Z.abs (val v2 - 6) + Z.abs (val v4 - 6) + Z.abs (val v3 - 6)) = deviation F m n + (Z.abs (val v1 - 1 - 6) + Z.abs (val v2 - 6 - 1) + Z.abs (val v4 - 6 + 1) + Z.abs (val v3 - 6 + 1)))%Z.
Proof.
  intros HO L1 K1 L2 K2 HR V1 V2 V4 V3 HF val. pose proof (flip_valence F F' m n f1 c1 f2 c2 v1 v2 v3 v4 HO L1 K1 L2 K2 HR V1 V2 V4 V3 HF) as VAL.
  destruct (fdist F m n f1 c1 f2 c2 HO L1 K1 L2 K2 HR _ _ _ _ v1 v2 v3 v4 eq_refl eq_refl eq_refl eq_refl V1 V2 V4 V3) as (Z1 & Z2 & Z3 & Z4 & Z5 & Z6 & W1 & W2 & W3 & W4).
  unfold deviation. set (g := fun v => Z.abs (val v - 6)).
  assert (EX : zsum n (fun v => Z.abs (Z.of_nat (valence F' m v) - 6)) = zsum n (set1 (set1 (set1 (set1 g v1 (Z.abs (val v1 - 1 - 6))) v2 (Z.abs (val v2 - 6 - 1))) v3 (Z.abs (val v3 - 6 + 1))) v4 (Z.abs (val v4 - 6 + 1)))).
  { apply zsum_ext. intros v Lv. specialize (VAL v). unfold set1, g, val. destruct (Nat.eqb_spec v v4), (Nat.eqb_spec v v3), (Nat.eqb_spec v v2), (Nat.eqb_spec v v1); try congruence; try subst v; cbn [b2n] in VAL; f_equal; clear -VAL; lia. }
  rewrite EX, !zsum_set by auto. unfold set1. rewrite (proj2 (Nat.eqb_neq v2 v1)), (proj2 (Nat.eqb_neq v3 v2)), (proj2 (Nat.eqb_neq v3 v1)), (proj2 (Nat.eqb_neq v4 v3)), (proj2 (Nat.eqb_neq v4 v2)), (proj2 (Nat.eqb_neq v4 v1)) by congruence. change (fun v : nat => Z.abs (Z.of_nat (valence F m v) - 6)) with g. unfold g. clear. lia.
Qed.
Lemma one_flip flip m n k V feature fe i st : flip_ok flip -> i < k -> inv m n k st ->
  inv m n k (equalize_one flip m V feature fe st i) /\ (equalize_one flip m V feature fe st i = st \/ flip_step m n V feature fe (fF st) (fF (equalize_one flip m V feature fe st i))).
Proof.
  intros FO Li IV. destruct (Nat.eqb_spec (size (fE st) i) 2) as [S2|S2]; [|unfold equalize_one; apply Nat.eqb_neq in S2; rewrite S2; cbn [negb]; auto].
  unfold equalize_one. rewrite S2. cbn [Nat.eqb negb]. destruct IV as [HO HC ON HV HA].
  destruct (co_one _ _ _ _ _ HC i Li) as (f1 & c1 & L1 & K1 & S0 & E1 & UE). destruct (co_two _ _ _ _ _ HC i Li S2) as (g1 & d1 & f2 & c2 & Lg & Ld & L2 & K2 & T0 & S1 & E2 & HR). rewrite S0 in T0. apply enc_inj in T0; auto. destruct T0 as (<- & <-). clear Lg Ld.
  rewrite S0, S1, !enc_mod, !enc_div by auto. cbv zeta. set (F := fF st) in *.
  remember ((c1 + 1) mod 3) as c1' eqn:D1. remember ((c1 + 2) mod 3) as c1'' eqn:D1'. remember (F f1 c1') as v1 eqn:V1. remember (F f1 c1'') as v2 eqn:V2. remember (F f1 c1) as v4 eqn:V4. remember (F f2 c2) as v3 eqn:V3.
  match goal with |- context [if ?b then st else _] => destruct b eqn:EF end; [split; [constructor; auto|auto]|].
  match goal with |- context [if ?b then _ else st] => destruct b eqn:ED end; [|split; [constructor; auto|auto]].
  unfold flip_edge_adjacency. fold F. rewrite S0, S1, !enc_mod, !enc_div by auto. rewrite <- D1, <- D1', <- V1, <- V2, <- V3, <- V4. cbv zeta.
  match goal with |- context [if ?b then st else _] => destruct b eqn:EB end; [split; [constructor; auto|auto]|].
  apply orb_false_iff in EB. destruct EB as (EB & _). apply orb_false_iff in EB. destruct EB as (SH & NADJ). apply shape_ok in SH. apply orb_false_iff in EF. destruct EF as (NFE & NFV).
  assert (NA : ~ In v4 (fadj st v3)) by (intros I; assert (existsb (Nat.eqb v4) (fadj st v3) = true) by (apply existsb_exists; exists v4; rewrite Nat.eqb_refl; auto); congruence).
  assert (N34 : ~ edge F m v3 v4) by (intros E; apply HA in E; tauto). assert (N43 : ~ edge F m v4 v3) by (intros E; apply HA in E; tauto).
  destruct (FO F (fE st) m n k i f1 c1 f2 c2 HO HC ON Li S2 L1 K1 L2 K2 S0 S1 ltac:(rewrite <- V3, <- V4; exact N34) ltac:(rewrite <- V3, <- V4; exact N43)) as (HF & HC' & ON').
  remember (fst (flip F (fE st) m i)) as F' eqn:EF'. remember (snd (flip F (fE st) m i)) as e' eqn:Ee'. cbn [fF].
  pose proof (flip_omesh F F' m n f1 c1 f2 c2 HO L1 K1 L2 K2 HR c1' c1'' _ _ v1 v2 v3 v4 D1 D1' eq_refl eq_refl V1 V2 V4 V3 N34 N43 HF) as HO'.
  pose proof (flip_edges F F' m n f1 c1 f2 c2 HO L1 K1 L2 K2 HR c1' c1'' _ _ v1 v2 v3 v4 D1 D1' eq_refl eq_refl V1 V2 V4 V3 HF) as HE'.
  destruct (fdist F m n f1 c1 f2 c2 HO L1 K1 L2 K2 HR c1' c1'' _ _ v1 v2 v3 v4 D1 D1' eq_refl eq_refl V1 V2 V4 V3) as (Z1 & Z2 & Z3 & Z4 & Z5 & Z6 & W1 & W2 & W3 & W4).
  assert (VAL : forall v, valence F' m v + b2n (v =? v1) + b2n (v =? v2) = valence F m v + b2n (v =? v3) + b2n (v =? v4)) by (apply (flip_valence F F' m n f1 c1 f2 c2); auto; congruence).
  assert (BV : forall v, bump (bump (bump (bump (fval st) v1 (-1)) v2 (-1)) v3 1) v4 1 v = (fval st v + (if Nat.eqb v v1 then -1 else if Nat.eqb v v2 then -1 else if Nat.eqb v v3 then 1 else if Nat.eqb v v4 then 1 else 0))%Z).
  { intros v. unfold bump, set1. rewrite (proj2 (Nat.eqb_neq v2 v1)), (proj2 (Nat.eqb_neq v3 v2)), (proj2 (Nat.eqb_neq v3 v1)), (proj2 (Nat.eqb_neq v4 v3)), (proj2 (Nat.eqb_neq v4 v2)), (proj2 (Nat.eqb_neq v4 v1)) by congruence.
    destruct (Nat.eqb_spec v v4), (Nat.eqb_spec v v3), (Nat.eqb_spec v v2), (Nat.eqb_spec v v1); try congruence; clear; lia. }
  assert (VN : forall v, v < n -> bump (bump (bump (bump (fval st) v1 (-1)) v2 (-1)) v3 1) v4 1 v = Z.of_nat (valence F' m v)).
  { intros v Lv. rewrite BV, (HV v Lv). pose proof (VAL v) as Q. destruct (Nat.eqb_spec v v1), (Nat.eqb_spec v v2), (Nat.eqb_spec v v3), (Nat.eqb_spec v v4); cbn [b2n] in Q; try congruence; clear -Q; lia. }
  split.
  - constructor; cbn [fF fE fval fadj]; auto. intros x y E. apply HE' in E.
    assert (KEEP : forall a b, In b (fadj st a) -> In b (set1 (set1 (fadj st) v3 (fadj st v3 ++ [v4])) v4 (set1 (fadj st) v3 (fadj st v3 ++ [v4]) v4 ++ [v3]) a)).
    { intros a b I. unfold set1. rewrite (proj2 (Nat.eqb_neq v4 v3) Z6). destruct (Nat.eqb_spec a v4) as [->|]; [apply in_or_app; auto|]. destruct (Nat.eqb_spec a v3) as [->|]; [apply in_or_app; auto|auto]. }
    assert (NEW : In v4 (set1 (set1 (fadj st) v3 (fadj st v3 ++ [v4])) v4 (set1 (fadj st) v3 (fadj st v3 ++ [v4]) v4 ++ [v3]) v3) /\ In v3 (set1 (set1 (fadj st) v3 (fadj st v3 ++ [v4])) v4 (set1 (fadj st) v3 (fadj st v3 ++ [v4]) v4 ++ [v3]) v4)).
    { unfold set1. rewrite (proj2 (Nat.eqb_neq v3 v4)) by congruence. rewrite !Nat.eqb_refl. split; apply in_or_app; right; left; auto. }
    destruct E as [(E & _)|[E|E]]; [apply HA in E; destruct E; split; apply KEEP; auto|injection E as -> ->; tauto|injection E as -> ->; tauto].
  - right. exists f1, c1, f2, c2. split; [auto|]. split; [auto|]. split; [auto|]. split; [auto|]. split; [exact HR|]. cbv zeta. rewrite <- D1, <- D1', <- V1, <- V2, <- V3, <- V4.
    assert (NFE' : forall r, In r fe -> same_edge (v1, v2) r = false) by (intros r I; destruct (same_edge (v1, v2) r) eqn:SE; [|auto]; assert (existsb (same_edge (v1, v2)) fe = true) by (apply existsb_exists; exists r; auto); congruence).
    split; [|split; [|split; [|split; [exact N34|split; [exact N43|split; [exact HF|split; [exact SH|]]]]]]].
    + assert (NF : forall v, existsb (Nat.eqb v) feature = false -> ~ In v feature) by (intros v E I; apply isf_spec in I; congruence). rewrite !orb_false_iff in NFV. intros v [<-|[<-|[<-|[<-|[]]]]]; apply NF; tauto.
    + intros I. specialize (NFE' _ I). rewrite same_edge_refl in NFE'. discriminate.
    + intros I. specialize (NFE' _ I). assert (same_edge (v1, v2) (v2, v1) = true) by (apply same_edge_spec; auto). congruence.
    + apply Z.ltb_lt in ED. pose proof (dev_change F F' m n f1 c1 f2 c2 v1 v2 v3 v4 HO L1 K1 L2 K2 HR ltac:(congruence) ltac:(congruence) V4 V3 HF) as DC. cbv beta zeta in DC. rewrite <- !HV in DC by auto. clear -DC ED. lia.
Qed.
Lemma all_flips flip m n k V feature fe F0 : flip_ok flip -> forall l st, (forall i, In i l -> i < k) -> inv m n k st -> flips m n V feature fe F0 (fF st) ->
  inv m n k (fold_left (equalize_one flip m V feature fe) l st) /\ flips m n V feature fe F0 (fF (fold_left (equalize_one flip m V feature fe) l st)).
Proof.
  intros FO. induction l as [|i l IH]; intros st LL IV FL; cbn [fold_left]; [auto|]. destruct (one_flip flip m n k V feature fe i st FO (LL i (or_introl eq_refl)) IV) as (IV' & [E|ST]).
  - rewrite E. apply IH; [intros j I; apply LL; right; auto|auto|auto].
  - apply IH; [intros j I; apply LL; right; auto|auto|eapply more_flips; eauto].
Qed.

(** For every oriented edge-manifold mesh the faces returned come from the given ones by a sequence of admissible flips; the mesh and its tables stay an oriented edge-manifold with its tables. *)
Theorem C84_flips flip m n k V feature fe F e : flip_ok flip -> omesh F m n -> coherent F m k m e -> once k e ->
  let out := equalize_valences flip m V feature fe k F e in flips m n V feature fe F (fF out) /\ omesh (fF out) m n /\ coherent (fF out) m k m (fE out) /\ once k (fE out).
Proof.
  intros FO HO HC ON out. destruct (all_flips flip m n k V feature fe F FO (seq 0 k) {| fF := F; fE := e; fval := face_counts F m; fadj := neighbours F m |}) as ([A B C D E] & FL).
  - intros i I. apply in_seq in I. lia.
  - constructor; cbn [fF fE fval fadj]; auto; [intros v _; eapply face_counts_ok; eauto|apply neighbours_ok].
  - apply no_flip.
  - auto.
Qed.

(** What such a sequence leaves alone: every face at a feature vertex, every feature edge, every boundary edge; the sum of the deviations from valence six drops unless nothing changes at all, and every changed face has positive area. *)
Theorem C84_effects flip m n k V feature fe F e : flip_ok flip -> omesh F m n -> coherent F m k m e -> once k e ->
  let F' := fF (equalize_valences flip m V feature fe k F e) in
  (forall f c0, f < m -> c0 < 3 -> In (F f c0) feature -> forall c, c < 3 -> F' f c = F f c)
  /\ (forall a b, In (a, b) fe \/ In (b, a) fe -> edge F m a b -> edge F' m a b)
  /\ (forall a b, edge F m a b /\ ~ edge F m b a <-> edge F' m a b /\ ~ edge F' m b a)
  /\ ((forall f c, f < m -> c < 3 -> F' f c = F f c) \/ (deviation F' m n < deviation F m n)%Z)
  /\ (forall f, f < m -> (forall c, c < 3 -> F' f c = F f c) \/ (0 < area2 V F' f)%R).
Proof.
  intros FO HO HC ON F'. destruct (C84_flips flip m n k V feature fe F e FO HO HC ON) as (FL & _). fold F' in FL. clearbody F'. clear FO HC ON.
  assert (G : omesh F' m n /\ (forall f c0, f < m -> c0 < 3 -> In (F f c0) feature -> forall c, c < 3 -> F' f c = F f c) /\ (forall a b, In (a, b) fe \/ In (b, a) fe -> edge F m a b -> edge F' m a b)
    /\ (forall a b, edge F m a b /\ ~ edge F m b a <-> edge F' m a b /\ ~ edge F' m b a) /\ ((forall f c, f < m -> c < 3 -> F' f c = F f c) \/ (deviation F' m n < deviation F m n)%Z) /\ (deviation F' m n <= deviation F m n)%Z
    /\ (forall f, f < m -> (forall c, c < 3 -> F' f c = F f c) \/ (0 < area2 V F' f)%R)); [|tauto].
  induction FL as [F|F F1 F2 FL IH ST].
  - split; [auto|]. split; [auto|]. split; [auto|]. split; [tauto|]. split; [auto|]. split; [lia|auto].
  - destruct (IH HO) as (HO1 & A1 & A2 & A3 & A4 & A5 & A6). destruct ST as (f1 & c1 & f2 & c2 & L1 & K1 & L2 & K2 & HR & ST). cbv zeta in ST.
    remember (F1 f1 ((c1 + 1) mod 3)) as v1 eqn:V1. remember (F1 f1 ((c1 + 2) mod 3)) as v2 eqn:V2. remember (F1 f1 c1) as v4 eqn:V4. remember (F1 f2 c2) as v3 eqn:V3. destruct ST as (NF & NE1 & NE2 & N34 & N43 & HF & SH & DV).
    pose proof (flip_omesh F1 F2 m n f1 c1 f2 c2 HO1 L1 K1 L2 K2 HR _ _ _ _ v1 v2 v3 v4 eq_refl eq_refl eq_refl eq_refl V1 V2 V4 V3 N34 N43 HF) as HO2.
    pose proof (flip_edges F1 F2 m n f1 c1 f2 c2 HO1 L1 K1 L2 K2 HR _ _ _ _ v1 v2 v3 v4 eq_refl eq_refl eq_refl eq_refl V1 V2 V4 V3 HF) as HE.
    destruct (fnew F1 F2 m f1 c1 f2 c2 _ _ v1 v2 v3 v4 eq_refl eq_refl V1 V2 V4 V3 HF) as (B1 & B2 & B3 & B4 & B5 & B6 & BO).
    destruct (fold_he F1 f1 c1 f2 c2 K1 K2 HR _ _ _ _ v1 v2 v3 v4 eq_refl eq_refl eq_refl eq_refl V1 V2 V4 V3) as (H1 & H2 & _). destruct (fvb F1 f1 c1 f2 c2 HR _ _ _ _ v1 v2 eq_refl eq_refl eq_refl eq_refl V1 V2) as (W1 & W2).
    assert (E12 : edge F1 m v1 v2) by (exists f1, c1; auto). assert (E21 : edge F1 m v2 v1) by (exists f2, c2; auto).
    split; [exact HO2|]. split; [|split; [|split; [|split; [right; lia|split; [lia|]]]]].
    + intros f c0 Lf Lc0 I c Lc. rewrite <- (A1 f c0 Lf Lc0 I c Lc). apply BO; auto; intros ->.
      * rewrite <- (A1 f1 c0 Lf Lc0 I c0 Lc0) in I. destruct (mod3 c1 K1) as (_ & _ & _ & _ & _ & _ & _ & _ & _ & _ & XX). destruct (XX c0 Lc0) as [E|[E|E]]; rewrite E in I; [rewrite <- V4 in I|rewrite <- V1 in I|rewrite <- V2 in I]; eapply NF; eauto; cbn; auto.
      * rewrite <- (A1 f2 c0 Lf Lc0 I c0 Lc0) in I. destruct (mod3 c2 K2) as (_ & _ & _ & _ & _ & _ & _ & _ & _ & _ & XX). destruct (XX c0 Lc0) as [E|[E|E]]; rewrite E in I; [rewrite <- V3 in I|rewrite W1 in I|rewrite W2 in I]; eapply NF; eauto; cbn; auto.
    + intros a b Q E. apply HE. left. split; [apply A2; auto|]. split; intros X; injection X as -> ->; tauto.
    + assert (SYM : forall x y, edge F1 m x y /\ ~ edge F1 m y x <-> edge F2 m x y /\ ~ edge F2 m y x).
      { intros x y. rewrite !HE. split.
        - intros (P & Q). assert (X1 : (x, y) <> (v1, v2)) by (intros X; injection X as -> ->; auto). assert (X2 : (x, y) <> (v2, v1)) by (intros X; injection X as -> ->; auto). split; [left; auto|]. intros [(R & _)|[R|R]]; [auto|injection R as -> ->; auto|injection R as -> ->; auto].
        - intros ([(P & P1 & P2)|[P|P]] & Q); [split; [auto|]; intros R; apply Q; left; split; [auto|]; split; intros X; injection X as -> ->; auto| |]; exfalso; apply Q; right; injection P as -> ->; auto. }
      intros a b. rewrite A3. apply SYM.
    + destruct SH as (S1 & S2 & _). intros f Lf. destruct (fcases m f1 f2 f Lf) as [->|[->|(X1 & X2)]].
      * right. unfold area2, tri_area2. rewrite B1, B2, B3. apply S1.
      * right. unfold area2, tri_area2. rewrite B4, B5, B6. apply S2.
      * destruct (A6 f Lf) as [Q|Q]; [left; intros c Lc; rewrite BO by auto; auto|right; unfold area2 in *; rewrite !BO by (auto; lia); exact Q].
Qed.

(** -- progress -- *)
Lemma flips_mono m n V feature fe F F' : flips m n V feature fe F F' -> (deviation F' m n <= deviation F m n)%Z.
Proof. induction 1 as [F|F F1 F2 FL IH ST]; [lia|]. destruct ST as (f1 & c1 & f2 & c2 & _ & _ & _ & _ & _ & ST). cbv zeta in ST. destruct ST as (_ & _ & _ & _ & _ & _ & _ & DV). lia. Qed.
Lemma must_flip flip m n k V feature fe i st f1 c1 f2 c2 F2 : inv m n k st -> (forall x y, In y (fadj st x) -> edge (fF st) m x y \/ edge (fF st) m y x) -> size (fE st) i = 2 ->
  f1 < m -> c1 < 3 -> f2 < m -> c2 < 3 -> slot (fE st) i 0 = f1 + c1 * m -> slot (fE st) i 1 = f2 + c2 * m -> he (fF st) f1 c1 = swap (he (fF st) f2 c2) ->
  (let F := fF st in let v1 := F f1 ((c1 + 1) mod 3) in let v2 := F f1 ((c1 + 2) mod 3) in let v4 := F f1 c1 in let v3 := F f2 c2 in
   (forall v, In v [v1; v2; v3; v4] -> ~ In v feature) /\ ~ In (v1, v2) fe /\ ~ In (v2, v1) fe /\ ~ edge F m v3 v4 /\ ~ edge F m v4 v3 /\ flipped F F2 m f1 c1 f2 c2 /\ good_shape (V v1) (V v2) (V v3) (V v4) /\ (deviation F2 m n < deviation F m n)%Z) ->
  equalize_one flip m V feature fe st i <> st.
Proof.
  intros [HO HC ON HV HA] AX S2 L1 K1 L2 K2 S0 S1 HR. cbv zeta. set (F := fF st) in *.
  remember ((c1 + 1) mod 3) as c1' eqn:D1. remember ((c1 + 2) mod 3) as c1'' eqn:D1'. remember (F f1 c1') as v1 eqn:V1. remember (F f1 c1'') as v2 eqn:V2. remember (F f1 c1) as v4 eqn:V4. remember (F f2 c2) as v3 eqn:V3.
  intros (NF & NE1 & NE2 & N34 & N43 & HF & SH & DV).
  destruct (fdist F m n f1 c1 f2 c2 HO L1 K1 L2 K2 HR c1' c1'' _ _ v1 v2 v3 v4 D1 D1' eq_refl eq_refl V1 V2 V4 V3) as (Z1 & Z2 & Z3 & Z4 & Z5 & Z6 & W1 & W2 & W3 & W4).
  pose proof (dev_change F F2 m n f1 c1 f2 c2 v1 v2 v3 v4 HO L1 K1 L2 K2 HR ltac:(congruence) ltac:(congruence) V4 V3 HF) as DC. cbv beta zeta in DC. rewrite <- !HV in DC by auto.
  unfold equalize_one. fold F. rewrite S2, S0, S1, !enc_mod, !enc_div by auto. cbn [Nat.eqb negb]. cbv zeta. rewrite <- D1, <- D1', <- V1, <- V2, <- V3, <- V4.
  assert (B1 : existsb (same_edge (v1, v2)) fe = false).
  { destruct (existsb (same_edge (v1, v2)) fe) eqn:E; [|auto]. apply existsb_exists in E. destruct E as ((x & y) & I & S). apply same_edge_spec in S. unfold swap in S. cbn [fst snd] in S. exfalso. destruct S as [S|S]; injection S as -> ->; auto. }
  assert (B2 : forall v, In v [v1; v2; v3; v4] -> existsb (Nat.eqb v) feature = false) by (intros v I; destruct (existsb (Nat.eqb v) feature) eqn:E; [|auto]; apply isf_spec in E; exfalso; eapply NF; eauto).
  rewrite B1, !B2 by (cbn; auto). cbn [orb].
  assert (LT : (Z.abs (fval st v1 - 1 - 6) + Z.abs (fval st v2 - 6 - 1) + Z.abs (fval st v4 - 6 + 1) + Z.abs (fval st v3 - 6 + 1) <? Z.abs (fval st v1 - 6) + Z.abs (fval st v2 - 6) + Z.abs (fval st v4 - 6) + Z.abs (fval st v3 - 6))%Z = true) by (apply Z.ltb_lt; clear -DC DV; lia). rewrite LT.
  unfold flip_edge_adjacency. fold F. rewrite S2, S0, S1, !enc_mod, !enc_div by auto. cbv zeta. rewrite <- D1, <- D1', <- V1, <- V2, <- V3, <- V4. rewrite (shape_conv _ _ _ _ SH).
  assert (B3 : existsb (Nat.eqb v4) (fadj st v3) = false) by (destruct (existsb (Nat.eqb v4) (fadj st v3)) eqn:E; [|auto]; apply existsb_exists in E; destruct E as (x & I & E); apply Nat.eqb_eq in E; subst x; apply AX in I; exfalso; tauto).
  rewrite B3. cbn [orb Nat.eqb negb]. intros E. apply (f_equal (fun s => fval s v1)) in E. cbn [fval] in E. unfold bump, set1 in E. rewrite Nat.eqb_refl in E. rewrite (proj2 (Nat.eqb_neq v1 v4)), (proj2 (Nat.eqb_neq v1 v3)), (proj2 (Nat.eqb_neq v1 v2)) in E by congruence. clear -E. lia.
Qed.
Lemma step_sym F F2 m n V feature fe f1 c1 f2 c2 : omesh F m n -> f1 < m -> c1 < 3 -> f2 < m -> c2 < 3 -> he F f1 c1 = swap (he F f2 c2) ->
  (let v1 := F f1 ((c1 + 1) mod 3) in let v2 := F f1 ((c1 + 2) mod 3) in let v4 := F f1 c1 in let v3 := F f2 c2 in
   (forall v, In v [v1; v2; v3; v4] -> ~ In v feature) /\ ~ In (v1, v2) fe /\ ~ In (v2, v1) fe /\ ~ edge F m v3 v4 /\ ~ edge F m v4 v3 /\ flipped F F2 m f1 c1 f2 c2 /\ good_shape (V v1) (V v2) (V v3) (V v4) /\ (deviation F2 m n < deviation F m n)%Z) ->
  (let v1 := F f2 ((c2 + 1) mod 3) in let v2 := F f2 ((c2 + 2) mod 3) in let v4 := F f2 c2 in let v3 := F f1 c1 in
   (forall v, In v [v1; v2; v3; v4] -> ~ In v feature) /\ ~ In (v1, v2) fe /\ ~ In (v2, v1) fe /\ ~ edge F m v3 v4 /\ ~ edge F m v4 v3 /\ flipped F F2 m f2 c2 f1 c1 /\ good_shape (V v1) (V v2) (V v3) (V v4) /\ (deviation F2 m n < deviation F m n)%Z).
Proof.
  intros HO L1 K1 L2 K2 HR. cbv zeta. unfold flipped. destruct (fvb F f1 c1 f2 c2 HR _ _ _ _ _ _ eq_refl eq_refl eq_refl eq_refl eq_refl eq_refl) as (W1 & W2). cbv zeta. rewrite W1, W2.
  intros (NF & NE1 & NE2 & N34 & N43 & (A1 & A2 & A3 & A4 & A5 & A6 & AO) & SH & DV). split; [|repeat split; auto].
  - intros v I. apply NF. cbn in I |- *. tauto.
  - destruct SH as (S1 & S2 & S3 & S4). unfold within60 in *; tauto. - destruct SH as (S1 & S2 & S3 & S4). unfold within60 in *; tauto. - destruct SH as (S1 & S2 & S3 & S4). unfold within60 in *; tauto.
  - destruct SH as (S1 & S2 & S3 & S4). unfold within60 in *; tauto. - destruct SH as (S1 & S2 & S3 & S4). unfold within60 in *; tauto. - destruct SH as (S1 & S2 & S3 & S4). unfold within60 in *; tauto.
  - destruct SH as (S1 & S2 & S3 & S4). unfold within60 in *; tauto. - destruct SH as (S1 & S2 & S3 & S4). unfold within60 in *; tauto. - destruct SH as (S1 & S2 & S3 & S4). unfold within60 in *; tauto.
  - destruct SH as (S1 & S2 & S3 & S4). unfold within60 in *; tauto. - destruct SH as (S1 & S2 & S3 & S4). unfold within60 in *; tauto. - destruct SH as (S1 & S2 & S3 & S4). unfold within60 in *; tauto.
Qed.
(** if some admissible flip exists at the start, the pass does improve the valences *)
Theorem C84_progress flip m n k V feature fe F e F2 : flip_ok flip -> omesh F m n -> coherent F m k m e -> once k e -> flip_step m n V feature fe F F2 ->
  (deviation (fF (equalize_valences flip m V feature fe k F e)) m n < deviation F m n)%Z.
Proof.
  intros FO HO HC ON (f1 & c1 & f2 & c2 & L1 & K1 & L2 & K2 & HR & ST). unfold equalize_valences. set (st0 := {| fF := F; fE := e; fval := face_counts F m; fadj := neighbours F m |}).
  assert (IV : inv m n k st0) by (constructor; cbn [fF fE fval fadj st0]; auto; [intros v _; eapply face_counts_ok; eauto|apply neighbours_ok]).
  assert (EX : exists i, In i (seq 0 k) /\ equalize_one flip m V feature fe st0 i <> st0).
  { destruct (co_map _ _ _ _ _ HC f1 c1 L1 K1) as (LI & Q1). set (i := EMAP e (f1 + c1 * m)) in *. exists i. split; [apply in_seq; lia|].
    destruct (co_map _ _ _ _ _ HC f2 c2 L2 K2) as (LI2 & Q2). set (i2 := EMAP e (f2 + c2 * m)) in *.
    assert (E12 : edge F m (fst (he F f1 c1)) (snd (he F f1 c1))) by (exists f1, c1; destruct (he F f1 c1); auto).
    assert (UE : forall f c j, f < m -> c < 3 -> j = EMAP e (f + c * m) -> uE e j = he F f c \/ uE e j = swap (he F f c)).
    { intros f c j Lf Lc ->. destruct (co_map _ _ _ _ _ HC f c Lf Lc) as (LJ & Q). destruct (co_one _ _ _ _ _ HC _ LJ) as (f' & c' & Lf' & Lc' & T0 & _ & TU). destruct Q as [Q|(S2 & Q)].
      - rewrite T0 in Q. apply enc_inj in Q; auto. destruct Q as (-> & ->). exact TU.
      - destruct (co_two _ _ _ _ _ HC _ LJ S2) as (g & d & g' & d' & Lg & Ld & Lg' & Ld' & T0' & T1' & _ & TH). rewrite T0 in T0'. apply enc_inj in T0'; auto. destruct T0' as (<- & <-). rewrite Q in T1'. apply enc_inj in T1'; auto. destruct T1' as (<- & <-). rewrite TH in TU. destruct (he F f c). unfold swap in *. cbn [fst snd] in *. tauto. }
    assert (EQ : i2 = i). { apply ON; auto. destruct (UE f1 c1 i L1 K1 eq_refl) as [A|A], (UE f2 c2 i2 L2 K2 eq_refl) as [B|B]; rewrite A, B, HR; destruct (he F f2 c2); unfold swap; cbn [fst snd]; auto. }
    rewrite EQ in Q2. pose proof (fne F m n f1 c1 f2 c2 HO L1 K1 K2 HR _ _ _ _ _ _ eq_refl eq_refl eq_refl eq_refl eq_refl eq_refl) as NE.
    assert (S2 : size e i = 2) by (destruct Q1 as [Q1|(Q1 & _)], Q2 as [Q2|(Q2 & _)]; auto; rewrite Q1 in Q2; apply enc_inj in Q2; auto; destruct Q2; congruence).
    destruct Q1 as [Q1|(_ & Q1)], Q2 as [Q2|(_ & Q2)].
    - exfalso. rewrite Q1 in Q2. apply enc_inj in Q2; auto. destruct Q2; congruence.
    - eapply (must_flip flip m n k V feature fe i st0 f1 c1 f2 c2 F2); eauto. intros x y I. apply neighbours_conv; auto.
    - eapply (must_flip flip m n k V feature fe i st0 f2 c2 f1 c1 F2); eauto; [intros x y I; apply neighbours_conv; auto|cbn [fF st0]; rewrite HR; destruct (he F f2 c2); reflexivity|]. apply (step_sym F F2 m n V feature fe f1 c1 f2 c2); auto.
    - exfalso. rewrite Q1 in Q2. apply enc_inj in Q2; auto. destruct Q2; congruence. }
  destruct EX as (i & Ii & NE). assert (LL : forall j, In j (seq 0 k) -> j < k) by (intros j I; apply in_seq in I; lia). change (deviation F m n) with (deviation (fF st0) m n). clearbody st0. revert Ii LL. generalize (seq 0 k) as l.
  induction l as [|j l IH]; intros Ii LL; [destruct Ii|]. cbn [fold_left]. destruct (one_flip flip m n k V feature fe j st0 FO (LL j (or_introl eq_refl)) IV) as (IV' & [E|SP]).
  - rewrite E. apply IH; [destruct Ii as [<-|Ii]; [congruence|auto]|intros x I; apply LL; right; auto].
  - assert (D1 : (deviation (fF (equalize_one flip m V feature fe st0 j)) m n < deviation (fF st0) m n)%Z) by (destruct SP as (? & ? & ? & ? & _ & _ & _ & _ & _ & SP); cbv zeta in SP; tauto).
    destruct (all_flips flip m n k V feature fe (fF (equalize_one flip m V feature fe st0 j)) FO l (equalize_one flip m V feature fe st0 j)) as (_ & FL); [intros x I; apply LL; right; auto|auto|apply no_flip|]. apply flips_mono in FL. lia.
Qed.

(** no face changes when every vertex is a feature vertex *)
Theorem C84_all_features flip m n k V feature fe F e : flip_ok flip -> omesh F m n -> coherent F m k m e -> once k e -> (forall v, v < n -> In v feature) ->
  forall f c, f < m -> c < 3 -> fF (equalize_valences flip m V feature fe k F e) f c = F f c.
Proof. intros FO HO HC ON AF f c Lf Lc. destruct (C84_effects flip m n k V feature fe F e FO HO HC ON) as (A & _). apply (A f c); auto. apply AF. apply (om_range _ _ _ HO); auto. Qed.
(** the contract of igl::flip_edge can be met, and the hypotheses hold for a tetrahedron *)
Theorem C84_example : flip_ok igl_flip /\ omesh tetF 4 4 /\ coherent tetF 4 6 4 tetE /\ once 6 tetE /\ (deviation tetF 4 4 = 12)%Z.
Proof. split; [exact igl_flip_ok|]. split; [exact tet_omesh|]. split; [exact tet_coherent|]. split; [exact tet_once|]. reflexivity. Qed.
