(** Union-find and remapping in collapse_edges *)
From Coq Require Import Reals Lra List Arith Bool Lia.
From Verif Require Import Vec SplitModel SplitProofs Split5Proofs FlipModel CollapseModel.
Import ListNotations.
Open Scope nat_scope.

(** c names the class of a vertex, d decreases towards the root *)
Record uf (p c d : nat -> nat) : Prop := { uf_c : forall x, c (p x) = c x; uf_r : forall x, p x = x -> c x = x; uf_d : forall x, p x <> x -> d (p x) < d x }.
Lemma uf_root p c d : uf p c d -> forall x, p (c x) = c x /\ d (c x) <= d x.
Proof.
  intros U. assert (G : forall k x, d x <= k -> p (c x) = c x /\ d (c x) <= d x).
  { induction k as [|k IH]; intros x L; (destruct (Nat.eq_dec (p x) x) as [E|NE]; [rewrite (uf_r _ _ _ U x E); auto|]); pose proof (uf_d _ _ _ U x NE) as D; [lia|].
    rewrite <- (uf_c _ _ _ U x). destruct (IH (p x)) as (A & B); [lia|]. split; [auto|lia]. }
  intros x. apply (G (d x)). lia.
Qed.
Lemma find_ok fuel : forall p c d x, uf p c d -> d x < fuel -> exists q, uf_find fuel p x = Some (q, c x) /\ uf q c d.
Proof.
  induction fuel as [|k IH]; intros p c d x U L; [lia|]. cbn [uf_find]. destruct (Nat.eqb_spec (p x) x) as [E|NE].
  - exists p. rewrite (uf_r _ _ _ U x E). auto.
  - cbv zeta. set (q := set1 p x (p (p x))). pose proof (uf_d _ _ _ U x NE) as D.
    assert (DD : d (p (p x)) <= d (p x)) by (destruct (Nat.eq_dec (p (p x)) (p x)) as [->|N]; [auto|pose proof (uf_d _ _ _ U (p x) N); lia]).
    assert (UQ : uf q c d).
    { constructor; intros y; unfold q, set1; destruct (Nat.eqb_spec y x) as [->|N].
      - rewrite !(uf_c _ _ _ U). auto. - apply (uf_c _ _ _ U). - intros E. exfalso. rewrite E in DD. lia. - apply (uf_r _ _ _ U). - intros _. lia. - apply (uf_d _ _ _ U). }
    assert (QX : q x = p (p x)) by (unfold q, set1; rewrite Nat.eqb_refl; auto). rewrite QX.
    destruct (IH q c d (p (p x)) UQ) as (r & E & UR); [lia|]. exists r. rewrite E, !(uf_c _ _ _ U). auto.
Qed.
Definition join (c : nat -> nat) (a b : nat) : nat -> nat := fun x => if c x =? c a then c b else c x.
Definition jd (c d : nat -> nat) (a b : nat) : nat -> nat := fun x => if c x =? c a then d x + d (c b) + 1 else d x.
Lemma union_ok p c d a b fuel : uf p c d -> d a < fuel -> d b < fuel -> exists q, uf_union fuel p a b = Some q /\ uf q (join c a b) (jd c d a b).
Proof.
  intros U La Lb. unfold uf_union, jd.
  destruct (find_ok fuel p c d a U La) as (q & -> & UQ). destruct (find_ok fuel q c d b UQ Lb) as (r & -> & UR). eexists. split; [reflexivity|].
  assert (CC : forall x, c (c x) = c x) by (intros x; apply (uf_r _ _ _ UR); apply (uf_root _ _ _ UR)).
  destruct (Nat.eqb_spec (c a) (c b)) as [E|NE].
  - assert (JC : forall x, join c a b x = c x) by (intros x; unfold join; destruct (Nat.eqb_spec (c x) (c a)); congruence).
    constructor; intros x; rewrite ?JC.
    + apply (uf_c _ _ _ UR). + apply (uf_r _ _ _ UR). + intros N. rewrite (uf_c _ _ _ UR). pose proof (uf_d _ _ _ UR x N). destruct (c x =? c a); lia.
  - unfold set1. constructor; intros x; destruct (Nat.eqb_spec x (c a)) as [EX|N].
    + subst x. unfold join. rewrite !CC, Nat.eqb_refl. destruct (Nat.eqb_spec (c b) (c a)); congruence.
    + unfold join. rewrite (uf_c _ _ _ UR). auto.
    + subst x. intros Q. exfalso. congruence.
    + intros Q. unfold join. pose proof (uf_r _ _ _ UR x Q) as QX. rewrite QX. destruct (Nat.eqb_spec x (c a)); [congruence|auto].
    + subst x. intros _. rewrite !CC, Nat.eqb_refl. destruct (Nat.eqb_spec (c b) (c a)) as [Q|_]; [congruence|]. lia.
    + intros Q. rewrite (uf_c _ _ _ UR). pose proof (uf_d _ _ _ UR x Q). destruct (c x =? c a); lia.
Qed.
(** the survivor of a merge is the smaller index *)
Definition merge (rep : nat -> nat) (a b : nat) : nat -> nat := fun o => if rep o =? Nat.max a b then Nat.min a b else rep o.
(** the merges were made between surviving vertices *)
Inductive chain : list (nat * nat) -> (nat -> nat) -> Prop :=
  | chain0 : chain [] (fun o => o)
  | chain1 l rep a b : chain l rep -> a <> b -> rep a = a -> rep b = b -> chain (l ++ [(a, b)]) (merge rep a b).
Definition agree (c rep : nat -> nat) : Prop := forall x y, c x = c y <-> rep x = rep y.
Lemma chain_idem l rep : chain l rep -> forall x, rep (rep x) = rep x.
Proof.
  induction 1 as [|l rep a b C IH NE RA RB]; intros x; [auto|]. unfold merge. destruct (Nat.eqb_spec (rep x) (Nat.max a b)) as [E|N].
  - assert (M : rep (Nat.min a b) = Nat.min a b) by (destruct (Nat.min_dec a b) as [->| ->]; auto). rewrite M. destruct (Nat.eqb_spec (Nat.min a b) (Nat.max a b)); lia.
  - rewrite IH. destruct (Nat.eqb_spec (rep x) (Nat.max a b)); congruence.
Qed.
Lemma merge_agree c rep a b : agree c rep -> rep a = a -> rep b = b -> a <> b -> agree (join c a b) (merge rep a b).
Proof.
  intros AG RA RB NE x y. unfold join, merge. pose proof (AG x a) as XA. pose proof (AG x b) as XB. pose proof (AG y a) as YA. pose proof (AG y b) as YB. pose proof (AG x y) as XY. rewrite RA in XA, YA. rewrite RB in XB, YB.
  assert (SY : forall u v : nat, u = v <-> v = u) by (intros; split; auto).
  assert (XA' : c a = c x <-> a = rep x) by (rewrite (SY (c a)), (SY a); exact XA). assert (XB' : c b = c x <-> b = rep x) by (rewrite (SY (c b)), (SY b); exact XB).
  assert (YA' : c a = c y <-> a = rep y) by (rewrite (SY (c a)), (SY a); exact YA). assert (YB' : c b = c y <-> b = rep y) by (rewrite (SY (c b)), (SY b); exact YB).
  assert (MM : (Nat.max a b = a /\ Nat.min a b = b) \/ (Nat.max a b = b /\ Nat.min a b = a)) by (clear; lia). clear SY AG.
  destruct MM as [(-> & ->)|(-> & ->)].
  - destruct (Nat.eqb_spec (c x) (c a)), (Nat.eqb_spec (c y) (c a)), (Nat.eqb_spec (rep x) a), (Nat.eqb_spec (rep y) a); tauto.
  - destruct (Nat.eqb_spec (rep x) b) as [EX|NX], (Nat.eqb_spec (rep y) b) as [EY|NY], (Nat.eqb_spec (c x) (c a)) as [CX|CX], (Nat.eqb_spec (c y) (c a)) as [CY|CY]; try tauto; split; intros Q; try tauto; try (exfalso; intuition congruence); intuition congruence.
Qed.
(** processing all merges, seen from the last one *)
Lemma unions_app fuel : forall l1 l2 p, unions fuel p (l1 ++ l2) = bindo (unions fuel p l1) (fun q => unions fuel q l2).
Proof. induction l1 as [|x l1 IH]; intros l2 p; cbn [app unions bindo]; [reflexivity|]. destruct (uf_union fuel p (fst x) (snd x)); [apply IH|reflexivity]. Qed.
Lemma unions_ok l rep : chain l rep -> exists c d, agree c rep /\ exists K, forall fuel, K <= fuel -> exists q, unions fuel (fun i => i) l = Some q /\ uf q c d.
Proof.
  induction 1 as [|l rep a b C (c & d & AG & K & H) NE RA RB].
  - exists (fun i => i), (fun _ => 0). split; [intros x y; tauto|]. exists 0. intros fuel _. exists (fun i => i). split; [reflexivity|]. constructor; intros; auto; congruence.
  - exists (join c a b), (jd c d a b). split; [apply merge_agree; auto|]. exists (K + S (d a) + S (d b)). intros fuel LF. destruct (H fuel) as (q & E & U); [lia|].
    rewrite unions_app, E. cbn [bindo unions fst snd]. destruct (union_ok q c d a b fuel U) as (q' & -> & U'); [lia|lia|]. exists q'. auto.
Qed.
Lemma birth0_ok (I : nat -> nat) k : (forall s t, s < k -> t < k -> I s = I t -> s = t) -> forall o s, fold_left (fun b s => set1 b (I s) (Some s)) (seq 0 k) (fun _ => None) o = Some s <-> s < k /\ I s = o.
Proof.
  induction k as [|k IH]; intros INJ o s; [cbn; split; [discriminate|lia]|]. rewrite seq_S, fold_left_app. cbn [fold_left plus]. unfold set1 at 1. destruct (Nat.eqb_spec o (I k)) as [->|NE].
  - split; [intros E; injection E as <-; split; [lia|auto]|]. intros (L & E). f_equal. apply INJ; auto.
  - rewrite IH by (intros; apply INJ; auto; lia). split; intros (L & E); (split; [|auto]); [lia|]. destruct (Nat.eq_dec s k) as [->|]; [congruence|lia].
Qed.
Lemma roots_ok fuel c d (b0 : nat -> option nat) p n : uf p c d -> (forall o, o < n -> d o < fuel) -> (forall o o' s s', b0 o = Some s -> b0 o' = Some s' -> c o = c o' -> s = s') ->
  exists q rnew, fold_left (fun acc o => bindo acc (fun pr => let '(parent, rnew) := pr in match b0 o with None => Some pr | Some s => bindo (uf_find fuel parent o) (fun q => Some (fst q, set1 rnew (snd q) (Some s))) end)) (seq 0 n) (Some (p, fun _ => None)) = Some (q, rnew)
    /\ uf q c d /\ forall r s, rnew r = Some s <-> exists o, o < n /\ b0 o = Some s /\ c o = r.
Proof.
  intros U. induction n as [|n IH]; intros LF UN.
  - exists p, (fun _ => None). split; [reflexivity|]. split; [auto|]. intros r s. split; [discriminate|intros (o & L & _); lia].
  - destruct IH as (q & rnew & E & UQ & R); [intros; apply LF; lia|auto|]. rewrite seq_S, fold_left_app, E. cbn [fold_left plus bindo]. destruct (b0 n) as [s0|] eqn:B.
    + destruct (find_ok fuel q c d n UQ) as (q' & -> & UQ'); [apply LF; lia|]. cbn [bindo fst snd]. exists q', (set1 rnew (c n) (Some s0)). split; [reflexivity|]. split; [auto|]. intros r s. unfold set1. destruct (Nat.eqb_spec r (c n)) as [->|NE].
      * split; [intros Q; injection Q as <-; exists n; auto|]. intros (o & L & BO & CO). f_equal. apply (UN n o); auto.
      * rewrite R. split; intros (o & L & BO & CO); exists o; (split; [|auto]); [lia|]. destruct (Nat.eq_dec o n) as [->|]; [congruence|lia].
    + exists q, rnew. split; [reflexivity|]. split; [auto|]. intros r s. rewrite R. split; intros (o & L & BO & CO); exists o; (split; [|auto]); [lia|]. destruct (Nat.eq_dec o n) as [->|]; [congruence|lia].
Qed.
Lemma news_ok fuel c d (b0 root_new : nat -> option nat) p n : uf p c d -> (forall o, o < n -> d o < fuel) ->
  exists q b, fold_left (fun acc o => bindo acc (fun pr => let '(parent, b) := pr in bindo (uf_find fuel parent o) (fun q => Some (fst q, set1 b o (root_new (snd q)))))) (seq 0 n) (Some (p, b0)) = Some (q, b)
    /\ uf q c d /\ forall o, o < n -> b o = root_new (c o).
Proof.
  intros U. induction n as [|n IH]; intros LF.
  - exists p, b0. split; [reflexivity|]. split; [auto|]. intros; lia.
  - destruct IH as (q & b & E & UQ & B); [intros; apply LF; lia|]. rewrite seq_S, fold_left_app, E. cbn [fold_left plus bindo]. destruct (find_ok fuel q c d n UQ) as (q' & -> & UQ'); [apply LF; lia|]. cbn [bindo fst snd].
    exists q', (set1 b n (root_new (c n))). split; [reflexivity|]. split; [auto|]. intros o L. unfold set1. destruct (Nat.eqb_spec o n) as [->|NE]; [auto|apply B; lia].
Qed.
Lemma bound (d : nat -> nat) n : exists K, forall o, o < n -> d o < K.
Proof. induction n as [|n (K & H)]; [exists 0; intros; lia|]. exists (K + S (d n)). intros o L. destruct (Nat.eq_dec o n) as [->|]; [lia|]. specialize (H o). lia. Qed.
(** a vertex is mapped to the output index of the vertex it was merged into *)
Lemma birth2new_ok n r rep : chain (merges r) rep -> (forall s, s < rn r -> rI r s < n /\ rep (rI r s) = rI r s) -> (forall s t, s < rn r -> t < rn r -> rI r s = rI r t -> s = t) ->
  exists K, forall fuel, K <= fuel -> exists b, birth2new fuel n r = Some b /\ forall o, o < n -> forall s, b o = Some s <-> s < rn r /\ rI r s = rep o.
Proof.
  intros CH OUT INJ. destruct (unions_ok _ _ CH) as (c & d & AG & K1 & H1). destruct (bound d n) as (K2 & H2). exists (K1 + K2). intros fuel LF. unfold birth2new. destruct (H1 fuel) as (p & -> & UP); [lia|]. cbn [bindo].
  pose proof (birth0_ok (rI r) (rn r) INJ) as B0. set (b0 := fold_left (fun b s => set1 b (rI r s) (Some s)) (seq 0 (rn r)) (fun _ => None)) in *. clearbody b0.
  destruct (roots_ok fuel c d b0 p n UP) as (q & rnew & -> & UQ & R).
  - intros o L. specialize (H2 o L). lia.
  - intros o o' s s' E E' CC. apply B0 in E. apply B0 in E'. destruct E as (L & E), E' as (L' & E'). apply INJ; auto. apply AG in CC. rewrite <- E, <- E' in CC. destruct (OUT s L) as (_ & <-), (OUT s' L') as (_ & <-). exact CC.
  - cbn [bindo fst snd]. destruct (news_ok fuel c d b0 rnew q n UQ) as (q' & b & -> & _ & B); [intros o L; specialize (H2 o L); lia|]. cbn [bindo snd]. exists b. split; [reflexivity|]. intros o L s. rewrite (B o L), R. split.
    + intros (o' & L' & E & CC). apply B0 in E. destruct E as (LS & E). split; [auto|]. apply AG in CC. rewrite <- CC, <- E. destruct (OUT s LS) as (_ & ->). reflexivity.
    + intros (LS & E). exists (rI r s). destruct (OUT s LS) as (LI & RI). split; [auto|]. split; [apply B0; auto|]. apply AG. rewrite RI. exact E.
Qed.
Lemma remap_features_ok b feature : forall s, In s (remap_features b feature) <-> exists v, In v feature /\ b v = Some s.
Proof.
  intros s. unfold remap_features. rewrite in_flat_map. split; intros (v & I & E); exists v; (split; [auto|]); destruct (b v) as [t|]; [destruct E as [->|[]]; auto|destruct E|injection E as ->; left; auto|discriminate].
Qed.
Lemma remap_features_all b (feature : list nat) : (forall v, In v feature -> b v <> None) -> Forall2 (fun v s => b v = Some s) feature (remap_features b feature).
Proof.
  induction feature as [|v l IH]; intros H; unfold remap_features; cbn [flat_map]; [constructor|]. destruct (b v) as [s|] eqn:E; [|exfalso; apply (H v); [left; auto|auto]]. cbn [app]. constructor; [auto|]. apply IH. intros w I. apply H. right. auto.
Qed.
Lemma remap_edges_ok b fe : sym_once (remap_edges b fe) /\ (forall x y, In (x, y) (remap_edges b fe) -> x <> y) /\
  forall x y, In (x, y) (remap_edges b fe) \/ In (y, x) (remap_edges b fe) <-> x <> y /\ exists u v, (In (u, v) fe \/ In (v, u) fe) /\ b u = Some x /\ b v = Some y.
Proof.
  unfold remap_edges. set (stp := fun out (r : nat * nat) => match b (fst r), b (snd r) with Some x, Some y => if Nat.eqb x y then out else if existsb (same_edge (x, y)) out then out else out ++ [(x, y)] | _, _ => out end).
  assert (G : forall l done out, (sym_once out /\ (forall x y, In (x, y) out -> x <> y) /\ forall x y, In (x, y) out \/ In (y, x) out <-> x <> y /\ exists u v, (In (u, v) done \/ In (v, u) done) /\ b u = Some x /\ b v = Some y) ->
    let out' := fold_left stp l out in sym_once out' /\ (forall x y, In (x, y) out' -> x <> y) /\ forall x y, In (x, y) out' \/ In (y, x) out' <-> x <> y /\ exists u v, (In (u, v) (done ++ l) \/ In (v, u) (done ++ l)) /\ b u = Some x /\ b v = Some y).
  { induction l as [|(u0, v0) l IH]; intros done out H; cbn [fold_left]; [rewrite app_nil_r; exact H|]. replace (done ++ (u0, v0) :: l) with ((done ++ [(u0, v0)]) ++ l) by (rewrite <- app_assoc; reflexivity). apply IH. clear IH. destruct H as ((ND & SO) & NE & H). unfold stp. cbn [fst snd].
    assert (LIFT : forall out1, (sym_once out1 /\ (forall x y, In (x, y) out1 -> x <> y)) -> (forall x y, In (x, y) out1 \/ In (y, x) out1 <-> (In (x, y) out \/ In (y, x) out) \/ (x <> y /\ ((b u0 = Some x /\ b v0 = Some y) \/ (b v0 = Some x /\ b u0 = Some y)))) ->
      sym_once out1 /\ (forall x y, In (x, y) out1 -> x <> y) /\ forall x y, In (x, y) out1 \/ In (y, x) out1 <-> x <> y /\ exists u v, (In (u, v) (done ++ [(u0, v0)]) \/ In (v, u) (done ++ [(u0, v0)])) /\ b u = Some x /\ b v = Some y).
    { intros out1 (A1 & A2) A3. split; [auto|]. split; [auto|]. intros x y. rewrite A3, H. split.
      - intros [(N & u & v & I & BU & BV)|(N & [(BU & BV)|(BU & BV)])].
        + split; [auto|]. exists u, v. split; [|auto]. destruct I; [left|right]; apply in_or_app; auto.
        + split; [auto|]. exists u0, v0. split; [left; apply in_or_app; right; left; auto|auto].
        + split; [auto|]. exists v0, u0. split; [right; apply in_or_app; right; left; auto|auto].
      - intros (N & u & v & I & BU & BV). assert (J : (In (u, v) done \/ In (v, u) done) \/ (u0, v0) = (u, v) \/ (u0, v0) = (v, u)) by (destruct I as [I|I]; apply in_app_or in I; destruct I as [I|[I|[]]]; auto).
        destruct J as [J|[J|J]]; [left; split; [auto|exists u, v; auto]|injection J as -> ->; right; auto|injection J as -> ->; right; auto]. }
    destruct (b u0) as [x0|] eqn:B0, (b v0) as [y0|] eqn:B1.
    - destruct (Nat.eqb_spec x0 y0) as [->|NXY].
      + apply LIFT; [split; [split|]; auto|]. intros x y. split; [auto|]. intros [I|(N & [(A & B)|(A & B)])]; [auto|congruence|congruence].
      + destruct (existsb (same_edge (x0, y0)) out) eqn:EX.
        * apply existsb_exists in EX. destruct EX as (e & IE & SE). apply same_edge_spec in SE. assert (I0 : In (x0, y0) out \/ In (y0, x0) out) by (destruct SE as [SE|SE]; [left; rewrite SE; auto|right; destruct e as (e1, e2); unfold swap in SE; cbn [fst snd] in SE; injection SE as -> ->; auto]).
          apply LIFT; [split; [split|]; auto|]. intros x y. split; [auto|]. intros [I|(N & [(A & B)|(A & B)])]; [auto| |]; injection A as <-; injection B as <-; tauto.
        * assert (NI : forall e, In e out -> same_edge (x0, y0) e = false) by (intros e I; destruct (same_edge (x0, y0) e) eqn:S; [|auto]; assert (existsb (same_edge (x0, y0)) out = true) by (apply existsb_exists; exists e; auto); congruence).
          apply LIFT.
          -- split; [split|].
             ++ apply NoDup_rev in ND. rewrite <- (rev_involutive (out ++ [(x0, y0)])). apply NoDup_rev. rewrite rev_app_distr. cbn. constructor; [|auto]. rewrite <- in_rev. intros I. apply NI in I. rewrite same_edge_refl in I. discriminate.
             ++ intros e f Ie If S. apply in_app_or in Ie, If. destruct Ie as [Ie|[<-|[]]], If as [If|[<-|[]]]; auto; [apply same_edge_sym in S; apply NI in Ie; congruence|apply NI in If; congruence].
             ++ intros x y I. apply in_app_or in I. destruct I as [I|[I|[]]]; [auto|injection I as <- <-; auto].
          -- intros x y. rewrite !in_app_iff. cbn [In]. split.
             ++ intros [[I|[I|[]]]|[I|[I|[]]]]; auto; injection I as <- <-; right; split; auto.
             ++ intros [[I|I]|(N & [(A & B)|(A & B)])]; auto; injection A as <-; injection B as <-; auto.
    - apply LIFT; [split; [split|]; auto|]. intros x y. split; [auto|]. intros [I|(N & [(A & B)|(A & B)])]; [auto|discriminate|discriminate].
    - apply LIFT; [split; [split|]; auto|]. intros x y. split; [auto|]. intros [I|(N & [(A & B)|(A & B)])]; [auto|discriminate|discriminate].
    - apply LIFT; [split; [split|]; auto|]. intros x y. split; [auto|]. intros [I|(N & [(A & B)|(A & B)])]; [auto|discriminate|discriminate]. }
  apply (G fe [] []). split; [split; [constructor|intros a b' []]|]. split; [intros x y []|]. intros x y. split; [intros [[]|[]]|intros (_ & u & v & [[]|[]] & _)].
Qed.
