(** C101: the voxel grid of swept_volume. *)
From Coq Require Import ZArith QArith List Bool Lia.
From Verif Require Import VoxelModel.
Import ListNotations.
Open Scope Z_scope.

Lemma veqb_spec a b : veqb a b = true <-> a = b.
Proof. destruct a as [[x y] z], b as [[u v] w]. cbn. rewrite !andb_true_iff, !Z.eqb_eq. split; [intros ((-> & ->) & ->); reflexivity|intros E; injection E as -> -> ->; auto]. Qed.
Definition vec_dec (a b : vec) : {a = b} + {a <> b}.
Proof. destruct (veqb a b) eqn:E; [left; apply veqb_spec; exact E|right; intros H; apply veqb_spec in H; congruence]. Defined.
Lemma inseq m n : (n < m)%nat -> In n (seq 0 m).
Proof. intros H. apply in_seq. lia. Qed.
Lemma set_length {A} (c : list A) i v : (i < length c)%nat -> length (set c i v) = length c.
Proof. intros H. unfold set. rewrite app_length, firstn_length. cbn [length]. rewrite skipn_length. lia. Qed.
Lemma set_nth {A} (c : list A) i v k d : (i < length c)%nat -> nth k (set c i v) d = if Nat.eqb k i then v else nth k c d.
Proof.
  revert i k. induction c as [|a c IH]; intros i k H; [cbn in H; lia|]. destruct i as [|i], k as [|k]; try reflexivity. cbn [length] in H. unfold set. cbn [firstn skipn app nth Nat.eqb]. apply (IH i k). lia.
Qed.
(** ** the tables *)
Definition entry (n i : nat) : option nat := nth i (nth n zvv []) None.
Definition offset (n : nat) : vec := nth n neighbors (0, 0, 0).
Definition off (c : nat) : vec := nth c corners (0, 0, 0).
(** a corner that neighbor n shares has a number there, and it is the same point *)
Definition pair_ok (n i : nat) : bool := match entry n i with None => true | Some c => Nat.ltb c 8 && match entry (partner n) i with None => false | Some d => Nat.ltb d 8 && veqb (off c) (add (add (offset n) (offset n)) (off d)) && existsb (Nat.eqb c) (nth n zv []) end end.
Lemma pairs_ok n i c : (n < 30)%nat -> (i < 4)%nat -> entry n i = Some c -> (c < 8)%nat /\ In c (nth n zv []) /\ exists d, entry (partner n) i = Some d /\ (d < 8)%nat /\ off c = add (add (offset n) (offset n)) (off d).
Proof.
  intros N I E. assert (K : forallb (fun n => forallb (pair_ok n) (seq 0 4)) (seq 0 30) = true) by (vm_compute; reflexivity).
  rewrite forallb_forall in K. specialize (K n (inseq 30 n N)). rewrite forallb_forall in K. specialize (K i (inseq 4 i I)). unfold pair_ok in K. rewrite E in K.
  apply andb_prop in K as (A & B). destruct (entry (partner n) i) as [d|]; [|discriminate]. apply andb_prop in B as (B & D). apply andb_prop in B as (B & C). apply Nat.ltb_lt in A, B. apply veqb_spec in C.
  apply existsb_exists in D as (x & D & X). apply Nat.eqb_eq in X. subst x. split; auto. split; auto. exists d. auto.
Qed.
(** the mask has only such corners *)
Lemma zv_ok n c : (n < 30)%nat -> In c (nth n zv []) -> exists i, (i < 4)%nat /\ entry n i = Some c.
Proof.
  intros N I. assert (K : forallb (fun n => forallb (fun c => existsb (fun i => match entry n i with Some d => Nat.eqb c d | None => false end) (seq 0 4)) (nth n zv [])) (seq 0 30) = true) by (vm_compute; reflexivity).
  rewrite forallb_forall in K. specialize (K n (inseq 30 n N)). rewrite forallb_forall in K. specialize (K c I). apply existsb_exists in K as (i & J & E). apply in_seq in J. exists i. split; [lia|].
  destruct (entry n i) as [d|]; [|discriminate]. apply Nat.eqb_eq in E. subst. reflexivity.
Qed.
(** two different voxels with a common corner are neighbors in the table, which has this corner *)
Definition half (a : vec) : vec := let '(x, y, z) := a in (x / 2, y / 2, z / 2).
Lemma shared pi q c d : (c < 8)%nat -> (d < 8)%nat -> corner pi c = corner q d -> q <> pi -> exists n, (n < 30)%nat /\ q = add pi (offset n) /\ In c (nth n zv []).
Proof.
  intros C D E NE. assert (K : forallb (fun c => forallb (fun d => veqb (sub (off c) (off d)) (0, 0, 0) || existsb (fun n => veqb (offset n) (half (sub (off c) (off d))) && existsb (Nat.eqb c) (nth n zv [])) (seq 0 30)) (seq 0 8)) (seq 0 8) = true) by (vm_compute; reflexivity).
  rewrite forallb_forall in K. specialize (K c (inseq 8 c C)). rewrite forallb_forall in K. specialize (K d (inseq 8 d D)).
  unfold corner in E. fold (off c) in E. fold (off d) in E. assert (H : add pi (half (sub (off c) (off d))) = q /\ (sub (off c) (off d) = (0, 0, 0) -> q = pi)).
  { revert E. clear. generalize (off c) (off d). destruct pi as [[x y] z], q as [[u v] w]. intros [[a b] e] [[f g] h] E. cbn in *. injection E as E1 E2 E3.
    replace (a + - f) with ((u - x) * 2) by lia. replace (b + - g) with ((v - y) * 2) by lia. replace (e + - h) with ((w - z) * 2) by lia. rewrite !Z.div_mul by lia. split; [f_equal; [f_equal|]; lia|]. intros Q. injection Q as Q1 Q2 Q3. f_equal; [f_equal|]; lia. }
  destruct H as (H1 & H2). apply orb_prop in K as [K|K]; [apply veqb_spec in K; destruct (NE (H2 K))|]. apply existsb_exists in K as (n & J & K). apply in_seq in J. apply andb_prop in K as (K1 & K2). apply veqb_spec in K1.
  apply existsb_exists in K2 as (e & K2 & X). apply Nat.eqb_eq in X. subst e. exists n. split; [lia|]. split; [rewrite K1; symmetry; exact H1|exact K2].
Qed.
Lemma corner_inj pi c d : (c < 8)%nat -> (d < 8)%nat -> corner pi c = corner pi d -> c = d.
Proof.
  intros C D E. unfold corner in E. assert (F : off c = off d). { unfold off. revert E. generalize (nth c corners (0, 0, 0)) (nth d corners (0, 0, 0)). destruct pi as [[x y] z]. intros [[a b] e] [[f g] h] E. cbn in E. injection E as E1 E2 E3. f_equal; [f_equal|]; lia. }
  assert (K : forallb (fun c => forallb (fun d => negb (veqb (off c) (off d)) || Nat.eqb c d) (seq 0 8)) (seq 0 8) = true) by (vm_compute; reflexivity).
  rewrite forallb_forall in K. specialize (K c (inseq 8 c C)). rewrite forallb_forall in K. specialize (K d (inseq 8 d D)). rewrite (proj2 (veqb_spec _ _) F) in K. apply Nat.eqb_eq. exact K.
Qed.
Lemma find_some cs k c : find cs k = Some c -> In (k, c) cs.
Proof. induction cs as [|[q d] cs IH]; [discriminate|]. cbn. destruct (veqb q k) eqn:E; [intros H; injection H as ->; apply veqb_spec in E; subst; left; reflexivity|intros H; right; auto]. Qed.
Lemma find_none cs k : find cs k = None <-> ~ In k (map fst cs).
Proof.
  induction cs as [|[q d] cs IH]; cbn; [tauto|]. destruct (veqb q k) eqn:E; [split; [discriminate|intros H; destruct H; left; apply veqb_spec; exact E]|]. rewrite IH. split; [intros H [Q|Q]; [apply veqb_spec in Q; congruence|auto]|tauto].
Qed.
(** [refers vs q c k]: entry k of the cube of q is the number of the vertex at corner k *)
Definition refers (vs : list vec) (q : vec) (cube : list Z) (k : nat) : Prop := 0 <= nth k cube (-1) /\ nth_error vs (Z.to_nat (nth k cube (-1))) = Some (corner q k).
Definition good (g : grid) : Prop :=
  NoDup (map fst (cells g)) /\ NoDup (verts g) /\ (forall q cube, In (q, cube) (cells g) -> length cube = 8%nat /\ forall k, (k < 8)%nat -> refers (verts g) q cube k) /\
  (forall h, In h (verts g) -> exists q cube k, In (q, cube) (cells g) /\ (k < 8)%nat /\ h = corner q k).
Lemma take_spec n c q vs cube pi : (n < 30)%nat -> q = add pi (offset n) -> length cube = 8%nat -> (forall k, (k < 8)%nat -> refers vs q c k) ->
  length (take n c cube) = 8%nat /\ (forall k, In k (nth n zv []) -> refers vs pi (take n c cube) k) /\ (forall k, refers vs pi cube k -> (k < 8)%nat -> refers vs pi (take n c cube) k).
Proof.
  intros N Q L R. unfold take. assert (G : forall l cube, (forall i, In i l -> (i < 4)%nat) -> length cube = 8%nat ->
    let r := fold_left (fun cube i => match nth i (nth n zvv []) None with Some k => set cube k (match nth i (nth (partner n) zvv []) None with Some j => nth j c (-1) | None => -1 end) | None => cube end) l cube in
    length r = 8%nat /\ (forall k i, In i l -> entry n i = Some k -> refers vs pi r k) /\ (forall k, refers vs pi cube k -> (k < 8)%nat -> refers vs pi r k)).
  { clear cube L. induction l as [|i l IH]; intros cube B L; cbn zeta; cbn [fold_left]; [split; [exact L|split; [intros ? ? []|auto]]|]. fold (entry n i). fold (entry (partner n) i).
    assert (S : let r := match entry n i with Some k => set cube k (match entry (partner n) i with Some j => nth j c (-1) | None => -1 end) | None => cube end in
      length r = 8%nat /\ (forall k, entry n i = Some k -> refers vs pi r k) /\ (forall k, refers vs pi cube k -> (k < 8)%nat -> refers vs pi r k)).
    { cbn zeta. destruct (entry n i) as [k|] eqn:E; [|split; [exact L|split; [discriminate|auto]]]. destruct (pairs_ok n i k N (B i (or_introl eq_refl)) E) as (K8 & _ & d & ED & D8 & OF). rewrite ED. split; [rewrite set_length; [exact L|lia]|].
      assert (RK : refers vs pi (set cube k (nth d c (-1))) k).
      { unfold refers. rewrite set_nth, Nat.eqb_refl by lia. destruct (R d D8) as (R1 & R2). split; [exact R1|]. rewrite R2. f_equal. unfold corner. fold (off d) (off k). rewrite OF, Q. revert Q. clear. generalize (offset n) (off d). destruct pi as [[x y] z]. intros [[a b] e] [[f g] h] _. cbn. f_equal; [f_equal|]; lia. }
      split; [intros k' H; injection H as <-; exact RK|]. intros k' H H8. destruct (Nat.eq_dec k' k) as [->|NE]; [exact RK|]. unfold refers. rewrite set_nth by lia. destruct (Nat.eqb_spec k' k); [contradiction|exact H]. }
    cbn zeta in S. destruct S as (S1 & S2 & S3). destruct (IH _ (fun j J => B j (or_intror J)) S1) as (I1 & I2 & I3). cbn zeta in I1, I2, I3. split; [exact I1|]. split.
    - intros k j [<-|J] E; [|exact (I2 k j J E)]. apply I3; [apply S2; exact E|]. apply (pairs_ok n i k N (B i (or_introl eq_refl)) E).
    - intros k H H8. apply I3; auto. }
  destruct (G (seq 0 4) cube ltac:(intros i I; apply in_seq in I; lia) L) as (G1 & G2 & G3). cbn zeta in G1, G2, G3. split; [exact G1|]. split; [|exact G3]. intros k I. destruct (zv_ok n k N I) as (i & J & E). apply (G2 k i); auto. apply in_seq. lia.
Qed.
Lemma known_spec g pi : good g -> let '(cube, mask) := known pi (cells g) in length cube = 8%nat /\ (forall k, In k mask -> (k < 8)%nat /\ refers (verts g) pi cube k) /\
  (forall n k, (n < 30)%nat -> In (add pi (offset n)) (map fst (cells g)) -> In k (nth n zv []) -> In k mask).
Proof.
  intros (GN & GV & GC & GU). unfold known.
  assert (G : forall l s, (forall n, In n l -> (n < 30)%nat) -> length (fst s) = 8%nat -> (forall k, In k (snd s) -> (k < 8)%nat /\ refers (verts g) pi (fst s) k) ->
    let r := fold_left (fun s n => match find (cells g) (add pi (nth n neighbors (0, 0, 0))) with Some c => (take n c (fst s), snd s ++ nth n zv []) | None => s end) l s in
    length (fst r) = 8%nat /\ (forall k, In k (snd r) -> (k < 8)%nat /\ refers (verts g) pi (fst r) k) /\ (forall k, In k (snd s) -> In k (snd r)) /\
    (forall n k, In n l -> In (add pi (offset n)) (map fst (cells g)) -> In k (nth n zv []) -> In k (snd r))).
  { induction l as [|n l IH]; intros s B L M; cbn zeta; cbn [fold_left]; [split; [exact L|split; [exact M|split; [auto|intros ? ? []]]]|]. fold (offset n). specialize (B n (or_introl eq_refl)) as N. destruct (find (cells g) (add pi (offset n))) as [c|] eqn:F.
    - apply find_some in F. destruct (GC _ _ F) as (_ & R). destruct (take_spec n c (add pi (offset n)) (verts g) (fst s) pi N eq_refl L R) as (T1 & T2 & T3).
      destruct (IH (take n c (fst s), snd s ++ nth n zv [])) as (I1 & I2 & I3 & I4); [intros m Hm; apply B; right; exact Hm|exact T1| |].
      { cbn [fst snd]. intros k I. apply in_app_iff in I as [I|I]; [destruct (M k I) as (K & K'); split; auto|]. split; [destruct (zv_ok n k N I) as (i & J & E); apply (pairs_ok n i k N J E)|apply T2; exact I]. }
      cbn zeta in I1, I2, I3, I4. cbn [fst snd] in *. split; [exact I1|]. split; [exact I2|]. split; [intros k I; apply I3, in_app_iff; auto|]. intros m k [<-|J] V I; [apply I3, in_app_iff; auto|exact (I4 m k J V I)].
    - destruct (IH s) as (I1 & I2 & I3 & I4); auto; [intros m Hm; apply B; right; exact Hm|]. cbn zeta in I1, I2, I3, I4. split; [exact I1|]. split; [exact I2|]. split; [exact I3|]. intros m k [<-|J] V I; [apply find_none in F; contradiction|exact (I4 m k J V I)]. }
  specialize (G (seq 0 30) (repeat (-1) 8, [])). destruct (fold_left _ (seq 0 30) _) as [cube mask] eqn:E. destruct G as (G1 & G2 & _ & G4); [intros n I; apply in_seq in I; lia|reflexivity|intros k []|]. cbn [fst snd] in *. split; [exact G1|]. split; [exact G2|].
  intros n k N. apply G4. apply in_seq. lia.
Qed.
Lemma nodup_snoc {A} (l : list A) x : NoDup l -> ~ In x l -> NoDup (l ++ [x]).
Proof. intros H N. induction l as [|a l IH]; cbn; [constructor; [intros []|constructor]|]. inversion H; subst. constructor; [intros I; apply in_app_iff in I as [I|[<-|[]]]; [contradiction|apply N; left; reflexivity]|apply IH; auto; intros I; apply N; right; exact I]. Qed.
Lemma refers_app vs ws q c k : refers vs q c k -> refers (vs ++ ws) q c k.
Proof. intros (A & B). split; [exact A|]. rewrite nth_error_app1; [exact B|]. apply nth_error_Some. congruence. Qed.
Lemma put_spec pi mask vs0 (MB : forall k, In k mask -> (k < 8)%nat) (NEW : forall k, (k < 8)%nat -> ~ In k mask -> ~ In (corner pi k) vs0) : forall m cube, (m <= 8)%nat -> length cube = 8%nat -> (forall k, In k mask -> refers vs0 pi cube k) -> NoDup vs0 ->
  let '(c, vs) := fold_left (put pi mask) (seq 0 m) (cube, vs0) in length c = 8%nat /\ NoDup vs /\ (exists ws, vs = vs0 ++ ws) /\ (forall k, In k mask \/ (k < m)%nat -> refers vs pi c k) /\ (forall h, In h vs -> In h vs0 \/ exists k, (k < m)%nat /\ h = corner pi k).
Proof.
  intros m cube. induction m as [|m IH]; intros M L K ND; [cbn; split; [exact L|split; [exact ND|split; [exists []; rewrite app_nil_r; reflexivity|split; [intros k [H|H]; [auto|lia]|auto]]]]|].
  rewrite seq_S, fold_left_app. specialize (IH ltac:(lia) L K ND). destruct (fold_left (put pi mask) (seq 0 m) (cube, vs0)) as [c vs]. destruct IH as (I1 & I2 & (ws & W) & I4 & I5). cbn [fold_left Nat.add]. unfold put. cbn [fst snd].
  destruct (existsb (Nat.eqb m) mask) eqn:E.
  - apply existsb_exists in E as (x & E & X). apply Nat.eqb_eq in X. subst x. split; [exact I1|]. split; [exact I2|]. split; [eauto|]. split; [intros k [H|H]; [auto|]; destruct (Nat.eq_dec k m) as [->|]; [auto|apply I4; right; lia]|].
    intros h H. destruct (I5 h H) as [H'|(k & H' & ->)]; [auto|right; exists k; split; [lia|reflexivity]].
  - assert (NM : ~ In m mask) by (intros H; assert (X : existsb (Nat.eqb m) mask = true) by (apply existsb_exists; exists m; split; [exact H|apply Nat.eqb_refl]); congruence).
    assert (NI : ~ In (corner pi m) vs) by (intros H; destruct (I5 _ H) as [H'|(k & H' & Q)]; [exact (NEW m ltac:(lia) NM H')|apply corner_inj in Q; lia]).
    split; [rewrite set_length; lia|]. split; [apply nodup_snoc; assumption|]. split; [exists (ws ++ [corner pi m]); rewrite W, app_assoc; reflexivity|]. split.
    + intros k H. destruct (Nat.eq_dec k m) as [->|NE].
      * unfold refers. rewrite set_nth, Nat.eqb_refl by lia. split; [lia|]. rewrite Nat2Z.id, nth_error_app2, Nat.sub_diag by lia. reflexivity.
      * apply refers_app. unfold refers. rewrite set_nth by lia. destruct (Nat.eqb_spec k m); [contradiction|]. apply I4. destruct H; [auto|right; lia].
    + intros h H. apply in_app_iff in H as [H|[<-|[]]]; [|right; exists m; split; [lia|reflexivity]]. destruct (I5 h H) as [H'|(k & H' & ->)]; [auto|right; exists k; split; [lia|reflexivity]].
Qed.
Lemma visit_good g e : good g -> good (visit g e) /\ (exists ws, verts (visit g e) = verts g ++ ws) /\
  (forall q, In q (map fst (cells (visit g e))) <-> In q (map fst (cells g)) \/ e = (q, true)).
Proof.
  intros G. specialize (known_spec g (fst e) G) as K. destruct G as (GN & GV & GC & GU). destruct e as [pi b]. cbn [fst] in K. unfold visit. destruct (known pi (cells g)) as [cube mask]. destruct K as (K1 & K2 & K3).
  assert (SAME : In pi (map fst (cells g)) \/ b = false -> good g /\ (exists ws, verts g = verts g ++ ws) /\ (forall q, In q (map fst (cells g)) <-> In q (map fst (cells g)) \/ (pi, b) = (q, true))).
  { intros H. split; [exact (conj GN (conj GV (conj GC GU)))|]. split; [exists []; rewrite app_nil_r; reflexivity|]. intros q. split; [auto|]. intros [Q|Q]; [exact Q|]. injection Q as <- ->. destruct H; [assumption|discriminate]. }
  destruct (find (cells g) pi) as [c0|] eqn:F. { apply SAME. left. apply find_some in F. apply (in_map fst) in F. exact F. }
  destruct b; [|apply SAME; right; reflexivity]. clear SAME. apply find_none in F.
  assert (NEW : forall k, (k < 8)%nat -> ~ In k mask -> ~ In (corner pi k) (verts g)).
  { intros k K8 NM I. destruct (GU _ I) as (q & cq & d & QI & D8 & E). assert (QV : In q (map fst (cells g))) by (apply (in_map fst) in QI; exact QI).
    assert (NE : q <> pi) by (intros ->; contradiction). destruct (shared pi q k d K8 D8 E NE) as (n & N & Q & Z). apply NM. apply (K3 n k N); [rewrite <- Q; exact QV|exact Z]. }
  specialize (put_spec pi mask (verts g) (fun k H => proj1 (K2 k H)) NEW 8 cube (le_n 8) K1 (fun k H => proj2 (K2 k H)) GV) as P.
  destruct (fold_left (put pi mask) (seq 0 8) (cube, verts g)) as [c vs]. destruct P as (P1 & P2 & (ws & P3) & P4 & P5). split; [|split].
  - unfold good. cbn [cells verts]. split; [rewrite map_app; cbn [map fst]; apply nodup_snoc; assumption|]. split; [exact P2|]. split.
    + intros q cq I. apply in_app_iff in I as [I|[I|[]]].
      * destruct (GC q cq I) as (A & B). split; [exact A|]. intros k K8. rewrite P3. apply refers_app. auto.
      * injection I as <- <-. split; [exact P1|]. intros k K8. apply P4. auto.
    + intros h H. destruct (P5 h H) as [H'|(k & K8 & ->)].
      * destruct (GU h H') as (q & cq & k & A & B & C). exists q, cq, k. split; [apply in_app_iff; auto|auto].
      * exists pi, c, k. split; [apply in_app_iff; right; left; reflexivity|auto].
  - exists ws. exact P3.
  - intros q. cbn [cells]. rewrite map_app, in_app_iff. cbn [map fst In]. split; [intros [A|[->|[]]]; auto|intros [A|A]; [auto|injection A as ->; auto]].
Qed.
Lemma run_good es : forall g, good g -> let r := fold_left visit es g in good r /\ (exists ws, verts r = verts g ++ ws) /\ (forall q, In q (map fst (cells r)) <-> In q (map fst (cells g)) \/ In (q, true) es).
Proof.
  induction es as [|e es IH]; intros g G; cbn zeta; cbn [fold_left]; [split; [exact G|split; [exists []; rewrite app_nil_r; reflexivity|intros q; cbn; tauto]]|].
  destruct (visit_good g e G) as (A & (w1 & B) & C). destruct (IH _ A) as (D & (w2 & E) & H). cbn zeta in *. split; [exact D|]. split; [exists (w1 ++ w2); rewrite E, B, app_assoc; reflexivity|]. intros q. rewrite H, C. cbn [In]. tauto.
Qed.
Lemma continuation_good es : good (continuation es) /\ (forall q, In q (map fst (cells (continuation es))) <-> In (q, true) es).
Proof.
  assert (G0 : good {| cells := []; verts := [] |}) by (split; [constructor|split; [constructor|split; [intros ? ? []|intros ? []]]]).
  destruct (run_good es _ G0) as (A & _ & C). split; [exact A|]. intros q. unfold continuation. rewrite C. cbn. tauto.
Qed.

(** ** specification: the eight corners of the unit cube centred at q are the points at distance 1/2 along every axis; in half edges *)
Definition is_corner (h q : vec) : Prop := let '(x, y, z) := h in let '(u, v, w) := q in Z.abs (x - 2 * u) = 1 /\ Z.abs (y - 2 * v) = 1 /\ Z.abs (z - 2 * w) = 1.
(** corner number k as marching cubes expects it (the rows of table :138-141, written out): its signs along the axes *)
Definition sign (k : nat) : vec := match k with
  | 0%nat => (1, 1, -1) | 1%nat => (1, 1, 1) | 2%nat => (-1, 1, 1) | 3%nat => (-1, 1, -1) | 4%nat => (1, -1, -1) | 5%nat => (1, -1, 1) | 6%nat => (-1, -1, 1) | _ => (-1, -1, -1) end.
Definition point_of (q : vec) (k : nat) : vec := let '(u, v, w) := q in let '(a, b, c) := sign k in (2 * u + a, 2 * v + b, 2 * w + c).
(** [vertex g n h]: number n is the vertex h *)
Definition vertex (g : grid) (n : Z) (h : vec) : Prop := 0 <= n /\ nth_error (verts g) (Z.to_nat n) = Some h.

Lemma corner_point q k : (k < 8)%nat -> corner q k = point_of q k.
Proof. intros K. unfold corner, point_of. destruct q as [[u v] w]. do 8 (destruct k as [|k]; [cbn [sign nth corners sub add opp bx by_ bz]; apply f_equal2; [apply f_equal2|]; lia|]). lia. Qed.
Lemma is_corner_iff h q : is_corner h q <-> exists k, (k < 8)%nat /\ h = point_of q k.
Proof.
  destruct h as [[x y] z], q as [[u v] w]. unfold is_corner. split.
  - intros (A & B & C). assert (A' : x = 2 * u + 1 \/ x = 2 * u + -1) by lia. assert (B' : y = 2 * v + 1 \/ y = 2 * v + -1) by lia. assert (C' : z = 2 * w + 1 \/ z = 2 * w + -1) by lia. clear A B C.
    destruct A' as [->| ->], B' as [->| ->], C' as [->| ->]; [exists 1%nat|exists 0%nat|exists 5%nat|exists 4%nat|exists 2%nat|exists 3%nat|exists 6%nat|exists 7%nat]; (split; [lia|reflexivity]).
  - intros (k & K & E). unfold point_of in E. do 8 (destruct k as [|k]; [cbn [sign] in E; apply pair_equal_spec in E as (E & E3); apply pair_equal_spec in E as (E1 & E2); clear - E1 E2 E3; lia|]). lia.
Qed.

(** every voxel that an entry reached is in the grid once *)
Theorem C101_voxels es : NoDup (map fst (cells (continuation es))) /\ forall q, In q (map fst (cells (continuation es))) <-> In (q, true) es.
Proof. destruct (continuation_good es) as ((A & _) & B). auto. Qed.
(** a cube has eight entries; entry k is the number of the vertex at corner k of its own voxel *)
Theorem C101_cubes es q cube : In (q, cube) (cells (continuation es)) -> length cube = 8%nat /\ forall k, (k < 8)%nat -> vertex (continuation es) (nth k cube (-1)) (point_of q k).
Proof. intros I. destruct (continuation_good es) as ((_ & _ & G & _) & _). destruct (G q cube I) as (A & B). split; [exact A|]. intros k K. rewrite <- corner_point by exact K. apply (B k K). Qed.
(** no point is stored twice, and the vertices are exactly the corners of the voxels *)
Theorem C101_vertices es : NoDup (verts (continuation es)) /\ forall h, In h (verts (continuation es)) <-> exists q, In (q, true) es /\ is_corner h q.
Proof.
  destruct (continuation_good es) as ((_ & GV & GC & GU) & B). split; [exact GV|]. intros h. split.
  - intros I. destruct (GU h I) as (q & cube & k & Q & K & ->). exists q. split; [apply B; apply (in_map fst) in Q; exact Q|]. apply is_corner_iff. exists k. split; [exact K|apply corner_point; exact K].
  - intros (q & Q & C). apply B in Q. apply in_map_iff in Q as ((q' & cube) & <- & Q). cbn [fst] in C. apply is_corner_iff in C as (k & K & ->). destruct (C101_cubes es q' cube Q) as (_ & V). apply nth_error_In with (n := Z.to_nat (nth k cube (-1))). apply (V k K).
Qed.
(** two corners of two cubes (or of one) have the same number exactly if they are the same point: the cubes are glued without cracks *)
Theorem C101_glued es q cube r dube j k : In (q, cube) (cells (continuation es)) -> In (r, dube) (cells (continuation es)) -> (j < 8)%nat -> (k < 8)%nat ->
  (nth j cube (-1) = nth k dube (-1) <-> point_of q j = point_of r k).
Proof.
  intros Q R J K. destruct (C101_cubes es q cube Q) as (_ & VQ). destruct (C101_cubes es r dube R) as (_ & VR). specialize (VQ j J) as (A & B). specialize (VR k K) as (C & D). split.
  - intros E. rewrite E, D in B. injection B as E'. auto.
  - intros E. rewrite E, <- D in B. destruct (C101_vertices es) as (ND & _). assert (X : Z.to_nat (nth j cube (-1)) = Z.to_nat (nth k dube (-1))); [|lia]. apply (proj1 (NoDup_nth_error _) ND); [apply nth_error_Some; congruence|exact B].
Qed.
(** the numbers of vertices never change: what a longer run adds comes after *)
Theorem C101_appends es fs : exists ws, verts (continuation (es ++ fs)) = verts (continuation es) ++ ws.
Proof. unfold continuation at 1. rewrite fold_left_app. destruct (continuation_good es) as (G & _). destruct (run_good fs _ G) as (_ & E & _). exact E. Qed.
(** which points are vertices does not depend on the order in which the queue is worked off *)
Theorem C101_order es fs : (forall q, In (q, true) es <-> In (q, true) fs) -> forall h, In h (verts (continuation es)) <-> In h (verts (continuation fs)).
Proof. intros E h. rewrite (proj2 (C101_vertices es)), (proj2 (C101_vertices fs)). split; intros (q & A & B); exists q; (split; [apply E; exact A|exact B]). Qed.

(** three voxels, two sharing a face, the third an edge with the first and a face with the second; one skipped entry and one repeated: 8 + 4 + 4 vertices *)
Example C101_nonvacuous : let g := continuation [((0, 0, 0), true); ((5, 5, 5), false); ((1, 0, 0), true); ((0, 0, 0), true); ((1, 1, 0), true)] in
  map fst (cells g) = [(0, 0, 0); (1, 0, 0); (1, 1, 0)] /\ length (verts g) = 16%nat /\ map snd (cells g) = [[0; 1; 2; 3; 4; 5; 6; 7]; [8; 9; 1; 0; 10; 11; 5; 4]; [12; 13; 14; 15; 8; 9; 1; 0]].
Proof. vm_compute. auto. Qed.

(** ** the values *)
Lemma qmin_cases a b : (qmin a b = a \/ qmin a b = b) /\ (qmin a b <= a)%Q /\ (qmin a b <= b)%Q.
Proof.
  unfold qmin. destruct (Qle_bool a b) eqn:E; [apply Qle_bool_iff in E; split; [auto|split; [apply Qle_refl|exact E]]|].
  assert (L : (b <= a)%Q) by (destruct (Qlt_le_dec b a) as [H|H]; [apply Qlt_le_weak; exact H|apply Qle_bool_iff in H; congruence]). split; [auto|split; [exact L|apply Qle_refl]].
Qed.
Lemma nth_map_seq {A} (f : nat -> A) m k d : (k < m)%nat -> nth k (map f (seq 0 m)) d = f k.
Proof. intros K. rewrite (nth_indep _ d (f 0%nat)) by (rewrite map_length, seq_length; exact K). rewrite (map_nth f (seq 0 m) 0%nat k), seq_nth by exact K. reflexivity. Qed.
Lemma links_ok g pi k id : good g -> In (k, id) (links pi (cells g)) -> (k < 8)%nat /\ nth_error (verts g) (Z.to_nat id) = Some (corner pi k).
Proof.
  intros (_ & _ & GC & _) I. unfold links in I. apply in_flat_map in I as (n & N & I). apply in_seq in N. fold (offset n) in I. destruct (find (cells g) (add pi (offset n))) as [c|] eqn:F; [|destruct I].
  apply find_some in F. destruct (GC _ _ F) as (_ & R). apply in_flat_map in I as (i & J & I). apply in_seq in J. fold (entry n i) (entry (partner n) i) in I. destruct (entry n i) as [k'|] eqn:E; [|destruct I]. destruct I as [I|[]].
  destruct (pairs_ok n i k' ltac:(lia) ltac:(lia) E) as (K8 & _ & d & ED & D8 & OF). rewrite ED in I. injection I as <- <-. split; [exact K8|]. destruct (R d D8) as (_ & R2). rewrite R2. f_equal. unfold corner. fold (off d) (off k'). rewrite OF.
  clear. generalize (offset n) (off d). destruct pi as [[x y] z]. intros [[a b] e] [[f g] h]. cbn [add]. apply f_equal2; [apply f_equal2|]; lia.
Qed.
Lemma links_cover g pi k : good g -> (k < 8)%nat -> In (corner pi k) (verts g) -> exists id, In (k, id) (links pi (cells g)).
Proof.
  intros G K8 I. destruct G as (_ & _ & _ & GU). destruct (GU _ I) as (q & cq & d & QI & D8 & E). apply (in_map fst) in QI. cbn [fst] in QI.
  assert (H : exists n, (n < 30)%nat /\ q = add pi (offset n) /\ In k (nth n zv [])).
  { destruct (vec_dec q pi) as [->|NE]; [|exact (shared pi q k d K8 D8 E NE)]. assert (Z0 : pi = add pi (0, 0, 0)) by (destruct pi as [[x y] z]; cbn [add]; apply f_equal2; [apply f_equal2|]; lia).
    destruct (Nat.lt_ge_cases k 4); [exists 26%nat|exists 28%nat]; (split; [lia|]; split; [exact Z0|]; do 8 (destruct k as [|k]; [cbn; solve [auto 6|lia]|]); lia). }
  destruct H as (n & N & -> & Z). destruct (zv_ok n k N Z) as (i & J & E'). destruct (find (cells g) (add pi (offset n))) as [c|] eqn:F; [|apply find_none in F; contradiction].
  eexists. unfold links. apply in_flat_map. exists n. split; [apply in_seq; lia|]. fold (offset n). rewrite F. apply in_flat_map. exists i. split; [apply in_seq; lia|]. fold (entry n i). rewrite E'. left. reflexivity.
Qed.
(** the values after the pass over the visited neighbors *)
Lemma lower_spec vs pi ans cs0 (ND : NoDup vs) (L0 : length cs0 = length vs) : forall ls s, (forall k id, In (k, id) ls -> (k < 8)%nat /\ nth_error vs (Z.to_nat id) = Some (corner pi k)) ->
  let ok s := length (fst s) = 8%nat /\ length (snd s) = length vs /\ (forall k, (k < 8)%nat -> nth k (fst s) 0 <= ans k)%Q /\
    (forall k, (k < 8)%nat -> nth k (fst s) 0%Q = ans k \/ In (corner pi k) vs) /\
    (forall i, nth i (snd s) 0%Q = nth i cs0 0%Q \/ exists k, (k < 8)%nat /\ nth_error vs i = Some (corner pi k) /\ nth i (snd s) 0%Q = ans k) /\
    (forall i k, (k < 8)%nat -> nth_error vs i = Some (corner pi k) -> nth k (fst s) 0%Q = ans k \/ nth k (fst s) 0%Q = nth i cs0 0%Q) in
  ok s -> let r := fold_left lower ls s in ok r /\ (forall i, nth i (snd r) 0 <= nth i (snd s) 0)%Q /\ (forall k id, In (k, id) ls -> nth (Z.to_nat id) (snd r) 0 <= ans k)%Q.
Proof.
  induction ls as [|[k id] ls IH]; intros s B ok O; cbn zeta; cbn [fold_left]; [split; [exact O|split; [intros i; apply Qle_refl|intros ? ? []]]|].
  destruct (B k id (or_introl eq_refl)) as (K8 & V). set (i0 := Z.to_nat id) in *. assert (I0 : (i0 < length vs)%nat) by (apply nth_error_Some; congruence).
  assert (O' : ok (lower s (k, id)) /\ (forall i, nth i (snd (lower s (k, id))) 0 <= nth i (snd s) 0)%Q /\ (nth i0 (snd (lower s (k, id))) 0 <= ans k)%Q).
  { destruct O as (O1 & O2 & O3 & O4 & O5 & O6). unfold lower. cbn [fst snd]. fold i0. destruct (qmin_cases (nth i0 (snd s) 0%Q) (nth k (fst s) 0%Q)) as (M1 & M2 & M3). set (m := qmin _ _) in *.
    assert (LE : (m <= ans k)%Q) by (eapply Qle_trans; [exact M3|apply O3; exact K8]).
    assert (MM : m = ans k \/ m = nth i0 cs0 0%Q).
    { destruct M1 as [->| ->]; [|exact (O6 i0 k K8 V)]. destruct (O5 i0) as [H|(k' & K' & V' & H)]; [auto|]. rewrite V in V'. injection V' as V'. apply corner_inj in V'; [|assumption..]. subst. auto. }
    split; [|split].
    - unfold ok. cbn [fst snd]. split; [rewrite set_length; lia|]. split; [rewrite set_length; lia|]. split; [|split; [|split]].
      + intros j J. rewrite set_nth by lia. destruct (Nat.eqb_spec j k) as [->|]; [exact LE|apply O3; exact J].
      + intros j J. rewrite set_nth by lia. destruct (Nat.eqb_spec j k) as [->|]; [right; apply nth_error_In in V; exact V|apply O4; exact J].
      + intros i. rewrite set_nth by lia. destruct (Nat.eqb_spec i i0) as [->|]; [|apply O5]. destruct MM as [H|H]; [right; exists k; auto|left; exact H].
      + intros i j J VI. rewrite set_nth by lia. destruct (Nat.eqb_spec j k) as [->|]; [|apply O6; assumption]. assert (i = i0) as -> by (apply (proj1 (NoDup_nth_error vs) ND); [apply nth_error_Some; congruence|congruence]). exact MM.
    - intros i. cbn [snd]. rewrite set_nth by lia. destruct (Nat.eqb_spec i i0) as [->|]; [exact M2|apply Qle_refl].
    - cbn [snd]. rewrite set_nth, Nat.eqb_refl by lia. exact LE. }
  destruct O' as (A1 & A2 & A3). destruct (IH (lower s (k, id)) (fun k' id' H => B k' id' (or_intror H)) A1) as (C1 & C2 & C3). cbn zeta in C1, C2, C3. split; [exact C1|]. split.
  - intros i. eapply Qle_trans; [apply C2|apply A2].
  - intros k' id' [H|H]; [|apply C3; exact H]. injection H as <- <-. eapply Qle_trans; [apply C2|exact A3].
Qed.
Lemma put_verts pi mask m cube vs : snd (fold_left (put pi mask) (seq 0 m) (cube, vs)) = vs ++ map (corner pi) (filter (fun i => negb (existsb (Nat.eqb i) mask)) (seq 0 m)).
Proof.
  induction m as [|m IH]; [cbn; rewrite app_nil_r; reflexivity|]. rewrite seq_S, fold_left_app, filter_app, map_app. cbn [fold_left filter Nat.add]. unfold put at 1. destruct (existsb (Nat.eqb m) mask); cbn [snd negb map]; rewrite IH; [rewrite app_nil_r; reflexivity|rewrite app_assoc; reflexivity].
Qed.
Lemma known_entries g pi : good g -> forall k, nth k (fst (known pi (cells g))) (-1) = -1 \/ refers (verts g) pi (fst (known pi (cells g))) k.
Proof.
  intros (_ & _ & GC & _). unfold known. set (P := fun cube : list Z => length cube = 8%nat /\ forall k, nth k cube (-1) = -1 \/ refers (verts g) pi cube k).
  assert (T : forall n c cube, (n < 30)%nat -> (forall k, (k < 8)%nat -> refers (verts g) (add pi (offset n)) c k) -> P cube -> P (take n c cube)).
  { intros n c cube N R PC. unfold take. assert (B : forall i, In i (seq 0 4) -> (i < 4)%nat) by (intros i I; apply in_seq in I; lia). revert B cube PC. generalize (seq 0 4). induction l as [|i l IH]; intros B cube PC; [exact PC|]. cbn [fold_left].
    apply IH; [intros j J; apply B; right; exact J|]. fold (entry n i) (entry (partner n) i). destruct (entry n i) as [k|] eqn:E; [|exact PC]. destruct (pairs_ok n i k N (B i (or_introl eq_refl)) E) as (K8 & _ & d & ED & D8 & OF). rewrite ED. destruct PC as (PL & PK).
    split; [rewrite set_length; lia|]. intros k'. unfold refers. rewrite set_nth by lia. destruct (Nat.eqb_spec k' k) as [->|]; [|apply PK]. right. destruct (R d D8) as (R1 & R2). split; [exact R1|]. rewrite R2. f_equal. unfold corner. fold (off d) (off k). rewrite OF.
    clear. generalize (offset n) (off d). destruct pi as [[x y] z]. intros [[a b] e] [[f g] h]. cbn [add]. apply f_equal2; [apply f_equal2|]; lia. }
  assert (F : forall l s, (forall n, In n l -> (n < 30)%nat) -> P (fst s) -> P (fst (fold_left (fun s n => match find (cells g) (add pi (nth n neighbors (0, 0, 0))) with Some c => (take n c (fst s), snd s ++ nth n zv []) | None => s end) l s))).
  { induction l as [|n l IH]; intros s B PS; [exact PS|]. cbn [fold_left]. apply IH; [intros m M; apply B; right; exact M|]. fold (offset n). destruct (find (cells g) (add pi (offset n))) as [c|] eqn:Fd; [|exact PS]. apply find_some in Fd. apply T; [apply B; left; reflexivity|apply (GC _ _ Fd)|exact PS]. }
  apply F; [intros n I; apply in_seq in I; lia|]. split; [reflexivity|]. intros k. left. do 8 (destruct k as [|k]; [reflexivity|]). destruct k; reflexivity.
Qed.
Definition sound (s : state) : Prop := good (grd s) /\ length (scalars s) = length (verts (grd s)).
Lemma work_spec s pi b ans : sound s -> let s' := work s (pi, b, ans) in
  sound s' /\ (exists ws, verts (grd s') = verts (grd s) ++ ws) /\ (forall i, (i < length (verts (grd s)))%nat -> nth i (scalars s') 0 <= nth i (scalars s) 0)%Q /\
  (forall i h, nth_error (verts (grd s')) i = Some h -> ((i < length (verts (grd s)))%nat /\ nth i (scalars s') 0%Q = nth i (scalars s) 0%Q) \/ exists k, (k < 8)%nat /\ h = corner pi k /\ nth i (scalars s') 0%Q = ans k) /\
  (b = true \/ In pi (map fst (cells (grd s))) -> forall k, (k < 8)%nat -> exists i, nth_error (verts (grd s')) i = Some (corner pi k) /\ (nth i (scalars s') 0 <= ans k \/ nth i (scalars s') 0 <= 0)%Q) /\
  (forall q, In q (map fst (cells (grd s))) -> In q (map fst (cells (grd s')))) /\
  (forall q, In q (map fst (cells (grd s'))) -> In q (map fst (cells (grd s))) \/ (q = pi /\ b = true)) /\
  (b = true -> In pi (map fst (cells (grd s'))) \/ forall k, (k < 8)%nat -> exists i, nth_error (verts (grd s')) i = Some (corner pi k) /\ (nth i (scalars s') 0 <= 0)%Q).
Proof.
  intros (G & L). specialize (known_spec (grd s) pi G) as K. specialize (known_entries (grd s) pi G) as KE. specialize (visit_good (grd s) (pi, b) G) as (VG & VW & VC). unfold work. cbn zeta.
  destruct (known pi (cells (grd s))) as [cube mask] eqn:EK. destruct K as (K1 & K2 & K3). cbn [fst] in KE.
  destruct (inside cube (scalars s)) eqn:EI.
  - assert (IN : forall k, (k < 8)%nat -> exists i, nth_error (verts (grd s)) i = Some (corner pi k) /\ (nth i (scalars s) 0 <= 0)%Q).
    { intros k K8. unfold inside in EI. rewrite forallb_forall in EI. specialize (EI k (inseq 8 k K8)). apply andb_prop in EI as (E1 & E2). apply Qle_bool_iff in E2. destruct (KE k) as [H|(_ & H)]; [rewrite H in E1; discriminate|]. eexists. split; [exact H|exact E2]. }
    split; [split; assumption|]. split; [exists []; rewrite app_nil_r; reflexivity|]. split; [intros i _; apply Qle_refl|]. split; [intros i h H; left; split; [apply nth_error_Some; congruence|reflexivity]|].
    split; [intros _ k K8; destruct (IN k K8) as (i & A & B); eauto|]. split; [auto|]. split; [auto|]. intros _. right. exact IN.
  - destruct (lower_spec (verts (grd s)) pi ans (scalars s) (proj1 (proj2 G)) L (links pi (cells (grd s))) (map ans (seq 0 8), scalars s)) as (O & M & C).
    { intros k id I. apply (links_ok (grd s) pi k id G I). }
    { cbn [fst snd]. split; [rewrite map_length, seq_length; reflexivity|]. split; [exact L|]. split; [intros k K8; rewrite nth_map_seq by exact K8; apply Qle_refl|]. split; [intros k K8; left; apply nth_map_seq; exact K8|]. split; [auto|]. intros i k K8 _. left. apply nth_map_seq; exact K8. }
    cbn zeta in O, M, C. destruct (fold_left lower _ _) as [scal cs]. cbn [fst snd] in *. destruct O as (O1 & O2 & O3 & O4 & O5 & _). cbn [grd scalars].
    set (nw := filter (fun i => negb (existsb (Nat.eqb i) mask)) (seq 0 8)).
    assert (NWS : forall k, In k nw <-> (k < 8)%nat /\ ~ In k mask).
    { intros k. unfold nw. rewrite filter_In, in_seq, negb_true_iff. split; intros (A & B); (split; [lia|]).
      - intros I. assert (X : existsb (Nat.eqb k) mask = true) by (apply existsb_exists; exists k; split; [exact I|apply Nat.eqb_refl]). congruence.
      - destruct (existsb (Nat.eqb k) mask) eqn:E; [|reflexivity]. apply existsb_exists in E as (x & X1 & X2). apply Nat.eqb_eq in X2. subst x. contradiction. }
    assert (OLD : forall i h, nth_error (verts (grd s)) i = Some h -> (nth i cs 0 = nth i (scalars s) 0)%Q \/ True) by auto. clear OLD.
    (* the two cases *)
    assert (CS : (In pi (map fst (cells (grd s))) \/ b = false) /\ visit (grd s) (pi, b) = grd s /\ (match find (cells (grd s)) pi with None => if b then cs ++ map (fun i => nth i scal 0%Q) nw else cs | Some _ => cs end) = cs \/
      ~ In pi (map fst (cells (grd s))) /\ b = true /\ verts (visit (grd s) (pi, b)) = verts (grd s) ++ map (corner pi) nw /\ (match find (cells (grd s)) pi with None => if b then cs ++ map (fun i => nth i scal 0%Q) nw else cs | Some _ => cs end) = cs ++ map (fun i => nth i scal 0%Q) nw).
    { unfold visit. rewrite EK. destruct (find (cells (grd s)) pi) as [c0|] eqn:F; [left; apply find_some, (in_map fst) in F; auto|]. apply find_none in F. destruct b; [|left; auto]. right. split; [exact F|]. split; [reflexivity|]. split; [|reflexivity].
      specialize (put_verts pi mask 8 cube (verts (grd s))) as PV. destruct (fold_left (put pi mask) (seq 0 8) (cube, verts (grd s))). exact PV. }
    destruct CS as [(Q1 & Q2 & Q3)|(Q1 & Q2 & Q3 & Q4)].
    + rewrite Q2, Q3. split; [split; [exact G|exact O2]|]. split; [exists []; rewrite app_nil_r; reflexivity|]. split; [intros i _; apply M|]. split.
      { intros i h H. assert (I : (i < length (verts (grd s)))%nat) by (apply nth_error_Some; congruence). destruct (O5 i) as [E|(k & K8 & V & E)]; [left; auto|right; exists k; split; [exact K8|]; split; [congruence|exact E]]. }
      assert (PV : b = true \/ In pi (map fst (cells (grd s))) -> In pi (map fst (cells (grd s)))) by (intros [->|H]; [destruct Q1; [assumption|discriminate]|exact H]).
      split; [|split; [auto|split; [auto|intros H; left; apply PV; auto]]].
      intros H k K8. assert (VI : In (corner pi k) (verts (grd s))). { apply PV in H. apply in_map_iff in H as ((q & cq) & <- & H). destruct G as (_ & _ & GC & _). destruct (GC _ _ H) as (_ & R). destruct (R k K8) as (_ & R2). apply nth_error_In in R2. exact R2. }
      destruct (links_cover (grd s) pi k G K8 VI) as (id & I). exists (Z.to_nat id). split; [apply (links_ok _ _ _ _ G I)|]. left. apply (C k id I).
    + rewrite Q3, Q4. assert (NN : forall k, In k nw -> nth k scal 0%Q = ans k).
      { intros k I. apply NWS in I as (K8 & NM). destruct (O4 k K8) as [E|E]; [exact E|]. destruct VG as (_ & VN & _). rewrite Q3 in VN. exfalso.
        assert (I2 : In (corner pi k) (map (corner pi) nw)) by (apply in_map; apply NWS; auto). revert VN E I2. clear. induction (verts (grd s)) as [|a l IH]; [intros _ []|]. cbn [app]. intros VN [->|E] I2; inversion VN; subst; [apply H1, in_app_iff; auto|auto]. }
      split; [split; [exact VG|cbn [grd scalars]; rewrite Q3, !app_length, !map_length; lia]|]. split; [eauto|]. split; [intros i I; rewrite app_nth1 by lia; apply M|]. split.
      { intros i h H. destruct (Nat.lt_ge_cases i (length (verts (grd s)))) as [I|I].
        - rewrite nth_error_app1 in H by exact I. rewrite app_nth1 by lia. destruct (O5 i) as [E|(k & K8 & V & E)]; [left; auto|right; exists k; split; [exact K8|]; split; [congruence|exact E]].
        - rewrite nth_error_app2 in H by exact I. rewrite app_nth2, O2 by lia. set (j := (i - length (verts (grd s)))%nat) in *. right.
          rewrite nth_error_map in H. destruct (nth_error nw j) as [k|] eqn:E; [|discriminate]. injection H as <-. exists k. pose proof (nth_error_In _ _ E) as KI. split; [apply NWS; exact KI|]. split; [reflexivity|].
          rewrite (nth_indep _ 0%Q (nth 0 scal 0%Q)) by (rewrite map_length; apply nth_error_Some; congruence). rewrite (map_nth (fun i => nth i scal 0%Q) nw 0%nat j). rewrite (nth_error_nth _ _ _ E). apply NN. exact KI. }
      split; [|split; [|split]].
      2: { intros q H. apply (proj2 (VC q)). left. exact H. }
      2: { intros q H. apply (proj1 (VC q)) in H. destruct H as [H|H]; [left; exact H|right; split; [injection H as H _; symmetry; exact H|exact Q2]]. }
      2: { intros _. left. apply (proj2 (VC pi)). right. rewrite Q2. reflexivity. }
      intros _ k K8. destruct (in_dec vec_dec (corner pi k) (verts (grd s))) as [VI|NI].
      * destruct (links_cover (grd s) pi k G K8 VI) as (id & I). exists (Z.to_nat id). specialize (links_ok _ _ _ _ G I) as (_ & V). assert (X : (Z.to_nat id < length (verts (grd s)))%nat) by (apply nth_error_Some; congruence). split; [rewrite nth_error_app1; [exact V|exact X]|]. left. rewrite app_nth1 by lia. apply (C k id I).
      * assert (KN : In k nw) by (apply NWS; split; [exact K8|]; intros I; apply NI; destruct (K2 k I) as (_ & _ & V); apply nth_error_In in V; exact V).
        apply In_nth_error in KN as (j & E). pose proof (nth_error_In _ _ E) as KI. exists (length (verts (grd s)) + j)%nat. split; [rewrite nth_error_app2, Nat.add_comm, Nat.add_sub by lia; rewrite nth_error_map, E; reflexivity|]. left.
        rewrite app_nth2, O2 by lia. replace (length (verts (grd s)) + j - length (verts (grd s)))%nat with j by lia. rewrite (nth_indep _ 0%Q (nth 0 scal 0%Q)) by (rewrite map_length; apply nth_error_Some; congruence). rewrite (map_nth (fun i => nth i scal 0%Q) nw 0%nat j), (nth_error_nth _ _ _ E), NN by exact KI. apply Qle_refl.
Qed.
(** a run: what holds after the entries es, relative to the state s0 in which it starts *)
Lemma fold_cons e es s : fold_left work (e :: es) s = fold_left work es (work s e).
Proof. reflexivity. Qed.
Lemma run_spec es : forall s0, sound s0 -> forall s, s = fold_left work es s0 ->
  sound s /\ (exists ws, verts (grd s) = verts (grd s0) ++ ws) /\ (forall i, (i < length (verts (grd s0)))%nat -> nth i (scalars s) 0 <= nth i (scalars s0) 0)%Q /\
  (forall i h, nth_error (verts (grd s)) i = Some h -> ((i < length (verts (grd s0)))%nat /\ nth i (scalars s) 0%Q = nth i (scalars s0) 0%Q) \/ exists q b ans k, In (q, b, ans) es /\ (k < 8)%nat /\ h = corner q k /\ nth i (scalars s) 0%Q = ans k) /\
  (forall q, In q (map fst (cells (grd s0))) -> In q (map fst (cells (grd s)))) /\
  (forall q, In q (map fst (cells (grd s))) -> In q (map fst (cells (grd s0))) \/ exists ans, In (q, true, ans) es).
Proof.
  induction es as [|[[q b] ans] es IH]; intros s0 S0 s ES.
  - cbn [fold_left] in ES. subst s. split; [exact S0|]. split; [exists []; rewrite app_nil_r; reflexivity|]. split; [intros i _; apply Qle_refl|]. split; [intros i h H; left; split; [apply nth_error_Some; congruence|reflexivity]|]. split; [intros q H; exact H|intros q H; left; exact H].
  - rewrite fold_cons in ES. pose proof (work_spec s0 q b ans S0) as W. cbv zeta in W. revert W ES. generalize (work s0 (q, b, ans)). intros s1 (A1 & (w1 & A2) & A3 & A4 & _ & A6 & A7 & _) ES. destruct (IH _ A1 _ ES) as (B1 & (w2 & B2) & B3 & B4 & B5 & B6). clear IH ES.
    assert (LE : (length (verts (grd s0)) <= length (verts (grd s1)))%nat) by (rewrite A2, app_length; lia).
    split; [exact B1|]. split; [exists (w1 ++ w2); rewrite B2, A2, app_assoc; reflexivity|]. split; [intros i I; eapply Qle_trans; [apply B3; lia|apply A3; exact I]|]. split; [|split].
    + intros i h H. destruct (B4 i h H) as [(I & E)|(q' & b' & ans' & k & I & K8 & -> & E)]; [|right; exists q', b', ans', k; split; [right; exact I|auto]].
      assert (H' : nth_error (verts (grd s1)) i = Some h) by (rewrite B2, nth_error_app1 in H by exact I; exact H).
      destruct (A4 i h H') as [(I' & E')|(k & K8 & -> & E')]; [left; split; [exact I'|congruence]|right; exists q, b, ans, k; split; [left; reflexivity|]; split; [exact K8|]; split; [reflexivity|congruence]].
    + intros q' H. apply B5, A6, H.
    + intros q' H. destruct (B6 q' H) as [H'|(a & H')]; [|right; exists a; right; exact H']. destruct (A7 q' H') as [H2|(E1 & E2)]; [left; exact H2|right; exists ans; left; rewrite E1, E2; reflexivity].
Qed.
Definition empty : state := {| grd := {| cells := []; verts := [] |}; scalars := [] |}.
Lemma sound_empty : sound empty.
Proof. split; [split; [constructor|split; [constructor|split; [intros ? ? []|intros ? []]]]|reflexivity]. Qed.
(** an entry whose corners all have values that are not positive is skipped; the rest of a run lowers values only *)
Lemma at_entry es q b ans fs : let s := run (es ++ (q, b, ans) :: fs) in
  (b = true \/ In q (map fst (cells (grd (run es)))) -> forall k, (k < 8)%nat -> exists i, nth_error (verts (grd s)) i = Some (corner q k) /\ (nth i (scalars s) 0 <= ans k \/ nth i (scalars s) 0 <= 0)%Q) /\
  (b = true -> In q (map fst (cells (grd s))) \/ forall k, (k < 8)%nat -> exists i, nth_error (verts (grd s)) i = Some (corner q k) /\ (nth i (scalars s) 0 <= 0)%Q).
Proof.
  cbv zeta. assert (ER : run (es ++ (q, b, ans) :: fs) = fold_left work fs (work (run es) (q, b, ans))) by (unfold run; rewrite fold_left_app; apply fold_cons).
  destruct (run_spec es empty sound_empty (run es) eq_refl) as (S0 & _). pose proof (work_spec (run es) q b ans S0) as W. cbv zeta in W. revert W ER. generalize (run (es ++ (q, b, ans) :: fs)), (work (run es) (q, b, ans)). intros s s1 (A1 & _ & _ & _ & A5 & _ & _ & A8) ER.
  destruct (run_spec fs _ A1 _ ER) as (_ & (ws & B2) & B3 & _ & B5 & _). clear ER. split.
  - intros H k K8. destruct (A5 H k K8) as (i & V & LE). exists i. assert (I : (i < length (verts (grd s1)))%nat) by (apply nth_error_Some; congruence). split; [rewrite B2, nth_error_app1; [exact V|exact I]|].
    destruct LE as [LE|LE]; [left|right]; (eapply Qle_trans; [apply B3; exact I|exact LE]).
  - intros H. destruct (A8 H) as [C|C]; [left; apply B5; exact C|right]. intros k K8. destruct (C k K8) as (i & V & LE). exists i. assert (I : (i < length (verts (grd s1)))%nat) by (apply nth_error_Some; congruence). split; [rewrite B2, nth_error_app1; [exact V|exact I]|].
    eapply Qle_trans; [apply B3; exact I|exact LE].
Qed.
(** [value s h x]: the grid has the vertex h, with the value x *)
Definition value (s : state) (h : vec) (x : Q) : Prop := exists i, nth_error (verts (grd s)) i = Some h /\ nth i (scalars s) 0%Q = x.
Lemma run_sound es : sound (run es).
Proof. destruct (run_spec es empty sound_empty (run es) eq_refl) as (S0 & _). exact S0. Qed.

(** whatever the scalar function answers: only voxels of entries get a cube, each once, and the numbers of a cube are those of its corners, stored once *)
Theorem C101_run_cubes es : let s := run es in NoDup (map fst (cells (grd s))) /\ NoDup (verts (grd s)) /\ length (scalars s) = length (verts (grd s)) /\
  (forall q cube, In (q, cube) (cells (grd s)) -> (exists ans, In (q, true, ans) es) /\ length cube = 8%nat /\ forall k, (k < 8)%nat -> vertex (grd s) (nth k cube (-1)) (point_of q k)).
Proof.
  cbv zeta. destruct (run_spec es empty sound_empty (run es) eq_refl) as (((GN & GV & GC & GU) & L) & _ & _ & _ & _ & B). split; [exact GN|]. split; [exact GV|]. split; [exact L|]. intros q cube I. split.
  - apply (in_map fst) in I. destruct (B q I) as [[]|H]. exact H.
  - destruct (GC q cube I) as (X & Y). split; [exact X|]. intros k K. rewrite <- corner_point by exact K. apply (Y k K).
Qed.
(** an entry is only passed over when the voxel lies inside for good: all its corners are vertices, and in the end none has a positive value *)
Theorem C101_skipped es q ans : In (q, true, ans) es -> In q (map fst (cells (grd (run es)))) \/ forall h, is_corner h q -> exists x, value (run es) h x /\ (x <= 0)%Q.
Proof.
  intros I. apply in_split in I as (es1 & fs & ->). destruct (at_entry es1 q true ans fs) as (_ & H). destruct (H eq_refl) as [C|C]; [left; exact C|right]. intros h IC. apply is_corner_iff in IC as (k & K8 & ->). destruct (C k K8) as (i & V & LE).
  eexists. split; [exists i; split; [rewrite <- corner_point by exact K8; exact V|reflexivity]|exact LE].
Qed.
(** the value of a vertex is what the scalar function answered there for one of the entries *)
Theorem C101_value_answered es h x : value (run es) h x -> exists q b ans k, In (q, b, ans) es /\ (k < 8)%nat /\ h = point_of q k /\ x = ans k.
Proof.
  intros (i & V & <-). destruct (run_spec es empty sound_empty (run es) eq_refl) as (_ & _ & _ & A & _). destruct (A i h V) as [(I & _)|(q & b & ans & k & I & K8 & -> & E)]; [cbn in I; lia|]. exists q, b, ans, k. rewrite corner_point by exact K8. auto.
Qed.
(** and no larger than any answer for it, where positive: new entries and corrections of visited voxels *)
Theorem C101_value_least es q b ans fs h x k : b = true \/ In q (map fst (cells (grd (run es)))) -> (k < 8)%nat -> h = point_of q k -> value (run (es ++ (q, b, ans) :: fs)) h x -> (x <= ans k \/ x <= 0)%Q.
Proof.
  intros H K8 -> (i & V & <-). destruct (at_entry es q b ans fs) as (A & _). destruct (A H k K8) as (j & VJ & LE). rewrite corner_point in VJ by exact K8. destruct (run_sound (es ++ (q, b, ans) :: fs)) as ((_ & ND & _) & _).
  assert (i = j) as ->; [|exact LE]. apply (proj1 (NoDup_nth_error _) ND); [apply nth_error_Some; intros X; assert (Y : Some (point_of q k) = None) by (etransitivity; [symmetry; exact V|exact X]); discriminate Y|etransitivity; [exact V|symmetry; exact VJ]].
Qed.
(** values only decrease and vertices keep their numbers *)
Theorem C101_monotone es fs i h : nth_error (verts (grd (run es))) i = Some h -> nth_error (verts (grd (run (es ++ fs)))) i = Some h /\ (nth i (scalars (run (es ++ fs))) 0 <= nth i (scalars (run es)) 0)%Q.
Proof.
  intros V. destruct (run_spec fs (run es) (run_sound es) (run (es ++ fs))) as (_ & (ws & E) & M & _); [unfold run; apply fold_left_app|]. assert (I : (i < length (verts (grd (run es))))%nat) by (apply nth_error_Some; congruence). split; [rewrite E, nth_error_app1 by exact I; exact V|apply M; exact I].
Qed.
(** a row of voxels: the third entry is skipped, as its voxel lies between two visited ones with negative values; the fourth shares a face with the second *)
Example C101_run_nonvacuous : let a (x : Q) := fun _ : nat => x in let s := run [((-1, 0, 0), true, a (-2)%Q); ((1, 0, 0), true, a (-1)%Q); ((0, 0, 0), true, a 5%Q); ((2, 0, 0), true, a 3%Q)] in
  map fst (cells (grd s)) = [(-1, 0, 0); (1, 0, 0); (2, 0, 0)] /\ length (verts (grd s)) = 20%nat /\ scalars s = (repeat (-2) 8 ++ repeat (-1) 8 ++ repeat 3 4)%list%Q.
Proof. vm_compute. auto. Qed.
(** a correction lowers the values of a visited voxel *)
Example C101_run_corrected : let a (x : Q) := fun _ : nat => x in scalars (run [((0, 0, 0), true, a 3%Q); ((0, 0, 0), false, a 1%Q); ((0, 0, 0), false, a 2%Q)]) = repeat 1%Q 8.
Proof. vm_compute. auto. Qed.
