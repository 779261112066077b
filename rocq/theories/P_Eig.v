(** C75: grid_laplacian_eigenfunctions *)
From Coq Require Import Reals Lra Psatz List Arith Lia Permutation.
From Verif Require Import EigModel.
Import ListNotations.
Open Scope R_scope.

(** ** Specification *)
(** np.argsort: a permutation of the positions along which the values do not decrease *)
Definition argsort_ok (argsort : list R -> list nat) : Prop := forall l, Permutation (argsort l) (seq 0 (length l)) /\
  forall i j a b, (i < j)%nat -> nth_error (argsort l) i = Some a -> nth_error (argsort l) j = Some b -> nth a l 0 <= nth b l 0.
(** the Neumann eigenvalue of the mode (i,j) of the rectangle [0,l0] x [0,l1] (with opposite sign: - Laplacian) and its eigenfunction *)
Definition lam2 (l0 l1 : R) (m : nat * nat) : R := PI ^ 2 * ((INR (fst m) / l0) ^ 2 + (INR (snd m) / l1) ^ 2).
Definition wave2 (l0 l1 : R) (m : nat * nat) (x y : R) : R := cos (INR (fst m) * PI * x / l0) * cos (INR (snd m) * PI * y / l1).
Definition lam3 (l0 l1 l2 : R) (m : nat * nat * nat) : R := PI ^ 2 * ((INR (fst (fst m)) / l0) ^ 2 + (INR (snd (fst m)) / l1) ^ 2 + (INR (snd m) / l2) ^ 2).
Definition wave3 (l0 l1 l2 : R) (m : nat * nat * nat) (x y z : R) : R := cos (INR (fst (fst m)) * PI * x / l0) * cos (INR (snd (fst m)) * PI * y / l1) * cos (INR (snd m) * PI * z / l2).
(** k-th of g equally spaced points of [0,l] *)
Definition node (l : R) (g k : nat) : R := INR k / INR (g - 1) * l.

(** ** Proofs *)
Lemma linspace_node l g k : (k < g)%nat -> linspace0 l g k = node l g k.
Proof. intro H. unfold linspace0, node. destruct (Nat.eqb_spec g 1) as [->|N]; [assert (k = 0)%nat as -> by lia; cbn; lra|]. field. apply not_0_INR. lia. Qed.
Lemma nth_error_firstn {A} (l : list A) n k : (k < n)%nat -> nth_error (firstn n l) k = nth_error l k.
Proof. revert n k. induction l as [|a l IH]; intros [|n] [|k] H; try lia; cbn; auto. apply IH. lia. Qed.
Lemma In_firstn {A} (l : list A) n x : In x (firstn n l) -> In x l.
Proof. intro H. rewrite <- (firstn_skipn n l). apply in_or_app. auto. Qed.
Section Core.
  Variable argsort : list R -> list nat.
  Hypothesis AS : argsort_ok argsort.
  Variable T : Type. Variable code : T -> list nat. Variable CT : list T. Variable d0 : T. Variable l : list R.
  Hypothesis ND : NoDup CT.
  Let cands := map code CT.
  Let order := argsort (map (eigval l) cands).
  Definition chosen (K : nat) : list T := map (fun i => nth i CT d0) (firstn K order).
  Lemma order_perm : Permutation order (seq 0 (length CT)).
  Proof. unfold order. destruct (AS (map (eigval l) cands)) as [P _]. unfold cands in P. rewrite !map_length in P. exact P. Qed.
  Lemma order_lt i : In i order -> (i < length CT)%nat.
  Proof. intro H. apply (Permutation_in _ order_perm) in H. apply in_seq in H. lia. Qed.
  Lemma order_nodup : NoDup order. Proof. eapply Permutation_NoDup; [apply Permutation_sym, order_perm|apply seq_NoDup]. Qed.
  Lemma chosen_len K : length (chosen K) = Nat.min K (length CT).
  Proof. unfold chosen. rewrite map_length, firstn_length. f_equal. rewrite (Permutation_length order_perm). apply seq_length. Qed.
  Lemma chosen_in K m : In m (chosen K) -> In m CT.
  Proof. intro H. apply in_map_iff in H as (i & <- & H). apply nth_In, order_lt, (In_firstn _ _ _ H). Qed.
  Lemma nodup_firstn {A} (L : list A) n : NoDup L -> NoDup (firstn n L).
  Proof. revert n. induction L as [|a L IH]; intros [|n] H; cbn; try constructor; inversion H; subst; auto. intro Q. apply In_firstn in Q. contradiction. Qed.
  Lemma chosen_nodup K : NoDup (chosen K).
  Proof.
    unfold chosen. assert (forall i, In i (firstn K order) -> (i < length CT)%nat) as B by (intros i Hi; apply order_lt, (In_firstn _ _ _ Hi)). pose proof (nodup_firstn order K order_nodup) as N.
    induction (firstn K order) as [|a L IH]; [constructor|]. inversion N; subst. cbn [map]. constructor; [|apply IH; auto; intros; apply B; right; auto].
    intro H. apply in_map_iff in H as (b & E & Hb). apply H1. pose proof (proj1 (NoDup_nth CT d0) ND b a (B b (or_intror Hb)) (B a (or_introl eq_refl)) E) as <-. exact Hb.
  Qed.
  Lemma val_at i : (i < length CT)%nat -> nth i (map (eigval l) cands) 0 = eigval l (code (nth i CT d0)).
  Proof. intro H. unfold cands. rewrite map_map. rewrite nth_indep with (d' := eigval l (code d0)) by (rewrite map_length; exact H). apply (map_nth (fun x => eigval l (code x))). Qed.
  Lemma order_sorted i j a b : (i < j)%nat -> nth_error order i = Some a -> nth_error order j = Some b -> eigval l (code (nth a CT d0)) <= eigval l (code (nth b CT d0)).
  Proof. intros H Ha Hb. rewrite <- !val_at by (apply order_lt; eapply nth_error_In; eauto). destruct (AS (map (eigval l) cands)) as [_ S]. eapply S; eauto. Qed.
  Lemma chosen_sorted K i j a b : (i < j)%nat -> nth_error (chosen K) i = Some a -> nth_error (chosen K) j = Some b -> eigval l (code a) <= eigval l (code b).
  Proof.
    intros H Ha Hb. assert (j < K)%nat. { assert (nth_error (chosen K) j <> None) as Q by congruence. apply nth_error_Some in Q. rewrite chosen_len in Q. lia. }
    unfold chosen in Ha, Hb. rewrite nth_error_map in Ha, Hb. rewrite nth_error_firstn in Ha, Hb by lia. destruct (nth_error order i) eqn:Ei; [|discriminate]. destruct (nth_error order j) eqn:Ej; [|discriminate]. injection Ha as <-. injection Hb as <-. exact (order_sorted i j _ _ H Ei Ej).
  Qed.
  Lemma chosen_least K m m' : In m CT -> ~ In m (chosen K) -> In m' (chosen K) -> eigval l (code m') <= eigval l (code m).
  Proof.
    intros Hm Hn Hm'. apply In_nth with (d := d0) in Hm as (a & La & <-). assert (In a order) as Ia by (apply (Permutation_in _ (Permutation_sym order_perm)), in_seq; lia).
    unfold chosen in Hm'. apply in_map_iff in Hm' as (b & <- & Hb). apply In_nth_error in Hb as (ib & Hb). apply In_nth_error in Ia as (ia & Ha).
    assert (ib < K)%nat as B. { assert (nth_error (firstn K order) ib <> None) as Q by congruence. apply nth_error_Some in Q. rewrite firstn_length in Q. lia. }
    rewrite nth_error_firstn in Hb by exact B. assert (K <= ia)%nat. { destruct (le_lt_dec K ia); [assumption|exfalso]. apply Hn. unfold chosen. apply in_map_iff. exists a. split; [reflexivity|]. apply nth_error_In with ia. rewrite nth_error_firstn by assumption. exact Ha. }
    apply (order_sorted ib ia b a); [lia|exact Hb|exact Ha].
  Qed.
  Lemma core_at K pts r s : eig_core argsort cands l pts K r s = match nth_error (chosen K) s with Some m => psi (code m) l (nth r pts []) | None => 1 end.
  Proof.
    unfold eig_core. fold order. unfold chosen. rewrite nth_error_map. destruct (nth_error (firstn K order) s) as [i|] eqn:E; [|reflexivity]. cbn [option_map]. f_equal.
    assert (i < length CT)%nat by (apply order_lt, (In_firstn _ K), (nth_error_In _ _ E)). unfold cands. rewrite nth_indep with (d' := code d0) by (rewrite map_length; assumption). apply map_nth.
  Qed.
End Core.
Definition pairs (q : nat) : list (nat * nat) := map (fun i => (i / q, i mod q)%nat) (seq 0 (q * q)).
Lemma cands2_pairs q : cands2 q = map (fun m => [fst m; snd m]) (pairs q).
Proof. unfold cands2, pairs. rewrite map_map. reflexivity. Qed.
Lemma nodup_map_inj {A B} (f : A -> B) L : (forall x y, In x L -> In y L -> f x = f y -> x = y) -> NoDup L -> NoDup (map f L).
Proof. intros I N. induction N as [|a L H N IH]; [constructor|]. cbn. constructor; [|apply IH; intros; apply I; auto; right; auto]. intro Q. apply in_map_iff in Q as (b & E & Hb). apply H. rewrite (I a b); auto; [left; reflexivity|right; assumption]. Qed.
Lemma pairs_nodup q : NoDup (pairs q).
Proof.
  apply nodup_map_inj; [|apply seq_NoDup]. intros x y Hx Hy E. apply in_seq in Hx, Hy. pose proof (f_equal fst E) as E1. pose proof (f_equal snd E) as E2. cbn [fst snd] in E1, E2. assert (q <> 0)%nat by lia.
  rewrite (Nat.div_mod x q), (Nat.div_mod y q) by lia. rewrite E1, E2. reflexivity.
Qed.
Lemma pairs_in q i j : In (i, j) (pairs q) <-> (i < q /\ j < q)%nat.
Proof.
  unfold pairs. rewrite in_map_iff. split.
  - intros (k & E & H). apply in_seq in H. pose proof (f_equal fst E) as E1. pose proof (f_equal snd E) as E2. cbn [fst snd] in E1, E2. subst i j. assert (q <> 0)%nat by nia. split; [apply Nat.div_lt_upper_bound; lia|apply Nat.mod_upper_bound; lia].
  - intros [H1 H2]. exists (i * q + j)%nat. split; [|apply in_seq; nia]. f_equal; [rewrite Nat.div_add_l by lia; rewrite Nat.div_small by lia; lia|]. rewrite Nat.add_comm, Nat.mod_add by lia. apply Nat.mod_small. lia.
Qed.
Lemma eigval2 l0 l1 m : eigval [l0; l1] [fst m; snd m] = lam2 l0 l1 m.
Proof. unfold eigval, lam2. cbn [combine fold_left fst snd]. ring. Qed.
Lemma psi2 l0 l1 m x y : psi [fst m; snd m] [l0; l1] [x; y] = wave2 l0 l1 m x y.
Proof. unfold psi, wave2. cbn [combine fold_left fst snd]. ring. Qed.
Lemma lam2_mono l0 l1 i j i' j' : 0 < l0 -> 0 < l1 -> (i <= i')%nat -> (j <= j')%nat -> lam2 l0 l1 (i, j) <= lam2 l0 l1 (i', j').
Proof.
  intros P0 P1 H1 H2. unfold lam2. cbn [fst snd]. apply Rmult_le_compat_l; [apply pow2_ge_0|]. apply le_INR in H1, H2. pose proof (pos_INR i). pose proof (pos_INR j).
  apply Rplus_le_compat; apply pow_incr; (split; [apply Rmult_le_pos; [assumption|apply Rlt_le, Rinv_0_lt_compat; assumption]|apply Rmult_le_compat_r; [apply Rlt_le, Rinv_0_lt_compat; assumption|assumption]]).
Qed.
(** K distinct candidates bounded by v: every chosen value is at most v *)
Lemma firstk_bound {T} (val : T -> R) (chosen : list T) (C W : list T) v : NoDup chosen -> (forall m m', In m C -> ~ In m chosen -> In m' chosen -> val m' <= val m) ->
  (forall m, {In m chosen} + {~ In m chosen}) -> NoDup W -> (forall m, In m W -> In m C /\ val m <= v) -> (length chosen <= length W)%nat -> (forall m, In m chosen -> In m C) ->
  forall m', In m' chosen -> val m' <= v.
Proof.
  intros NC Least D NW HW Len IC m' Hm'. destruct (Rle_dec (val m') v) as [|N]; [assumption|exfalso].
  assert (incl W chosen) as I. { intros w Hw. destruct (D w) as [|Q]; [assumption|exfalso]. destruct (HW w Hw) as [Cw Bw]. pose proof (Least w m' Cw Q Hm'). lra. }
  assert (incl chosen W) as J by (apply NoDup_length_incl; assumption). apply J, HW in Hm' as [_ ?]. lra.
Qed.

(** ** C75 *)
(** planar grids: num_modes distinct modes in order of their eigenvalue, none of the infinitely many others has a smaller one, and column s holds the eigenfunction of mode s at the grid points
    (first coordinate fastest) *)
Theorem C75_planar : forall argsort K g0 g1 l0 l1, argsort_ok argsort -> 0 < l0 -> 0 < l1 ->
  exists modes : list (nat * nat), length modes = K /\ NoDup modes /\
    (forall s s' m m', (s < s')%nat -> nth_error modes s = Some m -> nth_error modes s' = Some m' -> lam2 l0 l1 m <= lam2 l0 l1 m') /\
    (forall m m', ~ In m modes -> In m' modes -> lam2 l0 l1 m' <= lam2 l0 l1 m) /\
    let '(rows, cols, vecs) := eigenfunctions2 argsort K g0 g1 l0 l1 in rows = (g0 * g1)%nat /\ cols = K /\
    forall i j s m, (i < g0)%nat -> (j < g1)%nat -> nth_error modes s = Some m -> vecs (i + g0 * j)%nat s = wave2 l0 l1 m (node l0 g0 i) (node l1 g1 j).
Proof.
  intros argsort K g0 g1 l0 l1 AS P0 P1. set (code := fun m : nat * nat => [fst m; snd m]). set (ch := chosen argsort (nat * nat) code (pairs K) (0, 0)%nat [l0; l1] K).
  assert (LP : length (pairs K) = (K * K)%nat) by (unfold pairs; rewrite map_length, seq_length; reflexivity).
  assert (LC : length ch = K) by (unfold ch; rewrite (chosen_len argsort AS), LP; destruct K; [reflexivity|nia]).
  assert (NC : NoDup ch) by (apply (chosen_nodup argsort AS), pairs_nodup).
  exists ch. split; [exact LC|]. split; [exact NC|]. split; [|split; [|split; [|split]]].
  - intros s s' m m' H E E'. rewrite <- !eigval2. apply (chosen_sorted argsort AS (nat * nat) code (pairs K) (0,0)%nat [l0; l1] K s s' m m' H E E').
  - assert (LE : forall m m', In m (pairs K) -> ~ In m ch -> In m' ch -> lam2 l0 l1 m' <= lam2 l0 l1 m). { intros m m' A B C. rewrite <- !eigval2. apply (chosen_least argsort AS (nat * nat) code (pairs K) (0,0)%nat [l0; l1] K m m' A B C). }
    intros [i j] m' N I. destruct (le_lt_dec K i) as [Hi|Hi]; [|destruct (le_lt_dec K j) as [Hj|Hj]].
    + apply (firstk_bound (lam2 l0 l1) ch (pairs K) (map (fun k => (k, 0%nat)) (seq 0 K)) (lam2 l0 l1 (i, j))); auto.
      * intro m. apply in_dec. intros x y. decide equality; apply Nat.eq_dec.
      * apply nodup_map_inj; [intros x y _ _ E; congruence|apply seq_NoDup].
      * intros m Hm. apply in_map_iff in Hm as (k & <- & Hk). apply in_seq in Hk. split; [apply pairs_in; lia|apply lam2_mono; auto; lia].
      * rewrite map_length, seq_length, LC. lia.
      * intros m Hm. apply (chosen_in argsort AS) in Hm. exact Hm.
    + apply (firstk_bound (lam2 l0 l1) ch (pairs K) (map (fun k => (0%nat, k)) (seq 0 K)) (lam2 l0 l1 (i, j))); auto.
      * intro m. apply in_dec. intros x y. decide equality; apply Nat.eq_dec.
      * apply nodup_map_inj; [intros x y _ _ E; congruence|apply seq_NoDup].
      * intros m Hm. apply in_map_iff in Hm as (k & <- & Hk). apply in_seq in Hk. split; [apply pairs_in; lia|apply lam2_mono; auto; lia].
      * rewrite map_length, seq_length, LC. lia.
      * intros m Hm. apply (chosen_in argsort AS) in Hm. exact Hm.
    + apply LE; auto. apply pairs_in. auto.
  - reflexivity.
  - reflexivity.
  - intros i j s m Hi Hj E. rewrite cands2_pairs. rewrite (core_at argsort AS (nat * nat) code (pairs K) (0,0)%nat). fold ch. rewrite E. rewrite <- !linspace_node by assumption. rewrite <- psi2. unfold code. f_equal.
    unfold grid2. set (f := fun r => [linspace0 l0 g0 (r mod g0); linspace0 l1 g1 (r / g0)]). assert (i + g0 * j < g0 * g1)%nat by nia.
    rewrite nth_indep with (d' := f 0%nat) by (rewrite map_length, seq_length; assumption). rewrite (map_nth f). rewrite seq_nth by assumption. cbn [Nat.add]. unfold f.
    replace (i + g0 * j)%nat with (i + j * g0)%nat by lia. rewrite Nat.mod_add, Nat.div_add by lia. rewrite Nat.mod_small, Nat.div_small by assumption. reflexivity.
Qed.
Print Assumptions C75_planar.

(** the functions are eigenfunctions of the Laplacian with zero normal derivative on the boundary of the box *)
Lemma lin_d a x : derivable_pt_lim (fun x => a * x) x a.
Proof. pose proof (derivable_pt_lim_scal id a x 1 (derivable_pt_lim_id x)) as H. unfold mult_real_fct, id in H. rewrite Rmult_1_r in H. exact H. Qed.
Lemma cos_lin_d1 a x : derivable_pt_lim (fun x => cos (a * x)) x (- (a * sin (a * x))).
Proof.
  replace (- (a * sin (a * x))) with (- sin (a * x) * a) by ring. apply (derivable_pt_lim_comp (fun x => a * x) cos x a (- sin (a * x))).
  - apply lin_d.
  - apply derivable_pt_lim_cos.
Qed.
Lemma sin_lin_d1 a x : derivable_pt_lim (fun x => - (a * sin (a * x))) x (- (a * a * cos (a * x))).
Proof.
  assert (derivable_pt_lim (fun x => sin (a * x)) x (cos (a * x) * a)) as H.
  { apply (derivable_pt_lim_comp (fun x => a * x) sin x a (cos (a * x))).
    - apply lin_d.
    - apply derivable_pt_lim_sin. }
  pose proof (derivable_pt_lim_opp _ _ _ (derivable_pt_lim_scal _ a x _ H)) as K. unfold opp_fct, mult_real_fct in K. replace (- (a * a * cos (a * x))) with (- (a * (cos (a * x) * a))) by ring. exact K.
Qed.
Lemma d_scal_r f x d c : derivable_pt_lim f x d -> derivable_pt_lim (fun x => f x * c) x (d * c).
Proof.
  intro H. pose proof (derivable_pt_lim_scal f c x d H) as K. unfold mult_real_fct in K. rewrite Rmult_comm. intros e He. destruct (K e He) as (dl & D). exists dl. intros h H1 H2. specialize (D h H1 H2). rewrite (Rmult_comm (f (x + h)) c), (Rmult_comm (f x) c). exact D.
Qed.
Lemma cos_end n : sin (INR n * PI) = 0.
Proof. induction n as [|n IH]; [cbn; rewrite Rmult_0_l; apply sin_0|]. rewrite S_INR. replace ((INR n + 1) * PI) with (INR n * PI + PI) by ring. rewrite neg_sin, IH. ring. Qed.
Theorem C75_eigenfunction : forall l0 l1 m, 0 < l0 -> 0 < l1 -> let u := wave2 l0 l1 m in
  exists ux uy uxx uyy : R -> R -> R,
    (forall x y, derivable_pt_lim (fun x => u x y) x (ux x y) /\ derivable_pt_lim (fun x => ux x y) x (uxx x y) /\
                 derivable_pt_lim (fun y => u x y) y (uy x y) /\ derivable_pt_lim (fun y => uy x y) y (uyy x y)) /\
    (forall x y, - (uxx x y + uyy x y) = lam2 l0 l1 m * u x y) /\
    (forall y, ux 0 y = 0 /\ ux l0 y = 0) /\ (forall x, uy x 0 = 0 /\ uy x l1 = 0).
Proof.
  intros l0 l1 [p q] P0 P1 u. set (a := INR p * PI / l0). set (b := INR q * PI / l1).
  assert (U : forall x y, u x y = cos (a * x) * cos (b * y)). { intros. unfold u, wave2, a, b. cbn [fst snd]. f_equal; f_equal; field; lra. }
  exists (fun x y => - (a * sin (a * x)) * cos (b * y)), (fun x y => - (b * sin (b * y)) * cos (a * x)), (fun x y => - (a * a * cos (a * x)) * cos (b * y)), (fun x y => - (b * b * cos (b * y)) * cos (a * x)).
  split; [|split; [|split]].
  - intros x y. repeat split.
    + intros e He. destruct (d_scal_r _ x _ (cos (b * y)) (cos_lin_d1 a x) e He) as (dl & D). exists dl. intros h H1 H2. rewrite !U. exact (D h H1 H2).
    + apply (d_scal_r (fun x => - (a * sin (a * x)))), sin_lin_d1.
    + intros e He. destruct (d_scal_r _ y _ (cos (a * x)) (cos_lin_d1 b y) e He) as (dl & D). exists dl. intros h H1 H2. rewrite !U. rewrite (Rmult_comm (cos (a * x)) (cos (b * (y + h)))), (Rmult_comm (cos (a * x)) (cos (b * y))). exact (D h H1 H2).
    + apply (d_scal_r (fun y => - (b * sin (b * y)))), sin_lin_d1.
  - intros x y. rewrite U. unfold lam2, a, b. cbn [fst snd]. field. lra.
  - intro y. split; [rewrite Rmult_0_r, sin_0; ring|]. replace (a * l0) with (INR p * PI) by (unfold a; field; lra). rewrite cos_end. ring.
  - intro x. split; [rewrite Rmult_0_r, sin_0; ring|]. replace (b * l1) with (INR q * PI) by (unfold b; field; lra). rewrite cos_end. ring.
Qed.
Print Assumptions C75_eigenfunction.

(** the sampled columns are eigenvectors of the second differences of the grid with mirrored boundary, in each direction *)
Definition up (g i : nat) : nat := if Nat.eqb (S i) g then (g - 2)%nat else S i.
Definition down (i : nat) : nat := match i with O => 1%nat | S i => i end.
Lemma second_difference l g p i : 0 < l -> (2 <= g)%nat -> (i < g)%nat ->
  let c k := cos (INR p * PI * node l g k / l) in c (up g i) - 2 * c i + c (down i) = 2 * (cos (INR p * PI / INR (g - 1)) - 1) * c i.
Proof.
  intros Pl Hg Hi c. set (t := INR p * PI / INR (g - 1)). assert (G : INR (g - 1) <> 0) by (apply not_0_INR; lia).
  assert (C : forall k, c k = cos (INR k * t)). { intro k. unfold c, node, t. f_equal. field. lra. }
  rewrite !C. clear C c.
  assert (CS : forall a, cos (a + t) + cos (a - t) = 2 * cos t * cos a). { intro a. rewrite cos_plus, cos_minus. ring. }
  assert (U : cos (INR (up g i) * t) = cos (INR i * t + t)).
  { unfold up. destruct (Nat.eqb_spec (S i) g) as [E|N]; [|rewrite S_INR; f_equal; ring].
    assert (T : INR (g - 1) * t = INR p * PI) by (unfold t; field; exact G). replace i with (g - 1)%nat by lia. replace (INR (g - 2)) with (INR (g - 1) - 1) by (replace (g - 1)%nat with (S (g - 2)) by lia; rewrite S_INR; ring).
    replace ((INR (g - 1) - 1) * t) with (INR p * PI - t) by (rewrite <- T; ring). rewrite T, cos_plus, cos_minus, cos_end. ring. }
  assert (D : cos (INR (down i) * t) = cos (INR i * t - t)).
  { destruct i as [|i]; cbn [down]; [|rewrite S_INR; f_equal; ring]. cbn [INR]. replace (0 * t - t) with (- (1 * t)) by ring. rewrite cos_neg. reflexivity. }
  rewrite U, D. pose proof (CS (INR i * t)). lra.
Qed.
Theorem C75_grid_eigenvector : forall l0 l1 g0 g1 m, 0 < l0 -> 0 < l1 -> (2 <= g0)%nat -> (2 <= g1)%nat ->
  let u i j := wave2 l0 l1 m (node l0 g0 i) (node l1 g1 j) in forall i j, (i < g0)%nat -> (j < g1)%nat ->
    u (up g0 i) j - 2 * u i j + u (down i) j = 2 * (cos (INR (fst m) * PI / INR (g0 - 1)) - 1) * u i j /\
    u i (up g1 j) - 2 * u i j + u i (down j) = 2 * (cos (INR (snd m) * PI / INR (g1 - 1)) - 1) * u i j.
Proof.
  intros l0 l1 g0 g1 m P0 P1 G0 G1 u i j Hi Hj. pose proof (second_difference l0 g0 (fst m) i P0 G0 Hi) as A. pose proof (second_difference l1 g1 (snd m) j P1 G1 Hj) as B. cbn zeta in A, B. unfold u, wave2. split; nra.
Qed.
Print Assumptions C75_grid_eigenvector.

(** spatial grids: the columns are the modes with the smallest eigenvalues among those whose indices are below q = the integer closest to sqrt(num_modes // 8); further columns are constant *)
Definition triples (q : nat) : list (nat * nat * nat) := map (fun i => (i / (q * q), i / q mod q, i mod q)%nat) (seq 0 (q * q * q)).
Lemma cands3_triples q : cands3 q = map (fun m => [fst (fst m); snd (fst m); snd m]) (triples q).
Proof. unfold cands3, triples. rewrite map_map. reflexivity. Qed.
Lemma triples_nodup q : NoDup (triples q).
Proof.
  apply nodup_map_inj; [|apply seq_NoDup]. intros x y Hx Hy E. apply in_seq in Hx, Hy. assert (q <> 0)%nat by (intros ->; lia).
  pose proof (f_equal (fun t => fst (fst t)) E) as E1. pose proof (f_equal (fun t => snd (fst t)) E) as E2. pose proof (f_equal snd E) as E3. cbn [fst snd] in E1, E2, E3.
  rewrite <- !Nat.div_div in E1 by lia. rewrite (Nat.div_mod x q), (Nat.div_mod y q) by lia. rewrite E3. f_equal. f_equal. rewrite (Nat.div_mod (x / q) q), (Nat.div_mod (y / q) q) by lia. rewrite E1, E2. reflexivity.
Qed.
Lemma triples_in q i j k : In (i, j, k) (triples q) <-> (i < q /\ j < q /\ k < q)%nat.
Proof.
  unfold triples. rewrite in_map_iff. split.
  - intros (n & E & H). apply in_seq in H. assert (q <> 0)%nat by (intros ->; lia). pose proof (f_equal (fun t => fst (fst t)) E) as E1. pose proof (f_equal (fun t => snd (fst t)) E) as E2. pose proof (f_equal snd E) as E3. cbn [fst snd] in E1, E2, E3.
    subst i j k. split; [apply Nat.div_lt_upper_bound; nia|]. split; apply Nat.mod_upper_bound; lia.
  - intros (H1 & H2 & H3). exists ((i * q + j) * q + k)%nat. assert (q <> 0)%nat by lia. split.
    + rewrite <- Nat.div_div by lia. rewrite Nat.div_add_l by lia. rewrite (Nat.div_small k q) by lia. rewrite Nat.add_0_r. rewrite Nat.div_add_l by lia. rewrite (Nat.div_small j q) by lia. f_equal; [f_equal; [lia|]|].
      * rewrite Nat.add_comm, Nat.mod_add by lia. apply Nat.mod_small. lia.
      * rewrite Nat.add_comm, Nat.mod_add by lia. apply Nat.mod_small. lia.
    + apply in_seq. assert ((i * q + j) * q + k < q * q * q)%nat; [|lia]. assert (i * q + j <= q * q - 1)%nat by nia. nia.
Qed.
Lemma per_dim_nearest K : Rabs (INR (modes_per_dim K) - sqrt (INR (K / 8))) < 1 / 2.
Proof.
  unfold modes_per_dim. set (k := (K / 8)%nat). set (s := Nat.sqrt k). destruct (Nat.sqrt_spec k (Nat.le_0_l k)) as [A B]. fold s in A, B.
  pose proof (sqrt_pos (INR k)) as Sp. pose proof (sqrt_sqrt (INR k) (pos_INR k)) as Sq. pose proof (pos_INR s) as Ps. set (r := sqrt (INR k)) in *.
  pose proof (le_INR _ _ A) as A'. rewrite mult_INR in A'. assert (s <= r)%R || idtac. assert (L : INR s <= r) by nra.
  destruct (Nat.leb_spec (k - s * s) s) as [H|H].
  - assert (H' : (k <= s * s + s)%nat) by lia. apply le_INR in H'. rewrite plus_INR, mult_INR in H'. assert (r < INR s + 1 / 2) by nra. apply Rabs_def1; lra.
  - assert (H' : (s * s + s + 1 <= k)%nat) by lia. apply le_INR in H'. rewrite !plus_INR, mult_INR in H'. cbn [INR] in H'. apply lt_INR in B. rewrite mult_INR, S_INR in B. rewrite S_INR. assert (INR s + 1 / 2 < r) by nra. assert (r < INR s + 1) by nra. apply Rabs_def1; lra.
Qed.
Lemma eigval3 l0 l1 l2 m : eigval [l0; l1; l2] [fst (fst m); snd (fst m); snd m] = lam3 l0 l1 l2 m.
Proof. unfold eigval, lam3. cbn [combine fold_left fst snd]. ring. Qed.
Lemma psi3 l0 l1 l2 m x y z : psi [fst (fst m); snd (fst m); snd m] [l0; l1; l2] [x; y; z] = wave3 l0 l1 l2 m x y z.
Proof. unfold psi, wave3. cbn [combine fold_left fst snd]. ring. Qed.
Theorem C75_spatial_partial : forall argsort K g0 g1 g2 l0 l1 l2, argsort_ok argsort ->
  exists (q : nat) (modes : list (nat * nat * nat)), Rabs (INR q - sqrt (INR (K / 8))) < 1 / 2 /\ length modes = Nat.min K (q * q * q) /\ NoDup modes /\
    (forall i j k, In (i, j, k) modes -> (i < q /\ j < q /\ k < q)%nat) /\
    (forall s s' m m', (s < s')%nat -> nth_error modes s = Some m -> nth_error modes s' = Some m' -> lam3 l0 l1 l2 m <= lam3 l0 l1 l2 m') /\
    (forall i j k m', (i < q /\ j < q /\ k < q)%nat -> ~ In (i, j, k) modes -> In m' modes -> lam3 l0 l1 l2 m' <= lam3 l0 l1 l2 (i, j, k)) /\
    let '(rows, cols, vecs) := eigenfunctions3 argsort K g0 g1 g2 l0 l1 l2 in rows = (g0 * g1 * g2)%nat /\ cols = K /\
    (forall i j k s m, (i < g0)%nat -> (j < g1)%nat -> (k < g2)%nat -> nth_error modes s = Some m ->
      vecs (i + g0 * (j + g1 * k))%nat s = wave3 l0 l1 l2 m (node l0 g0 i) (node l1 g1 j) (node l2 g2 k)) /\
    (forall r s, (length modes <= s < K)%nat -> vecs r s = 1).
Proof.
  intros argsort K g0 g1 g2 l0 l1 l2 AS. set (q := modes_per_dim K). set (code := fun m : nat * nat * nat => [fst (fst m); snd (fst m); snd m]). set (ch := chosen argsort (nat * nat * nat) code (triples q) (0, 0, 0)%nat [l0; l1; l2] K).
  assert (LP : length (triples q) = (q * q * q)%nat) by (unfold triples; rewrite map_length, seq_length; reflexivity).
  assert (LC : length ch = Nat.min K (q * q * q)) by (unfold ch; rewrite (chosen_len argsort AS), LP; reflexivity).
  exists q, ch. split; [apply per_dim_nearest|]. split; [exact LC|]. split; [apply (chosen_nodup argsort AS), triples_nodup|]. split; [|split; [|split; [|split; [|split; [|split]]]]].
  - intros i j k H. apply (chosen_in argsort AS) in H. apply triples_in, H.
  - intros s s' m m' H E E'. rewrite <- !eigval3. apply (chosen_sorted argsort AS (nat * nat * nat) code (triples q) (0,0,0)%nat [l0; l1; l2] K s s' m m' H E E').
  - intros i j k m' B N I. rewrite <- !eigval3. apply (chosen_least argsort AS (nat * nat * nat) code (triples q) (0,0,0)%nat [l0; l1; l2] K (i, j, k) m'); [apply triples_in, B|exact N|exact I].
  - reflexivity.
  - reflexivity.
  - intros i j k s m Hi Hj Hk E. fold q. rewrite cands3_triples. rewrite (core_at argsort AS (nat * nat * nat) code (triples q) (0,0,0)%nat). fold ch. rewrite E. rewrite <- !linspace_node by assumption. rewrite <- psi3. unfold code. f_equal.
    unfold grid3. set (f := fun r => [linspace0 l0 g0 (r mod g0); linspace0 l1 g1 (r / g0 mod g1); linspace0 l2 g2 (r / (g0 * g1))]). assert (B : (i + g0 * (j + g1 * k) < g0 * g1 * g2)%nat). { assert (S (j + g1 * k) <= g1 * g2)%nat as Q by nia. apply (Nat.mul_le_mono_l _ _ g0) in Q. rewrite Nat.mul_succ_r in Q. lia. }
    rewrite nth_indep with (d' := f 0%nat) by (rewrite map_length, seq_length; assumption). rewrite (map_nth f). rewrite seq_nth by assumption. cbn [Nat.add]. unfold f.
    rewrite <- Nat.div_div by lia. replace (i + g0 * (j + g1 * k))%nat with (i + (j + g1 * k) * g0)%nat by lia. rewrite Nat.mod_add, Nat.div_add by lia. rewrite (Nat.mod_small i g0), (Nat.div_small i g0) by assumption. cbn [Nat.add].
    replace (j + g1 * k)%nat with (j + k * g1)%nat by lia. rewrite Nat.mod_add, Nat.div_add by lia. rewrite (Nat.mod_small j g1), (Nat.div_small j g1) by assumption. reflexivity.
  - intros r s [H _]. fold q. rewrite cands3_triples. rewrite (core_at argsort AS (nat * nat * nat) code (triples q) (0,0,0)%nat). fold ch. replace (nth_error ch s) with (@None (nat * nat * nat)); [reflexivity|]. symmetry. apply nth_error_None. exact H.
Qed.
Print Assumptions C75_spatial_partial.

(** so on every spatial grid, for 2 <= num_modes < 456 the first and the last column are the same constant function: not num_modes different eigenfunctions *)
Lemma small_q : forallb (fun K => Nat.ltb (modes_per_dim K * modes_per_dim K * modes_per_dim K) K) (seq 1 455) = true.
Proof. vm_compute. reflexivity. Qed.
Theorem C75_spatial_refuted : forall argsort K g0 g1 g2 l0 l1 l2, argsort_ok argsort -> 0 < l0 -> 0 < l1 -> 0 < l2 -> (2 <= K < 456)%nat ->
  let '(rows, cols, vecs) := eigenfunctions3 argsort K g0 g1 g2 l0 l1 l2 in
  forall i j k, (i < g0)%nat -> (j < g1)%nat -> (k < g2)%nat -> let r := (i + g0 * (j + g1 * k))%nat in vecs r 0%nat = 1 /\ vecs r (K - 1)%nat = 1.
Proof.
  intros argsort K g0 g1 g2 l0 l1 l2 AS P0 P1 P2 HK. destruct (C75_spatial_partial argsort K g0 g1 g2 l0 l1 l2 AS) as (q & modes & Q & LC & ND & B & SO & LE & H).
  assert (q = modes_per_dim K) as Eq. { pose proof (per_dim_nearest K) as Q'. apply Rabs_def2 in Q as [Q1 Q2]. apply Rabs_def2 in Q' as [Q3 Q4]. set (p := modes_per_dim K) in *. assert (INR q < INR (S p)) as A by (rewrite S_INR; lra). assert (INR p < INR (S q)) as C by (rewrite S_INR; lra). apply INR_lt in A. apply INR_lt in C. lia. }
  assert (q * q * q < K)%nat as Lt. { rewrite Eq. pose proof (proj1 (forallb_forall _ _) small_q K ltac:(apply in_seq; lia)) as S. apply Nat.ltb_lt in S. exact S. }
  destruct (eigenfunctions3 argsort K g0 g1 g2 l0 l1 l2) as [[rows cols] vecs]. destruct H as (_ & _ & H1 & H2). intros i j k Hi Hj Hk r. split; [|apply H2; lia].
  destruct (nth_error modes 0) as [m|] eqn:E0. 2:{ apply H2. apply nth_error_None in E0. lia. }
  unfold r. rewrite (H1 i j k 0%nat m Hi Hj Hk E0). assert (m = (0, 0, 0)%nat) as ->.
  { pose proof (nth_error_In _ _ E0) as Im. destruct m as [[a b] c]. pose proof (B a b c Im) as (Ba & Bb & Bc).
    assert (LZ : lam3 l0 l1 l2 (a, b, c) <= lam3 l0 l1 l2 (0, 0, 0)%nat).
    { destruct (in_dec (fun x y : nat * nat * nat => ltac:(repeat decide equality) : {x = y} + {x <> y}) (0,0,0)%nat modes) as [I0|N0].
      - apply In_nth_error in I0 as (s & Es). destruct s as [|s]; [rewrite E0 in Es; injection Es as -> -> ->; lra|]. exact (SO 0%nat (S s) _ _ ltac:(lia) E0 Es).
      - exact (LE 0%nat 0%nat 0%nat (a, b, c) ltac:(lia) N0 Im). }
    unfold lam3 in LZ. cbn [fst snd INR] in LZ. replace ((0 / l0) ^ 2 + (0 / l1) ^ 2 + (0 / l2) ^ 2) with 0 in LZ by (field; lra). rewrite Rmult_0_r in LZ.
    assert (Pp : 0 < PI ^ 2) by (apply pow_lt, PI_RGT_0). pose proof (pow2_ge_0 (INR a / l0)). pose proof (pow2_ge_0 (INR b / l1)). pose proof (pow2_ge_0 (INR c / l2)).
    assert (Z : forall n l, 0 < l -> (INR n / l) ^ 2 <= 0 -> n = 0%nat).
    { intros n l Hl Hz. destruct n as [|n]; [reflexivity|exfalso]. assert (0 < INR (S n) / l) by (apply Rdiv_lt_0_compat; [apply lt_0_INR; lia|exact Hl]). nra. }
    assert (SZ : (INR a / l0) ^ 2 + (INR b / l1) ^ 2 + (INR c / l2) ^ 2 <= 0) by nra.
    rewrite (Z a l0 P0), (Z b l1 P1), (Z c l2 P2) by lra. reflexivity. }
  unfold wave3. cbn [fst snd INR]. replace (0 * PI * node l0 g0 i / l0) with 0 by (field; lra). replace (0 * PI * node l1 g1 j / l1) with 0 by (field; lra). replace (0 * PI * node l2 g2 k / l2) with 0 by (field; lra). rewrite cos_0. ring.
Qed.
Print Assumptions C75_spatial_refuted.

(** the contract of argsort can be met (selection sort), and on the unit square with three modes the columns are the constant and the two first cosines *)
Fixpoint extract (l : list R) (best : nat) (rest : list nat) : nat * list nat :=
  match rest with
  | [] => (best, [])
  | k :: rest => if Rle_dec (nth best l 0) (nth k l 0) then let '(b, r) := extract l best rest in (b, k :: r) else let '(b, r) := extract l k rest in (b, best :: r)
  end.
Fixpoint selsort (l : list R) (fuel : nat) (idx : list nat) : list nat :=
  match fuel, idx with S fuel, i :: idx => let '(b, r) := extract l i idx in b :: selsort l fuel r | _, _ => [] end.
Lemma extract_spec l rest : forall best, let '(b, r) := extract l best rest in Permutation (b :: r) (best :: rest) /\ nth b l 0 <= nth best l 0 /\ forall k, In k r -> nth b l 0 <= nth k l 0.
Proof.
  induction rest as [|k rest IH]; intro best; cbn [extract]; [split; [reflexivity|]; split; [lra|intros ? []]|]. destruct (Rle_dec (nth best l 0) (nth k l 0)) as [H|H].
  - specialize (IH best). destruct (extract l best rest) as [b r]. destruct IH as (P & Q & A). split; [rewrite perm_swap; rewrite P; apply perm_swap|]. split; [exact Q|]. intros j [ <- | Hj ]; [lra|apply A, Hj].
  - specialize (IH k). destruct (extract l k rest) as [b r]. destruct IH as (P & Q & A). split; [rewrite perm_swap; rewrite P; reflexivity|]. split; [lra|]. intros j [ <- | Hj ]; [lra|apply A, Hj].
Qed.
Lemma selsort_spec l : forall fuel idx, (length idx <= fuel)%nat -> Permutation (selsort l fuel idx) idx /\
  forall i j a b, (i < j)%nat -> nth_error (selsort l fuel idx) i = Some a -> nth_error (selsort l fuel idx) j = Some b -> nth a l 0 <= nth b l 0.
Proof.
  induction fuel as [|fuel IH]; intros [|i0 idx] Hf; cbn [selsort]; try (cbn in Hf; lia); try (split; [constructor|intros [|i] [|j] ? ? ? E; discriminate]).
  pose proof (extract_spec l idx i0) as S. destruct (extract l i0 idx) as [b r]. destruct S as (P & Q & A).
  assert (length r <= fuel)%nat as Lr. { pose proof (Permutation_length P) as L. cbn in L, Hf. lia. }
  destruct (IH r Lr) as [Pr Sr]. split; [rewrite Pr; exact P|]. intros [|i] [|j] x y H E1 E2; try lia; cbn [nth_error] in E1, E2; [|apply (Sr i j); auto; lia].
  injection E1 as <-. apply A, (Permutation_in _ Pr), (nth_error_In _ _ E2).
Qed.
Example argsort_exists : exists argsort, argsort_ok argsort.
Proof. exists (fun l => selsort l (length l) (seq 0 (length l))). intro l. apply selsort_spec. rewrite seq_length. lia. Qed.
Example C75_example : exists argsort, argsort_ok argsort /\ exists modes, length modes = 3%nat /\ (forall m, In m modes <-> m = (0, 0)%nat \/ m = (0, 1)%nat \/ m = (1, 0)%nat) /\
  let '(_, _, vecs) := eigenfunctions2 argsort 3 5 5 1 1 in forall s m, nth_error modes s = Some m -> vecs (2 + 5 * 4)%nat s = wave2 1 1 m (1 / 2) 1.
Proof.
  destruct argsort_exists as (argsort & AS). exists argsort. split; [exact AS|]. destruct (C75_planar argsort 3 5 5 1 1 AS ltac:(lra) ltac:(lra)) as (modes & L & ND & _ & LE & H). exists modes. split; [exact L|].
  assert (Pp : 0 < PI ^ 2) by (apply pow_lt, PI_RGT_0). set (W := [(0,0); (0,1); (1,0)]%nat).
  assert (NW : NoDup W) by (unfold W; repeat constructor; cbn; intuition congruence).
  assert (V : forall m, In m W -> lam2 1 1 m <= PI ^ 2). { intros m [ <- | [ <- | [ <- | [] ] ] ]; unfold lam2; cbn [fst snd INR]; lra. }
  assert (IB : forall m, In m modes -> In m W).
  { intros [a b] Hm. destruct (Rle_dec (lam2 1 1 (a, b)) (PI ^ 2)) as [Le|N].
    - unfold lam2 in Le. cbn [fst snd] in Le. assert ((INR a / 1) ^ 2 + (INR b / 1) ^ 2 <= 1) as Q by nra. unfold Rdiv in Q. rewrite Rinv_1, !Rmult_1_r in Q.
      assert (INR (a * a + b * b) <= INR 1) as Q' by (rewrite plus_INR, !mult_INR; cbn [INR]; nra). apply INR_le in Q'. unfold W. destruct a as [|[|a]], b as [|[|b]]; cbn in Q'; try lia; cbn; auto.
    - assert (incl W modes) as I. { intros w Hw. destruct (in_dec (fun u v : nat * nat => ltac:(decide equality; apply Nat.eq_dec) : {u = v} + {u <> v}) w modes) as [|N']; [assumption|exfalso]. apply N. apply Rle_trans with (lam2 1 1 w); [apply LE; assumption|apply V, Hw]. }
      refine (@NoDup_length_incl _ W modes NW _ I _ Hm). cbn. lia. }
  assert (IW : incl W modes) by (refine (@NoDup_length_incl _ modes W ND _ IB); cbn; lia).
  split.
  - intro m. split; [intro Hm; apply IB in Hm; cbn in Hm; intuition congruence|intros [-> | [-> | ->]]; apply IW; cbn; auto].
  - destruct (eigenfunctions2 argsort 3 5 5 1 1) as [[rows cols] vecs]. destruct H as (_ & _ & H). intros s m E. rewrite (H 2%nat 4%nat s m) by (auto; lia). unfold node. cbn [Nat.sub INR]. f_equal; field.
Qed.
