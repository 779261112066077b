(** C24 matrix_from_function.  Code: MatFunModel.v; [entry] (MatModel.v) reads a sparse matrix. *)
From Verif Require Import NumpyModel PyExn Vec MatModel MatProofs SubdivModel Subdiv3Proofs MatFunModel.
Open Scope Z_scope.

(** the callback is vectorised: it applies a function of two rows to every pair of rows *)
Definition rowwise {P} (g : P -> P -> R) (f : list P -> list P -> list R) : Prop :=
  forall A B, length A = length B -> f A B = map (fun p => g (fst p) (snd p)) (combine A B).

Definition pairs (n1 n2 : nat) : list (nat * nat) := flat_map (fun j => map (fun i => (i, j)) (seq 0 n1)) (seq 0 n2).
Lemma kron_ones_pairs {A} (g : nat -> A) n1 n2 : kron_ones n2 (map g (seq 0 n1)) = map (fun p => g (fst p)) (pairs n1 n2).
Proof.
  unfold kron_ones, pairs. enough (G : forall s, concat (repeat (map g (seq 0 n1)) n2) = map (fun p => g (fst p)) (flat_map (fun j => map (fun i => (i, j)) (seq 0 n1)) (seq s n2))) by apply G.
  induction n2; intros s; [reflexivity|].
  cbn [repeat concat seq flat_map]. rewrite map_app, <- IHn2, map_map. reflexivity.
Qed.
Lemma kron_rep_pairs {A} (h : nat -> A) n1 n2 : kron_rep (map h (seq 0 n2)) n1 = map (fun p => h (snd p)) (pairs n1 n2).
Proof.
  unfold kron_rep, pairs. generalize (seq 0 n2). intros l. induction l as [|j l IH]; [reflexivity|].
  cbn [map flat_map]. rewrite map_app, <- IH, map_map. f_equal. cbn [snd]. clear. generalize 0%nat. induction n1; intros; cbn; congruence.
Qed.
Lemma map_nth_seq {A} (l : list A) d : map (fun i => nth i l d) (seq 0 (length l)) = l.
Proof. induction l; [reflexivity|]. cbn [length seq map nth]. f_equal. rewrite <- seq_shift, map_map. exact IHl. Qed.
Lemma pairs_length n1 n2 : length (pairs n1 n2) = (n1 * n2)%nat.
Proof. unfold pairs. enough (G : forall s, length (flat_map (fun j => map (fun i => (i, j)) (seq 0 n1)) (seq s n2)) = (n1 * n2)%nat) by apply G.
  induction n2; intros s; [cbn; lia|]. cbn [seq flat_map]. rewrite app_length, map_length, seq_length, IHn2. lia. Qed.
Lemma pairs_in n1 n2 p : In p (pairs n1 n2) <-> (fst p < n1)%nat /\ (snd p < n2)%nat.
Proof.
  unfold pairs. rewrite in_flat_map. split.
  - intros (j & J & I). apply in_map_iff in I as (i & <- & I). apply in_seq in I, J. cbn. lia.
  - intros [A B]. exists (snd p). rewrite in_seq. split; [lia|]. apply in_map_iff. exists (fst p). rewrite in_seq. destruct p; cbn in *; split; auto; lia.
Qed.
Lemma pairs_nth n1 n2 i j : (i < n1)%nat -> (j < n2)%nat -> nth_error (pairs n1 n2) (i + n1 * j) = Some (i, j).
Proof.
  intros I. unfold pairs. enough (forall s, (j < n2)%nat -> nth_error (flat_map (fun j => map (fun i => (i, j)) (seq 0 n1)) (seq s n2)) (i + n1 * j) = Some (i, s + j)%nat) by (apply (H 0%nat)).
  revert j. induction n2; intros j s J; [lia|]. cbn [seq flat_map]. destruct j as [|j].
  - rewrite nth_error_app1 by (rewrite map_length, seq_length; lia). rewrite Nat.mul_0_r, Nat.add_0_r, nth_error_map.
    rewrite (nth_error_nth' _ 0%nat) by (rewrite seq_length; lia). rewrite seq_nth by lia. cbn. do 2 f_equal. lia.
  - rewrite nth_error_app2 by (rewrite map_length, seq_length; nia). rewrite map_length, seq_length.
    replace (i + n1 * S j - n1)%nat with (i + n1 * j)%nat by nia. rewrite IHn2 by lia. do 2 f_equal. lia.
Qed.
Lemma NoDup_pairs n1 n2 : NoDup (pairs n1 n2).
Proof.
  unfold pairs. generalize (seq_NoDup n2 0). generalize (seq 0 n2). induction l as [|j l IH]; intros N; [constructor|].
  inversion N as [|? ? Nj N']; subst. cbn [flat_map]. apply SubdivProofs.NoDup_app_iff. repeat split; auto.
  - apply FinFun.Injective_map_NoDup; [intros a b Q; congruence|apply seq_NoDup].
  - intros p I1 I2. apply in_map_iff in I1 as (i & <- & _). apply in_flat_map in I2 as (j' & J & I). apply in_map_iff in I as (i' & Q & _). congruence.
Qed.
(** reading an entry of a list of distinct coordinates *)
Lemma entry_pick {A} (r c : A -> Z) (v : A -> R) l a : NoDup l -> In a l ->
  (forall x, In x l -> r x = r a -> c x = c a -> x = a) -> entry (map (fun x => (r x, c x, v x)) l) (r a) (c a) = v a.
Proof.
  intros N I U. unfold entry. rewrite sumf_map. unfold trow, tcol, tval. cbn [fst snd]. induction l as [|x l IH]; [destruct I|].
  inversion N as [|? ? Nx N']; subst. cbn [sumf]. destruct I as [->|I].
  - rewrite !Z.eqb_refl. cbn [andb]. rewrite sumf_zero; [lra|]. intros y Y. destruct ((r y =? r a) && (c y =? c a)) eqn:Q; auto.
    exfalso. apply andb_prop in Q as [Q1 Q2]. apply Z.eqb_eq in Q1, Q2. apply Nx. rewrite <- (U y); auto. now right.
  - rewrite IH; auto. 2:{ intros; apply U; auto. now right. }
    destruct ((r x =? r a) && (c x =? c a)) eqn:Q; [|lra].
    exfalso. apply andb_prop in Q as [Q1 Q2]. apply Z.eqb_eq in Q1, Q2. apply Nx. rewrite (U x); auto. now left.
Qed.
Lemma entry_absent {A} (r c : A -> Z) (v : A -> R) l i j : (forall x, In x l -> r x = i -> c x = j -> False) -> entry (map (fun x => (r x, c x, v x)) l) i j = 0%R.
Proof.
  intros H. unfold entry. rewrite sumf_map. apply sumf_zero. intros x I. unfold trow, tcol; cbn [fst snd].
  destruct ((r x =? i) && (c x =? j)) eqn:Q; auto. apply andb_prop in Q as [Q1 Q2]. apply Z.eqb_eq in Q1, Q2. exfalso. eauto.
Qed.
Lemma combine_vals {P} (g : P -> P -> R) f (a b : nat -> P) l : rowwise g f -> f (map a l) (map b l) = map (fun p => g (a p) (b p)) l.
Proof. intros W. rewrite W by now rewrite !map_length. rewrite combine_map2, map_map. reflexivity. Qed.

Lemma vals_pairs {P} (g : P -> P -> R) f X1 X2 d : rowwise g f ->
  f (kron_ones (length X2) X1) (kron_rep X2 (length X1)) = map (fun p => g (nth (fst p) X1 d) (nth (snd p) X2 d)) (pairs (length X1) (length X2)).
Proof.
  intros W. replace (kron_ones (length X2) X1) with (kron_ones (length X2) (map (fun i => nth i X1 d) (seq 0 (length X1)))) by now rewrite map_nth_seq.
  replace (kron_rep X2 (length X1)) with (kron_rep (map (fun i => nth i X2 d) (seq 0 (length X2))) (length X1)) by now rewrite map_nth_seq.
  rewrite kron_ones_pairs, kron_rep_pairs. rewrite W by now rewrite !map_length. rewrite combine_map2, map_map. reflexivity.
Qed.

(** the default, sparse result: an n1 x n2 matrix with entry (i,j) = fun(X1_i, X2_j) *)
Theorem C24_full : forall P (g : P -> P -> R) f X1 X2, rowwise g f ->
  exists M, matrix_from_function f X1 X2 = Ok M /\
  (forall i j x y, nth_error X1 i = Some x -> nth_error X2 j = Some y -> entry M (Z.of_nat i) (Z.of_nat j) = g x y).
Proof.
  intros P g f X1 X2 W. unfold matrix_from_function.
  assert (D : (X1 = [] /\ X2 = []) \/ exists d : P, True) by (destruct X1 as [|d ?], X2 as [|d' ?]; eauto).
  destruct D as [[-> ->]|[d _]].
  { exists []. cbn [length]. rewrite (W _ _ eq_refl). split; [reflexivity|]. intros [|i] ? ? ? Q; discriminate. }
  rewrite (vals_pairs g f X1 X2 d W). unfold lin_idx. rewrite kron_ones_pairs, kron_rep_pairs. unfold csc. rewrite !map_length, !Nat.eqb_refl. cbn [andb].
  rewrite !combine_map2. rewrite csr_ok.
  2:{ intros t T. apply in_map_iff in T as (p & <- & T). apply pairs_in in T. unfold trow, tcol; cbn [fst snd]. lia. }
  cbn [bind]. eexists; split; [reflexivity|]. intros i j x y Xi Xj. unfold eliminate_zeros.
  assert (Li : (i < length X1)%nat) by (apply nth_error_Some; congruence).
  assert (Lj : (j < length X2)%nat) by (apply nth_error_Some; congruence).
  rewrite (entry_pick (fun p => Z.of_nat (fst p)) (fun p => Z.of_nat (snd p)) (fun p => g (nth (fst p) X1 d) (nth (snd p) X2 d)) _ (i, j)).
  - cbn [fst snd]. rewrite (nth_error_nth _ _ d Xi), (nth_error_nth _ _ d Xj). reflexivity.
  - apply NoDup_pairs.
  - apply pairs_in. cbn; lia.
  - intros [a b] _ Q1 Q2. cbn in *. f_equal; lia.
Qed.
Print Assumptions C24_full.
(** sparse=False: the dense array with the same entries *)
Theorem C24_dense : forall P (g : P -> P -> R) f X1 X2, rowwise g f ->
  exists M, matrix_from_function_dense f X1 X2 = Ok M /\ length M = length X1 /\
  (forall i j x y, nth_error X1 i = Some x -> nth_error X2 j = Some y -> exists row, nth_error M i = Some row /\ length row = length X2 /\ nth_error row j = Some (g x y)).
Proof.
  intros P g f X1 X2 W. unfold matrix_from_function_dense.
  assert (D : (X1 = [] /\ X2 = []) \/ exists d : P, True) by (destruct X1 as [|d ?], X2 as [|d' ?]; eauto).
  destruct D as [[-> ->]|[d _]].
  { exists []. cbn [length]. rewrite (W _ _ eq_refl). split; [reflexivity|]. split; [reflexivity|]. intros [|i] ? ? ? Q; discriminate. }
  rewrite (vals_pairs g f X1 X2 d W). unfold reshapeF. rewrite map_length, pairs_length, Nat.eqb_refl.
  eexists; split; [reflexivity|]. rewrite map_length, seq_length. split; [reflexivity|]. intros i j x y Xi Xj.
  assert (Li : (i < length X1)%nat) by (apply nth_error_Some; congruence).
  assert (Lj : (j < length X2)%nat) by (apply nth_error_Some; congruence).
  eexists. rewrite nth_error_map, (nth_error_nth' _ 0%nat) by (rewrite seq_length; lia). rewrite seq_nth by lia. cbn [option_map]. split; [reflexivity|].
  split; [now rewrite map_length, seq_length|]. rewrite nth_error_map, (nth_error_nth' _ 0%nat) by (rewrite seq_length; lia). rewrite seq_nth by lia. cbn [option_map Nat.add].
  f_equal. apply nth_error_nth. rewrite nth_error_map, (pairs_nth _ _ i j Li Lj). cbn [option_map fst snd]. rewrite (nth_error_nth _ _ d Xi), (nth_error_nth _ _ d Xj). reflexivity.
Qed.
Print Assumptions C24_dense.

Lemma mapO_getZ {P} (X : list P) I d : (forall i, In i I -> 0 <= i < Z.of_nat (length X)) -> mapO (getZ X) I = Some (map (fun i => nth (Z.to_nat i) X d) I).
Proof.
  induction I as [|i I IH]; intros H; [reflexivity|]. cbn [mapO map]. rewrite IH by (intros; apply H; now right).
  unfold getZ, TopoModel.norm_index. specialize (H i (or_introl eq_refl)).
  replace ((0 <=? i) && (i <? Z.of_nat (length X))) with true by (symmetry; apply andb_true_intro; rewrite Z.leb_le, Z.ltb_lt; lia).
  rewrite (nth_error_nth' _ d) by lia. reflexivity.
Qed.
(** with a sparsity pattern of distinct (row, column) pairs: the function's value on the pattern, zero elsewhere *)
Theorem C24_pattern : forall P (g : P -> P -> R) f X1 X2 IJ, rowwise g f ->
  (forall p, In p IJ -> 0 <= fst p < Z.of_nat (length X1) /\ 0 <= snd p < Z.of_nat (length X2)) -> NoDup IJ ->
  exists M, matrix_from_function_pattern f X1 X2 (map fst IJ) (map snd IJ) = Ok M /\
  (forall i j x y, nth_error X1 i = Some x -> nth_error X2 j = Some y -> In (Z.of_nat i, Z.of_nat j) IJ -> entry M (Z.of_nat i) (Z.of_nat j) = g x y) /\
  (forall i j, ~ In (i, j) IJ -> entry M i j = 0%R).
Proof.
  intros P g f X1 X2 IJ W H N. unfold matrix_from_function_pattern.
  destruct IJ as [|p0 IJ'].
  { cbn [map mapO lift bind]. rewrite (W _ _ eq_refl). exists []. split; [reflexivity|]. split; [intros; contradiction|intros; reflexivity]. }
  set (IJ := p0 :: IJ') in *.
  assert (D : exists d : P, True). { destruct X1 as [|d ?]; eauto. destruct (H p0 (or_introl eq_refl)). cbn in *; lia. }
  destruct D as [d _].
  rewrite (mapO_getZ X1 _ d) by (intros i I; apply in_map_iff in I as (p & <- & I); apply H; auto).
  rewrite (mapO_getZ X2 _ d) by (intros i I; apply in_map_iff in I as (p & <- & I); apply H; auto).
  cbn [lift bind]. rewrite !map_map. rewrite W by now rewrite !map_length. rewrite combine_map2, map_map. unfold csc. rewrite !map_length, !Nat.eqb_refl. cbn [andb].
  rewrite !combine_map2. rewrite csr_ok.
  2:{ intros t T. apply in_map_iff in T as (p & <- & T). unfold trow, tcol; cbn [fst snd]. apply H; auto. }
  cbn [bind fst snd]. eexists; split; [reflexivity|]. split.
  - intros i j x y Xi Xj I. pose proof (entry_pick fst snd (fun p => g (nth (Z.to_nat (fst p)) X1 d) (nth (Z.to_nat (snd p)) X2 d)) IJ (Z.of_nat i, Z.of_nat j) N I) as Q.
    cbn [fst snd] in Q. rewrite !Nat2Z.id in Q. rewrite (nth_error_nth _ _ d Xi), (nth_error_nth _ _ d Xj) in Q. apply Q. intros [a b] _ Q1 Q2; cbn in *; congruence.
  - intros i j NI. apply (entry_absent fst snd (fun p => g (nth (Z.to_nat (fst p)) X1 d) (nth (Z.to_nat (snd p)) X2 d)) IJ i j). intros [a b] I; cbn; intros -> ->; auto.
Qed.
Print Assumptions C24_pattern.
(** a repeated pair is summed by the constructor, so distinctness is needed *)
Theorem C24_pattern_repeated : forall P (g : P -> P -> R) f (x y : P), rowwise g f ->
  exists M, matrix_from_function_pattern f [x] [y] [0; 0] [0; 0] = Ok M /\ entry M 0 0 = (g x y + g x y)%R.
Proof.
  intros P g f x y W. unfold matrix_from_function_pattern. cbn [mapO getZ length]. cbn. rewrite (W [x;x] [y;y] eq_refl). cbn. eexists; split; [reflexivity|]. cbn. lra.
Qed.
Print Assumptions C24_pattern_repeated.
Example C24_nonvacuous : rowwise (fun x y : R => (x - 2 * y)%R) (fun A B => map (fun p => (fst p - 2 * snd p)%R) (combine A B))
  /\ nth_error [1%R; 5%R] 1 = Some 5%R /\ NoDup [(0,1); (1,0)].
Proof. split; [intros A B _; reflexivity|]. split; [reflexivity|]. repeat constructor; cbn; intuition congruence. Qed.
