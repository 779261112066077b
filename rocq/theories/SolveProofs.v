(** Proofs for min_quad_with_fixed / fixed_dof_solve *)
From Coq Require Import List Arith ZArith Lia Bool Reals Lra Permutation.
From Verif Require Import MatModel MatProofs Subdiv3Proofs SolveModel.
Open Scope R_scope.

Lemma nodupb_ok l : nodupb l = true -> NoDup l.
Proof.
  induction l as [|x l IH]; cbn; intros H; constructor; apply andb_prop in H as [A B]; auto.
  intros I. apply negb_true_iff in A. assert (existsb (Z.eqb x) l = true) by (apply existsb_exists; exists x; split; auto; apply Z.eqb_refl). congruence.
Qed.
Lemma check_k_inv n k ks : check_k n k = Ok ks ->
  ks = map Z.to_nat (match k with Some l => l | None => [] end) /\ NoDup ks /\ (forall i, In i ks -> (i < n)%nat)
  /\ (forall z, In z (match k with Some l => l | None => [] end) -> (0 <= z < Z.of_nat n)%Z).
Proof.
  intros H. destruct k as [[|a k]|]; [discriminate| |injection H as <-; repeat split; auto; [constructor|intros ? []| |]; destruct H].
  unfold check_k in H. destruct (forallb _ (a :: k)) eqn:E1; cbn [andb] in H; [|discriminate].
  destruct (nodupb (a :: k)) eqn:E2; [|discriminate]. injection H as <-.
  assert (RG : forall z, In z (a :: k) -> (0 <= z < Z.of_nat n)%Z).
  { intros z I. rewrite forallb_forall in E1. specialize (E1 z I). apply andb_prop in E1 as [A B]. lia. }
  split; [reflexivity|]. split; [|split; auto].
  - apply nodupb_ok in E2. change (NoDup (map Z.to_nat (a :: k))). revert E2 RG. generalize (a :: k) as l. clear. induction l as [|x l IH]; cbn [map In]; intros N RG; [constructor|]. constructor; [|apply IH; [inversion N; auto|auto]]. apply NoDup_cons_iff in N as [N _].
    intros I. apply in_map_iff in I as (y & E & I). assert (x = y) by (pose proof (RG x ltac:(auto)); pose proof (RG y ltac:(auto)); lia). subst; contradiction.
  - intros i I. apply (in_map_iff Z.to_nat (a :: k)) in I as (z & <- & I). specialize (RG z I). lia.
Qed.

Lemma setdiff_in n k i : In i (setdiff n k) <-> (i < n)%nat /\ ~ In i k.
Proof.
  unfold setdiff. rewrite filter_In, in_seq, negb_true_iff. split; intros [A B]; split; try lia.
  - intros I. assert (existsb (Nat.eqb i) k = true) by (apply existsb_exists; exists i; split; auto; apply Nat.eqb_refl). congruence.
  - destruct (existsb (Nat.eqb i) k) eqn:E; auto. apply existsb_exists in E as (x & I & E). apply Nat.eqb_eq in E. subst; contradiction.
Qed.
Lemma setdiff_nodup n k : NoDup (setdiff n k).
Proof. apply NoDup_filter, seq_NoDup. Qed.
Lemma nodup_app {A} (l l' : list A) : NoDup l -> NoDup l' -> (forall x, In x l -> ~ In x l') -> NoDup (l ++ l').
Proof.
  induction l as [|x l IH]; cbn; intros N N' D; auto. inversion N; subst. constructor.
  - rewrite in_app_iff. intros [I|I]; auto. apply (D x); auto.
  - apply IH; auto.
Qed.
Lemma setdiff_perm n k : NoDup k -> (forall i, In i k -> (i < n)%nat) -> Permutation (seq 0 n) (setdiff n k ++ k).
Proof.
  intros N RG. apply NoDup_Permutation; [apply seq_NoDup| |].
  - apply nodup_app; auto; [apply setdiff_nodup|]. intros x I. apply setdiff_in in I. tauto.
  - intros x. rewrite in_app_iff, setdiff_in, in_seq. specialize (RG x). destruct (in_dec Nat.eq_dec x k); intuition lia.
Qed.
Lemma setdiff_len n k : NoDup k -> (forall i, In i k -> (i < n)%nat) -> length (setdiff n k) = (n - length k)%nat.
Proof. intros N RG. pose proof (Permutation_length (setdiff_perm n k N RG)) as H. rewrite seq_length, app_length in H. lia. Qed.

Lemma assign_gen (idx : list nat) (vals : nat -> R) : forall s (u : nat -> R), NoDup idx ->
  let v := fold_left (fun u p => fun i => if Nat.eqb i (fst p) then vals (snd p) else u i) (combine idx (seq s (length idx))) u in
  (forall r i, nth_error idx r = Some i -> v i = vals (s + r)%nat) /\ (forall i, ~ In i idx -> v i = u i).
Proof.
  induction idx as [|x idx IH]; intros s u N; cbn [length seq combine fold_left].
  - split; auto. intros [|r] i E; discriminate.
  - inversion N as [|? ? NI N']; subst. destruct (IH (S s) (fun i => if Nat.eqb i (fst (x, s)) then vals (snd (x, s)) else u i) N') as (A & B). cbn zeta in A, B |- *. split.
    + intros [|r] i E; cbn in E.
      * injection E as <-. rewrite B by auto. cbn [fst snd]. rewrite Nat.eqb_refl. f_equal. lia.
      * rewrite (A r i E). f_equal. lia.
    + intros i I. rewrite B by (intros J; apply I; right; auto). cbn [fst snd]. destruct (Nat.eqb_spec i x); auto. subst. exfalso; apply I; left; auto.
Qed.
Lemma assign_in idx vals u r i : NoDup idx -> nth_error idx r = Some i -> assign idx vals u i = vals r.
Proof. intros N E. destruct (assign_gen idx vals 0 u N) as (A & _). apply (A r i E). Qed.
Lemma assign_out idx vals u i : NoDup idx -> ~ In i idx -> assign idx vals u i = u i.
Proof. intros N E. destruct (assign_gen idx vals 0 u N) as (_ & B). apply (B i E). Qed.

Lemma nth_error_nth0 {A} (l : list A) i d : (i < length l)%nat -> nth_error l i = Some (nth i l d).
Proof. apply nth_error_nth'. Qed.

Lemma sum_split n ki ks f : Permutation (seq 0 n) (ki ++ ks) -> sumn n f = sumf f ki + sumf f ks.
Proof. intros P. unfold sumn. rewrite (sumf_perm _ _ _ P), sumf_app. reflexivity. Qed.
Lemma sum_nth_as (l : list nat) (g : nat -> R) (v : nat -> R) (u : nat -> R) :
  (forall j, (j < length l)%nat -> u (nth j l 0%nat) = v j) ->
  sumn (length l) (fun j => g (nth j l 0%nat) * v j) = sumf (fun x => g x * u x) l.
Proof.
  intros H. rewrite (sumf_nth _ 0%nat l). unfold sumn. apply sumf_ext. intros j I. apply in_seq in I. rewrite H by lia. reflexivity.
Qed.

(** gluing the free part [sol] and the fixed part [y] *)
Lemma rows_glued n ki ks g (sol y u : nat -> R) : Permutation (seq 0 n) (ki ++ ks) ->
  (forall j, (j < length ki)%nat -> u (nth j ki 0%nat) = sol j) -> (forall j, (j < length ks)%nat -> u (nth j ks 0%nat) = y j) ->
  sumn n (fun j => g j * u j) = sumn (length ki) (fun j => g (nth j ki 0%nat) * sol j) + sumn (length ks) (fun j => g (nth j ks 0%nat) * y j).
Proof. intros P A B. rewrite (sum_split n ki ks) by auto. rewrite (sum_nth_as ki g sol u A), (sum_nth_as ks g y u B). reflexivity. Qed.

(** the minimiser argument *)
Definition form (n : nat) (Q : matrix) (u v : nat -> R) : R := sumn n (fun i => u i * sumn n (fun j => Q i j * v j)).
Lemma form_sym n Q u v : (forall i j, (i < n)%nat -> (j < n)%nat -> Q i j = Q j i) -> form n Q u v = form n Q v u.
Proof.
  intros S. unfold form. unfold sumn.
  rewrite (sumf_ext (fun i => u i * _) (fun i => sumf (fun j => u i * (Q i j * v j)) (seq 0 n))) by (intros; now rewrite sumf_scal).
  rewrite sumf_swap. apply sumf_ext. intros j Ij. rewrite <- sumf_scal. apply sumf_ext. intros i Ii. apply in_seq in Ii, Ij. rewrite (S i j) by lia. ring.
Qed.
Lemma form_plus_l n Q u v w : form n Q (fun i => u i + v i) w = form n Q u w + form n Q v w.
Proof. unfold form, sumn. rewrite <- sumf_plus. apply sumf_ext. intros; ring. Qed.
Lemma form_plus_r n Q u v w : form n Q w (fun i => u i + v i) = form n Q w u + form n Q w v.
Proof.
  unfold form, sumn. rewrite <- sumf_plus. apply sumf_ext. intros i _. rewrite <- Rmult_plus_distr_l. f_equal. rewrite <- sumf_plus. apply sumf_ext. intros; ring.
Qed.
Lemma form_symmetrize n Q u : form n (symmetrize n Q) u u = form n Q u u.
Proof.
  unfold symmetrize. destruct (is_symmetric n Q); auto. 
  assert (T : form n (fun i j => Q j i) u u = form n Q u u).
  { unfold form, sumn. rewrite (sumf_ext (fun i => u i * _) (fun i => sumf (fun j => u i * (Q j i * u j)) (seq 0 n))) by (intros; now rewrite sumf_scal).
    rewrite sumf_swap. apply sumf_ext. intros j _. rewrite <- sumf_scal. apply sumf_ext. intros; ring. }
  transitivity (/ 2 * (form n Q u u + form n (fun i j => Q j i) u u)); [|rewrite T; field].
  unfold form, sumn. rewrite <- sumf_plus, <- sumf_scal. apply sumf_ext. intros i _.
  rewrite <- Rmult_plus_distr_l, <- sumf_plus. replace (/2 * (u i * sumf (fun x => Q i x * u x + Q x i * u x) (seq 0 n))) with (u i * (/2 * sumf (fun x => Q i x * u x + Q x i * u x) (seq 0 n))) by ring.
  f_equal. rewrite <- sumf_scal. apply sumf_ext. intros j _. replace 0.5 with (/2) by lra. ring.
Qed.
Lemma symmetrize_sym n Q i j : (i < n)%nat -> (j < n)%nat -> symmetrize n Q i j = symmetrize n Q j i.
Proof.
  intros Hi Hj. unfold symmetrize. destruct (is_symmetric n Q) eqn:E; [|ring].
  unfold is_symmetric in E. rewrite forallb_forall in E. specialize (E i ltac:(apply in_seq; lia)). rewrite forallb_forall in E. specialize (E j ltac:(apply in_seq; lia)).
  destruct (Req_EM_T (Q i j) (Q j i)); [auto|discriminate].
Qed.

Lemma minimiser n m Q A (c : nat -> R) (lam u v : nat -> R) (free : nat -> Prop) :
  (forall i j, (i < n)%nat -> (j < n)%nat -> Q i j = Q j i) ->
  (forall i, (i < n)%nat -> free i -> sumn n (fun j => Q i j * u j) + c i + sumn m (fun r => A r i * lam r) = 0) ->
  (forall i, (i < n)%nat -> free i \/ v i = u i) ->
  (forall r, (r < m)%nat -> sumn n (fun j => A r j * v j) = sumn n (fun j => A r j * u j)) ->
  0 <= form n Q (fun i => v i - u i) (fun i => v i - u i) ->
  / 2 * form n Q u u + sumn n (fun i => c i * u i) <= / 2 * form n Q v v + sumn n (fun i => c i * v i).
Proof.
  intros S ST FX FE PSD. set (d := fun i => v i - u i) in *.
  assert (VE : form n Q v v = form n Q u u + 2 * form n Q d u + form n Q d d).
  { transitivity (form n Q (fun i => u i + d i) (fun i => u i + d i)).
    - unfold form, sumn. apply sumf_ext. intros i _. unfold d. f_equal; [ring|]. apply sumf_ext. intros; ring.
    - rewrite form_plus_l, !form_plus_r. rewrite (form_sym n Q u d S). ring. }
  assert (CE : sumn n (fun i => c i * v i) = sumn n (fun i => c i * u i) + sumn n (fun i => d i * c i)).
  { unfold sumn. rewrite <- sumf_plus. apply sumf_ext. intros; unfold d; ring. }
  assert (ZERO : form n Q d u + sumn n (fun i => d i * c i) = 0).
  { transitivity (- sumn n (fun i => d i * sumn m (fun r => A r i * lam r))).
    - unfold form, sumn at 1 3 4. rewrite <- sumf_plus, <- sumf_opp. apply sumf_ext. intros i I. apply in_seq in I.
      destruct (FX i ltac:(lia)) as [Fi|Fi].
      + pose proof (ST i ltac:(lia) Fi) as H. replace (c i) with (- sumn n (fun j => Q i j * u j) - sumn m (fun r => A r i * lam r)) by lra. ring.
      + unfold d. rewrite Fi. ring.
    - unfold sumn. rewrite (sumf_ext (fun i => d i * _) (fun i => sumf (fun r => d i * (A r i * lam r)) (seq 0 m))) by (intros; now rewrite sumf_scal).
      rewrite sumf_swap. rewrite sumf_zero; [ring|]. intros r I. apply in_seq in I.
      rewrite (sumf_ext _ (fun i => (A r i * v i - A r i * u i) * lam r)) by (intros; unfold d; ring).
      rewrite sumf_scal_r, sumf_minus. specialize (FE r ltac:(lia)). unfold sumn in FE. rewrite FE. ring. }
  rewrite VE, CE. lra.
Qed.
