(** C43: min_quad_with_fixed and fixed_dof_solve *)
From Coq Require Import List Arith ZArith Lia Bool Reals Lra Permutation.
From Verif Require Import MatModel MatProofs Subdiv3Proofs SolveModel SolveProofs.
Open Scope R_scope.

(** -- specification -- *)
(** the contract of the sparse factorisation: whenever it returns, it solves exactly *)
Definition solver_ok (splu : solver_t) : Prop :=
  forall N M f, splu N M = Ok f -> forall rhs i, (i < N)%nat -> sumn N (fun j => M i j * f rhs j) = rhs i.
(** entry (i, column) of an optional right-hand side: absent means 0, a scalar means that constant *)
Definition value (a : arg) (i col : nat) : R :=
  match a with ANone => 0 | AScalar s => s | AVec v => nth i v 0 | AMat _ _ f => f i col end.
Definition fixed_list (k : option (list Z)) : list Z := match k with Some l => l | None => [] end.
Definition n_rows (A : option (nat * nat * matrix)) : nat := match A with Some (m, _, _) => m | None => 0%nat end.
Definition entries (A : option (nat * nat * matrix)) : matrix := match A with Some (_, _, f) => f | None => fun _ _ => 0 end.
(** u is feasible: u[k] = y and A u = b *)
Definition honours_k (k : option (list Z)) (y : arg) (col : nat) (u : nat -> R) : Prop :=
  forall r z, nth_error (fixed_list k) r = Some z -> u (Z.to_nat z) = value y r col.
Definition honours_A (n : nat) (A : option (nat * nat * matrix)) (b : arg) (col : nat) (u : nat -> R) : Prop :=
  forall r, (r < n_rows A)%nat -> sumn n (fun j => entries A r j * u j) = value b r col.
(** 1/2 u'Qu + c'u *)
Definition energy (n : nat) (Q : matrix) (c : nat -> R) (u : nat -> R) : R :=
  / 2 * sumn n (fun i => u i * sumn n (fun j => Q i j * u j)) + sumn n (fun i => c i * u i).
Definition psd (n : nat) (Q : matrix) : Prop := forall d, 0 <= sumn n (fun i => d i * sumn n (fun j => Q i j * d j)).

(** -- proofs -- *)
Lemma expand_value a i col : expand a i col = value a i col.
Proof. destruct a; reflexivity. Qed.

Lemma glue_ok n ks sol y g : NoDup ks -> (forall i, In i ks -> (i < n)%nat) ->
  let u := assign ks y (assign (setdiff n ks) sol g) in
  (forall j, (j < length (setdiff n ks))%nat -> u (nth j (setdiff n ks) 0%nat) = sol j) /\ (forall j, (j < length ks)%nat -> u (nth j ks 0%nat) = y j).
Proof.
  intros N RG u. split; intros j Hj; unfold u.
  - rewrite assign_out; auto.
    + apply assign_in; [apply setdiff_nodup|apply nth_error_nth'; auto].
    + pose proof (nth_In (setdiff n ks) 0%nat Hj) as I. apply setdiff_in in I. tauto.
  - apply assign_in; auto. apply nth_error_nth'; auto.
Qed.

Lemma kkt_rows nr m Q A (sol cmod bmod : nat -> R) :
  (forall i, (i < nr + m)%nat -> sumn (nr + m) (fun j => kkt nr m Q A i j * sol j) = if Nat.ltb i nr then - cmod i else bmod (i - nr)%nat) ->
  (forall i, (i < nr)%nat -> sumn nr (fun j => Q i j * sol j) + sumn m (fun r => A r i * sol (nr + r)%nat) = - cmod i)
  /\ (forall r, (r < m)%nat -> sumn nr (fun j => A r j * sol j) = bmod r).
Proof.
  intros H. split.
  - intros i Hi. specialize (H i ltac:(lia)). rewrite sumn_app in H. destruct (Nat.ltb_spec i nr); [|lia]. rewrite <- H.
    unfold sumn. f_equal; apply sumf_ext; intros j I; apply in_seq in I; unfold kkt.
    + destruct (Nat.ltb_spec i nr), (Nat.ltb_spec j nr); try lia; auto.
    + destruct (Nat.ltb_spec i nr), (Nat.ltb_spec (nr + j) nr); try lia. do 2 f_equal. lia.
  - intros r Hr. specialize (H (nr + r)%nat ltac:(lia)). rewrite sumn_app in H. destruct (Nat.ltb_spec (nr + r) nr); [lia|].
    replace (nr + r - nr)%nat with r in H by lia. rewrite <- H. 
    assert (Z0 : sumn m (fun i => kkt nr m Q A (nr + r)%nat (nr + i)%nat * sol (nr + i)%nat) = 0).
    { unfold sumn. apply sumf_zero. intros j I. unfold kkt. destruct (Nat.ltb_spec (nr + r) nr), (Nat.ltb_spec (nr + j) nr); try lia. ring. }
    rewrite Z0, Rplus_0_r. unfold sumn. apply sumf_ext. intros j I. apply in_seq in I. unfold kkt.
    destruct (Nat.ltb_spec (nr + r) nr), (Nat.ltb_spec j nr); try lia. do 2 f_equal. lia.
Qed.

(** everything about one column, from the solved reduced system *)
Lemma mqf_core n m ki ks Q Am (c b y sol u : nat -> R) : Permutation (seq 0 n) (ki ++ ks) ->
  (forall j, (j < length ki)%nat -> u (nth j ki 0%nat) = sol j) -> (forall j, (j < length ks)%nat -> u (nth j ks 0%nat) = y j) ->
  (forall i, (i < length ki)%nat -> sumn (length ki) (fun j => symmetrize n Q (nth i ki 0%nat) (nth j ki 0%nat) * sol j) + sumn m (fun r => Am r (nth i ki 0%nat) * sol (length ki + r)%nat)
       = - (c (nth i ki 0%nat) + sumn (length ks) (fun j => symmetrize n Q (nth i ki 0%nat) (nth j ks 0%nat) * y j))) ->
  (forall r, (r < m)%nat -> sumn (length ki) (fun j => Am r (nth j ki 0%nat) * sol j) = b r - sumn (length ks) (fun j => Am r (nth j ks 0%nat) * y j)) ->
  (forall r, (r < m)%nat -> sumn n (fun j => Am r j * u j) = b r)
  /\ (forall v, (forall d, (forall j, In j ks -> d j = 0) -> (forall r, (r < m)%nat -> sumn n (fun j => Am r j * d j) = 0) -> 0 <= form n Q d d) ->
        (forall j, (j < length ks)%nat -> v (nth j ks 0%nat) = y j) -> (forall r, (r < m)%nat -> sumn n (fun j => Am r j * v j) = b r) ->
        energy n Q c u <= energy n Q c v).
Proof.
  intros P UI UK H1 H2.
  assert (AE : forall r, (r < m)%nat -> sumn n (fun j => Am r j * u j) = b r).
  { intros r Hr. rewrite (rows_glued n ki ks (Am r) sol y u P UI UK), (H2 r Hr). ring. }
  split; [exact AE|]. intros v PSD VK VA.
  assert (GK : forall j, In j ks -> v j = u j).
  { intros j I. apply (In_nth _ _ 0%nat) in I as (q & Lq & <-). rewrite VK, UK; auto. }
  unfold energy. fold (form n Q u u). fold (form n Q v v). rewrite <- (form_symmetrize n Q u), <- (form_symmetrize n Q v).
  apply (minimiser n m (symmetrize n Q) Am c (fun r => sol (length ki + r)%nat) u v (fun i => In i ki)).
  - intros; apply symmetrize_sym; auto.
  - intros i Hi Fi. apply (In_nth _ _ 0%nat) in Fi as (q & Lq & <-). specialize (H1 q Lq).
    rewrite (rows_glued n ki ks (symmetrize n Q (nth q ki 0%nat)) sol y u P UI UK). lra.
  - intros i Hi. assert (I : In i (ki ++ ks)) by (apply (Permutation_in _ P), in_seq; lia). apply in_app_iff in I as [I|I]; auto.
  - intros r Hr. rewrite AE, VA; auto.
  - rewrite form_symmetrize. apply PSD.
    + intros j I. rewrite (GK j I). ring.
    + intros r Hr. unfold sumn. rewrite (sumf_ext _ (fun j => Am r j * v j - Am r j * u j)) by (intros; ring). rewrite sumf_minus.
      fold (sumn n (fun j => Am r j * v j)). fold (sumn n (fun j => Am r j * u j)). rewrite AE, VA; auto. ring.
Qed.

Lemma nth_seq n j : (j < n)%nat -> nth j (seq 0 n) 0%nat = j.
Proof. intros. rewrite seq_nth; auto. Qed.

Lemma mqf_column splu garbage rows cols Q A k P c b y p u : solver_ok splu ->
  min_quad_with_fixed_precompute splu rows cols Q A k = Ok P -> mqf_solve garbage P c b y = Ok (p, u) ->
  rows = cols /\ (forall m cA f, A = Some (m, cA, f) -> cA = rows) /\
  forall col, honours_k k y col (fun i => u i col) /\ honours_A rows A b col (fun i => u i col)
  /\ forall v, (forall d, (forall j, In j (map Z.to_nat (fixed_list k)) -> d j = 0) -> (forall r, (r < n_rows A)%nat -> sumn rows (fun j => entries A r j * d j) = 0) -> 0 <= form rows Q d d) ->
      honours_k k y col v -> honours_A rows A b col v -> energy rows Q (fun i => value c i col) (fun i => u i col) <= energy rows Q (fun i => value c i col) v.
Proof.
  intros SO QP QS. unfold min_quad_with_fixed_precompute in QP.
  destruct (Nat.eqb_spec rows cols) as [RC|]; cbn [negb] in QP; [|discriminate]. split; [exact RC|].
  destruct (Nat.eqb_spec rows 0) as [|RN]; [discriminate|].
  destruct (match A with None => _ | Some _ => _ end) as [[m Am]|] eqn:QA; cbn [bind] in QP; [|discriminate].
  assert (AE : m = n_rows A /\ Am = entries A /\ (forall m cA f, A = Some (m, cA, f) -> cA = rows)).
  { destruct A as [[[m' c'] Am']|]; cbn.
    - destruct (Nat.eqb_spec c' rows); [|discriminate]. injection QA as <- <-. repeat split; auto. intros ? ? ? W; injection W as _ <- _; auto.
    - injection QA as <- <-. repeat split; auto. discriminate. }
  destruct AE as (Em & EA & Ecols). split; [exact Ecols|]. clear QA. rewrite <- Em, <- EA. clear Ecols.
  destruct (check_k rows k) as [ks|] eqn:QK; cbn [bind] in QP; [|discriminate].
  destruct (check_k_inv _ _ _ QK) as (EK & NK & RK & _). fold (fixed_list k) in EK.
  assert (HK : forall col w, (forall j, (j < length ks)%nat -> w (nth j ks 0%nat) = value y j col) <-> honours_k k y col w).
  { intros col w. unfold honours_k. split.
    - intros H r z E. assert (L : (r < length ks)%nat) by (rewrite EK, map_length; apply nth_error_Some; congruence).
      rewrite <- H by auto. f_equal. rewrite EK. symmetry. apply nth_error_nth. apply map_nth_error; auto.
    - intros H j Lj. rewrite EK, map_length in Lj. destruct (nth_error (fixed_list k) j) as [z|] eqn:E; [|apply nth_error_None in E; lia].
      rewrite <- (H j z E). f_equal. rewrite EK. apply nth_error_nth. apply map_nth_error; auto. }
  rewrite <- EK.
  unfold mqf_solve in QS. 
  destruct (check (q_n P) _ true c); cbn [bind] in QS; [|discriminate].
  destruct (check (q_m P) _ _ b); cbn [bind] in QS; [|discriminate].
  destruct (check (length (q_k P)) _ _ y); cbn [bind] in QS; [|discriminate].
  injection QS as _ <-. unfold honours_A. rewrite <- Em, <- EA.
  destruct ks as [|k0 ks'].
  - (* no fixed values *)
    destruct (if Nat.eqb m 0 then _ else _) as [s|] eqn:QZ; cbn [bind] in QP; [|discriminate]. injection QP as <-. cbn [q_k q_m q_nred q_solver].
    intros col. cbv beta zeta.
    set (rhs := if Nat.eqb m 0 then _ else _).
    assert (SYS : (forall i, (i < length (seq 0 rows))%nat -> sumn (length (seq 0 rows)) (fun j => symmetrize rows Q (nth i (seq 0 rows) 0%nat) (nth j (seq 0 rows) 0%nat) * s rhs j) + sumn m (fun r => Am r (nth i (seq 0 rows) 0%nat) * s rhs (length (seq 0 rows) + r)%nat)
       = - (value c (nth i (seq 0 rows) 0%nat) col + sumn (length (@nil nat)) (fun j => symmetrize rows Q (nth i (seq 0 rows) 0%nat) (nth j (@nil nat) 0%nat) * value y j col)))
      /\ (forall r, (r < m)%nat -> sumn (length (seq 0 rows)) (fun j => Am r (nth j (seq 0 rows) 0%nat) * s rhs j) = value b r col - sumn (length (@nil nat)) (fun j => Am r (nth j (@nil nat) 0%nat) * value y j col))).
    { rewrite !seq_length. cbn [length]. 
      assert (SH : (forall i, (i < rows)%nat -> sumn rows (fun j => symmetrize rows Q i j * s rhs j) + sumn m (fun r => Am r i * s rhs (rows + r)%nat) = - value c i col)
         /\ (forall r, (r < m)%nat -> sumn rows (fun j => Am r j * s rhs j) = value b r col)).
      { destruct (Nat.eqb_spec m 0) as [M0|M0].
        - subst m. rewrite M0 in *. split; [|intros; lia]. intros i Hi. rewrite (SO _ _ _ QZ rhs i Hi). unfold rhs. rewrite expand_value. unfold sumn; cbn. ring.
        - apply (kkt_rows rows m (symmetrize rows Q) Am (s rhs) (fun i => value c i col) (fun r => value b r col)).
          intros i Hi. rewrite (SO _ _ _ QZ rhs i Hi). unfold rhs. rewrite !expand_value. reflexivity. }
      destruct SH as (S1 & S2). split.
      - intros i Hi. rewrite (nth_seq rows i Hi). change (sumn 0 _) with 0. rewrite Rplus_0_r, <- (S1 i Hi). f_equal.
        unfold sumn. apply sumf_ext. intros j I. apply in_seq in I. rewrite nth_seq by lia. reflexivity.
      - intros r Hr. change (sumn 0 _) with 0. rewrite Rminus_0_r, <- (S2 r Hr). unfold sumn. apply sumf_ext. intros j I. apply in_seq in I. rewrite nth_seq by lia. reflexivity. }
    destruct SYS as (S1 & S2).
    destruct (mqf_core rows m (seq 0 rows) [] Q Am (fun i => value c i col) (fun r => value b r col) (fun j => value y j col) (s rhs) (s rhs)) as (R1 & R2); auto.
    { rewrite app_nil_r. apply Permutation_refl. }
    { intros j Hj. rewrite seq_length in Hj. rewrite nth_seq; auto. }
    { intros j Hj. cbn in Hj. lia. }
    split; [|split].
    + apply HK. intros j Hj; cbn in Hj; lia.
    + intros r Hr. apply (R1 r Hr).
    + intros v PSD VK VA. apply R2; auto. intros j Hj; cbn in Hj; lia.
  - (* fixed values *)
    set (ks := k0 :: ks') in *. set (ki := setdiff rows ks) in *.
    destruct (Nat.eqb_spec (length ki) (rows - length ks)) as [LI|]; cbn [negb] in QP; [|discriminate].
    destruct (if Nat.eqb m 0 then _ else _) as [s|] eqn:QZ; cbn [bind] in QP; [|discriminate]. injection QP as <-. cbn [q_k q_m q_nred q_solver q_ki q_Qextra q_Aextra].
    intros col. cbv beta zeta. change (match ks with [] => ?a | _ :: _ => ?b end) with b. cbn match.
    set (rhs := if Nat.eqb m 0 then _ else _).
    set (uu := fun i => assign ks (fun j => expand y j col) (assign ki (s rhs) (fun i0 => garbage i0 col)) i).
    destruct (glue_ok rows ks (s rhs) (fun j => expand y j col) (fun i0 => garbage i0 col) NK RK) as (G1 & G2). fold ki in G1, G2. fold uu in G1, G2.
    assert (G2' : forall j, (j < length ks)%nat -> uu (nth j ks 0%nat) = value y j col) by (intros j Hj; rewrite <- expand_value; apply (G2 j Hj)).
    set (cmod := fun i => value c (nth i ki 0%nat) col + sumn (length ks) (fun j => symmetrize rows Q (nth i ki 0%nat) (nth j ks 0%nat) * value y j col)).
    set (bmod := fun r => value b r col - sumn (length ks) (fun j => Am r (nth j ks 0%nat) * value y j col)).
    assert (CM : forall i, expand c (nth i ki 0%nat) col + sumn (length ks) (fun j => sub_mat (symmetrize rows Q) ki ks i j * expand y j col) = cmod i).
    { intros i. unfold cmod. rewrite expand_value. f_equal. unfold sumn. apply sumf_ext. intros j _. rewrite expand_value. reflexivity. }
    assert (BM : forall r, expand b r col - sumn (length ks) (fun j => Am r (nth j ks 0%nat) * expand y j col) = bmod r).
    { intros i. unfold bmod. rewrite expand_value. f_equal. unfold sumn. apply sumf_ext. intros j _. rewrite expand_value. reflexivity. }
    assert (SYS : (forall i, (i < length ki)%nat -> sumn (length ki) (fun j => sub_mat (symmetrize rows Q) ki ki i j * s rhs j) + sumn m (fun r => (fun i0 j => Am i0 (nth j ki 0%nat)) r i * s rhs (length ki + r)%nat) = - cmod i)
      /\ (forall r, (r < m)%nat -> sumn (length ki) (fun j => (fun i0 j => Am i0 (nth j ki 0%nat)) r j * s rhs j) = bmod r)).
    { destruct (Nat.eqb_spec m 0) as [M0|M0].
      - rewrite M0. split; [|intros; lia]. intros i Hi. rewrite (SO _ _ _ QZ rhs i Hi). rewrite <- CM. change (sumn 0 _) with 0. rewrite Rplus_0_r. reflexivity.
      - apply (kkt_rows (length ki) m (sub_mat (symmetrize rows Q) ki ki) (fun i0 j => Am i0 (nth j ki 0%nat)) (s rhs) cmod bmod).
        intros i Hi. rewrite (SO _ _ _ QZ rhs i Hi). unfold rhs. cbv beta. destruct (Nat.ltb i (length ki)); [rewrite <- CM|rewrite <- BM]; reflexivity. }
    destruct SYS as (S1 & S2).
    destruct (mqf_core rows m ki ks Q Am (fun i => value c i col) (fun r => value b r col) (fun j => value y j col) (s rhs) uu) as (R1 & R2); auto.
    { apply setdiff_perm; auto. }
    split; [|split].
    + apply HK. exact G2'.
    + intros r Hr. apply (R1 r Hr).
    + intros v PSD VK VA. apply R2; auto. apply HK; auto.
Qed.

(** min_quad_with_fixed: the constraints hold and the result is a minimiser among all feasible vectors, column by column.
    The precomputed object is reused for every right-hand side: [P] does not depend on (c, b, y). *)
Theorem C43_min_quad : forall splu garbage rows cols Q A k P, solver_ok splu -> psd rows Q ->
  min_quad_with_fixed_precompute splu rows cols Q A k = Ok P ->
  forall (c b y : arg) p u, mqf_solve garbage P c b y = Ok (p, u) ->
  forall col : nat, honours_k k y col (fun i => u i col) /\ honours_A rows A b col (fun i => u i col)
  /\ forall v, honours_k k y col v -> honours_A rows A b col v ->
       energy rows Q (fun i => value c i col) (fun i => u i col) <= energy rows Q (fun i => value c i col) v.
Proof.
  intros splu garbage rows cols Q A k P SO PSD QP c b y p u QS col.
  destruct (mqf_column splu garbage rows cols Q A k P c b y p u SO QP QS) as (_ & _ & H). destruct (H col) as (H1 & H2 & H3).
  split; [auto|]. split; [auto|]. intros v VK VA. apply H3; auto. intros d _ _. apply PSD.
Qed.
(** the same when Q is only positive semi-definite along feasible directions *)
Theorem C43_min_quad_constrained_psd : forall splu garbage rows cols Q A k P, solver_ok splu ->
  (forall d, (forall z, In z (fixed_list k) -> d (Z.to_nat z) = 0) -> (forall r, (r < n_rows A)%nat -> sumn rows (fun j => entries A r j * d j) = 0) ->
     0 <= sumn rows (fun i => d i * sumn rows (fun j => Q i j * d j))) ->
  min_quad_with_fixed_precompute splu rows cols Q A k = Ok P ->
  forall (c b y : arg) p u, mqf_solve garbage P c b y = Ok (p, u) ->
  forall col v, honours_k k y col v -> honours_A rows A b col v ->
       energy rows Q (fun i => value c i col) (fun i => u i col) <= energy rows Q (fun i => value c i col) v.
Proof.
  intros splu garbage rows cols Q A k P SO PSD QP c b y p u QS col v VK VA.
  destruct (mqf_column splu garbage rows cols Q A k P c b y p u SO QP QS) as (_ & _ & H). destruct (H col) as (H1 & H2 & H3).
  apply H3; auto. intros d D1 D2. apply PSD; auto. intros z I. apply D1. apply in_map; auto.
Qed.

(** fixed_dof_solve: fixed values, and the free rows of A u = b *)
Theorem C43_fixed_dof : forall splu garbage rows cols A k P, solver_ok splu ->
  fixed_dof_solve_precompute splu rows cols A k = Ok P ->
  forall (b y : arg) p u, fds_solve garbage P b y = Ok (p, u) ->
  forall col : nat, honours_k k y col (fun i => u i col)
   /\ forall i, (i < rows)%nat -> ~ In (Z.of_nat i) (fixed_list k) -> sumn rows (fun j => A i j * u j col) = value b i col.
Proof.
  intros splu garbage rows cols A k P SO QP b y p u QS col. unfold fixed_dof_solve_precompute in QP.
  destruct (Nat.eqb_spec rows cols) as [RC|]; cbn [negb] in QP; [|discriminate].
  destruct (Nat.eqb_spec rows 0) as [|RN]; [discriminate|].
  destruct (check_k rows k) as [ks|] eqn:QK; cbn [bind] in QP; [|discriminate].
  destruct (check_k_inv _ _ _ QK) as (EK & NK & RK & RZ). fold (fixed_list k) in EK, RZ.
  unfold fds_solve in QS.
  destruct (check (f_n P) _ true b); cbn [bind] in QS; [|discriminate].
  destruct (check (length (f_k P)) _ _ y); cbn [bind] in QS; [|discriminate].
  injection QS as _ <-.
  destruct ks as [|k0 ks'].
  - destruct (splu rows A) as [s|] eqn:QZ; cbn [bind] in QP; [|discriminate]. injection QP as <-. cbn [f_k f_solver]. split.
    + intros r z E. assert (In (Z.to_nat z) []) by (rewrite EK; apply in_map; eapply nth_error_In; eauto). destruct H.
    + intros i Hi _. rewrite (SO _ _ _ QZ (fun i0 => expand b i0 col) i Hi). apply expand_value.
  - set (ks := k0 :: ks') in *. set (ki := setdiff rows ks) in *.
    destruct (Nat.eqb_spec (length ki) (rows - length ks)) as [LI|]; cbn [negb] in QP; [|discriminate].
    destruct (splu (length ki) _) as [s|] eqn:QZ; cbn [bind] in QP; [|discriminate]. injection QP as <-. cbn [f_k f_solver f_ki f_extra f_n].
    cbv zeta. cbn match.
    set (rhs := fun i => expand b (nth i ki 0%nat) col - _).
    set (uu := fun i => assign ks (fun j => expand y j col) (assign ki (s rhs) (fun i0 => garbage i0 col)) i).
    destruct (glue_ok rows ks (s rhs) (fun j => expand y j col) (fun i0 => garbage i0 col) NK RK) as (G1 & G2). fold ki in G1, G2. fold uu in G1, G2.
    split.
    + intros r z E. assert (L : (r < length ks)%nat) by (rewrite EK, map_length; apply nth_error_Some; congruence).
      rewrite <- expand_value. assert (EN : nth r ks 0%nat = Z.to_nat z) by (rewrite EK; apply nth_error_nth; apply map_nth_error; auto).
      rewrite <- EN. apply (G2 r L).
    + intros i Hi NI. change (sumn rows (fun j => A i j * uu j) = value b i col). assert (I : In i ki).
      { apply setdiff_in. split; auto. rewrite EK. intros J. apply in_map_iff in J as (z & E & J). apply NI. specialize (RZ z J). replace (Z.of_nat i) with z by lia. auto. }
      apply (In_nth _ _ 0%nat) in I as (q & Lq & <-).
      rewrite (rows_glued rows ki ks (A (nth q ki 0%nat)) (s rhs) (fun j => expand y j col) uu (setdiff_perm rows ks NK RK) G1 G2).
      pose proof (SO _ _ _ QZ rhs q Lq) as E. unfold sub_mat in E. rewrite E. unfold rhs, sub_mat. rewrite expand_value. ring.
Qed.

(** success: valid shapes and indices, and a factorisation that succeeds *)
Definition arg_ok (n p : nat) (a : arg) : Prop :=
  match a with ANone => True | AScalar _ => (0 < n)%nat | AVec v => p = 0%nat /\ length v = n | AMat r q _ => (0 < p)%nat /\ r = n /\ q = p end.
Definition k_ok (n : nat) (k : option (list Z)) : Prop :=
  match k with None => True | Some l => l <> [] /\ NoDup l /\ forall z, In z l -> (0 <= z < Z.of_nat n)%Z end.
Lemma check_ok n p a sc : arg_ok n p a -> (sc = true \/ sc = Nat.ltb 0 n) -> check n p sc a = Ok tt.
Proof.
  intros H HS. destruct a; cbn in *; auto.
  - assert (sc = true) by (destruct HS as [W|W]; auto; destruct n; [lia|auto]). subst; auto.
  - destruct H as [-> ->]. rewrite !Nat.eqb_refl. reflexivity.
  - destruct H as (H & -> & ->). rewrite !Nat.eqb_refl. destruct p; [lia|reflexivity].
Qed.
Lemma check_k_ok n k : k_ok n k -> exists ks, check_k n k = Ok ks /\ length ks = length (fixed_list k).
Proof.
  intros H. destruct k as [[|z l]|]; [destruct H as [H _]; congruence| |exists []; auto].
  destruct H as (_ & N & RG). exists (map Z.to_nat (z :: l)). split; [|rewrite map_length; auto]. unfold check_k.
  replace (forallb _ (z :: l)) with true.
  2:{ symmetry. apply forallb_forall. intros x I. specialize (RG x I). apply andb_true_iff; split; [apply Z.leb_le|apply Z.ltb_lt]; lia. }
  replace (nodupb (z :: l)) with true; [reflexivity|]. symmetry. clear RG. revert N. generalize (z :: l). clear. induction l as [|x l IH]; cbn; intros N; auto. inversion N as [|a b NI N']; subst.
  rewrite IH by auto. rewrite andb_true_r. apply negb_true_iff. destruct (existsb (Z.eqb x) l) eqn:E; auto. apply existsb_exists in E as (y & I & E). apply Z.eqb_eq in E. subst; contradiction.
Qed.
(** a result, or else exactly the error raised by the factorisation *)
Definition ok_or_solver_error {A} (splu : solver_t) (x : res A) (good : A -> Prop) : Prop :=
  (exists a, x = Ok a /\ good a) \/ (exists N M e, splu N M = Err e /\ x = Err e).
Theorem C43_min_quad_accepts : forall splu garbage n Q A k p (c b y : arg), (0 < n)%nat ->
  (forall m cA f, A = Some (m, cA, f) -> cA = n) -> k_ok n k ->
  p = Nat.max (cp c) (Nat.max (cp b) (cp y)) -> arg_ok n p c -> arg_ok (n_rows A) p b -> arg_ok (length (fixed_list k)) p y ->
  ok_or_solver_error splu (min_quad_with_fixed splu garbage n n Q A k c b y) (fun r => fst r = p).
Proof.
  intros splu garbage n Q A k p c b y Hn HA HK Hp Hc Hb Hy.
  destruct (check_k_ok n k HK) as (ks & QK & LK). destruct (check_k_inv _ _ _ QK) as (_ & NK & RK & _).
  assert (LI : Nat.eqb (length (setdiff n ks)) (n - length ks) = true) by (apply Nat.eqb_eq, setdiff_len; auto).
  assert (E0 : Nat.eqb n 0 = false) by (apply Nat.eqb_neq; lia).
  assert (PRE : ok_or_solver_error splu (min_quad_with_fixed_precompute splu n n Q A k) (fun P => q_n P = n /\ q_m P = n_rows A /\ q_k P = ks)).
  { unfold min_quad_with_fixed_precompute. rewrite Nat.eqb_refl. cbn [negb]. rewrite E0.
    replace (match A with None => _ | Some _ => _ end) with (@Ok (nat * matrix) (n_rows A, entries A)).
    2:{ destruct A as [[[m cA] f]|]; cbn; auto. rewrite (HA m cA f eq_refl), Nat.eqb_refl. reflexivity. }
    cbn [bind]. rewrite QK. cbn [bind]. destruct ks as [|k0 ks']; [|rewrite LI; cbn [negb]]; destruct (Nat.eqb (n_rows A) 0);
      match goal with |- context[splu ?N ?M] => destruct (splu N M) as [s|e] eqn:ES end; cbn [bind];
      first [left; eexists; split; [reflexivity|]; repeat split; reflexivity | right; do 3 eexists; split; [exact ES|reflexivity]]. }
  unfold min_quad_with_fixed. destruct PRE as [(P & QP & EN & EM & EKS)|(N & M & e & QE & QP)]; rewrite QP; cbn [bind]; [left|right; eauto].
  unfold mqf_solve. rewrite <- Hp, EN, EM, EKS, LK.
  rewrite (check_ok n p c true Hc) by auto. rewrite (check_ok (n_rows A) p b _ Hb) by auto. rewrite (check_ok _ p y _ Hy) by auto. cbn [bind].
  eexists; split; reflexivity.
Qed.
Theorem C43_fixed_dof_accepts : forall splu garbage n A k p (b y : arg), (0 < n)%nat -> k_ok n k ->
  p = Nat.max (cp b) (cp y) -> arg_ok n p b -> arg_ok (length (fixed_list k)) p y ->
  ok_or_solver_error splu (fixed_dof_solve splu garbage n n A k b y) (fun r => fst r = p).
Proof.
  intros splu garbage n A k p b y Hn HK Hp Hb Hy.
  destruct (check_k_ok n k HK) as (ks & QK & LK). destruct (check_k_inv _ _ _ QK) as (_ & NK & RK & _).
  assert (LI : Nat.eqb (length (setdiff n ks)) (n - length ks) = true) by (apply Nat.eqb_eq, setdiff_len; auto).
  assert (E0 : Nat.eqb n 0 = false) by (apply Nat.eqb_neq; lia).
  assert (PRE : ok_or_solver_error splu (fixed_dof_solve_precompute splu n n A k) (fun P => f_n P = n /\ f_k P = ks)).
  { unfold fixed_dof_solve_precompute. rewrite Nat.eqb_refl. cbn [negb]. rewrite E0, QK. cbn [bind]. destruct ks as [|k0 ks']; [|rewrite LI; cbn [negb]];
      match goal with |- context[splu ?N ?M] => destruct (splu N M) as [s|e] eqn:ES end; cbn [bind];
      first [left; eexists; split; [reflexivity|]; repeat split; reflexivity | right; do 3 eexists; split; [exact ES|reflexivity]]. }
  unfold fixed_dof_solve. destruct PRE as [(P & QP & EN & EKS)|(N & M & e & QE & QP)]; rewrite QP; cbn [bind]; [left|right; eauto].
  unfold fds_solve. rewrite <- Hp, EN, EKS, LK.
  rewrite (check_ok n p b true Hb) by auto. rewrite (check_ok _ p y _ Hy) by auto. cbn [bind]. eexists; split; reflexivity.
Qed.

(** hypotheses met: a solver for 1x1 systems, Q = identity of size 2 with the first entry fixed *)
Definition tiny : solver_t := fun N M => if Nat.eqb N 1 then if Req_EM_T (M 0%nat 0%nat) 0 then Err ZeroDivisionError else Ok (fun rhs _ => rhs 0%nat / M 0%nat 0%nat) else Err ValueError.
Lemma tiny_ok : solver_ok tiny.
Proof.
  intros N M f H rhs i Hi. unfold tiny in H. destruct (Nat.eqb_spec N 1); [|discriminate]. subst. destruct (Req_EM_T (M 0%nat 0%nat) 0); [discriminate|]. injection H as <-.
  replace i with 0%nat by lia. unfold sumn; cbn. field; auto.
Qed.
Definition id2 : matrix := fun i j => if Nat.eqb i j then 1 else 0.
Example C43_example : exists P p u, min_quad_with_fixed_precompute tiny 2 2 id2 None (Some [0%Z]) = Ok P
  /\ mqf_solve (fun _ _ => 7) P (AScalar (-5)) ANone (AVec [3]) = Ok (p, u) /\ u 0%nat 0%nat = 3 /\ u 1%nat 0%nat = 5 /\ psd 2 id2.
Proof.
  assert (SY : symmetrize 2 id2 1%nat 1%nat = 1).
  { unfold symmetrize. destruct (is_symmetric _ _); unfold id2; cbn; lra. }
  assert (SY0 : symmetrize 2 id2 1%nat 0%nat = 0).
  { unfold symmetrize. destruct (is_symmetric _ _); unfold id2; cbn; lra. }
  unfold min_quad_with_fixed_precompute. change (check_k 2 (Some [0%Z])) with (@Ok (list nat) [0%nat]). cbn [Nat.eqb negb bind].
  change (setdiff 2 [0%nat]) with [1%nat]. cbn [length Nat.eqb Nat.sub negb].
  assert (TS : tiny 1%nat (sub_mat (symmetrize 2 id2) [1%nat] [1%nat]) = Ok (fun rhs _ => rhs 0%nat / 1)).
  { unfold tiny, sub_mat. cbn [Nat.eqb nth]. rewrite SY. destruct (Req_EM_T 1 0); [lra|reflexivity]. }
  rewrite TS. cbn [bind].
  do 3 eexists. split; [reflexivity|]. split; [reflexivity|]. split; [|split].
  - reflexivity.
  - unfold assign, sub_mat, sumn. cbn -[symmetrize]. rewrite SY0. field.
  - intros d. unfold sumn, id2; cbn. pose proof (Rle_0_sqr (d 0%nat)). pose proof (Rle_0_sqr (d 1%nat)). unfold Rsqr in *. lra.
Qed.
Print Assumptions C43_min_quad.
Print Assumptions C43_fixed_dof.
Print Assumptions C43_min_quad_accepts.
Print Assumptions C43_fixed_dof_accepts.
