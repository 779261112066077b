(** C70 gaussian_process.  Code: GpModel.v. *)
From Coq Require Import Reals Lra Psatz ZArith List Bool Lia.
From Verif Require Import PyExn Vec LoopsModel LoopsProofs MatModel MatProofs Subdiv3Proofs ElastModel ElastProofs BiharmProofs Biharm2Proofs MatFunModel P_MatFun SolveModel P_Solve SqExpModel SqExpProofs P_SqExp SqExp2Proofs GpModel GpProofs.
Import ListNotations.
Open Scope R_scope.

(** ** specification *)
(** an observable: the value (index -1) or the i-th partial derivative (index i) of the unknown function at a point *)
Definition observable := (Z * list R)%type.
Definition kk (h : Z -> Z -> list R -> list R -> R) (o p : observable) : R := h (fst o) (fst p) (snd o) (snd p).
Definition observables (grads : bool) (dim : nat) (X : list (list R)) : list observable :=
  map (pair (-1)%Z) X ++ (if grads then flat_map (fun i => map (pair (Z.of_nat i)) X) (seq 0 dim) else []).
(** the data, in the same order: values, then derivatives coordinate by coordinate *)
Definition targets (dim : nat) (y : list R) (G : option (list (list R))) : list R :=
  y ++ match G with None => [] | Some G => flat_map (fun i => map (fun r => nth i r 0) G) (seq 0 dim) end.
(** the matrix of a kernel on two lists *)
Definition gram {A} (k : A -> A -> R) (d : A) (L M : list A) : nat -> nat -> R := fun a b => k (nth a L d) (nth b M d).
Definition o0 : observable := (0%Z, []).
(** covariance kernels: symmetric, no negative quadratic form on any of the points of L *)
Definition covariance_on {A} (k : A -> A -> R) (L : list A) : Prop :=
  (forall a b, In a L -> In b L -> k a b = k b a) /\
  forall d (c : nat -> R), 0 <= sumn (length L) (fun a => c a * sumn (length L) (fun b => gram k d L L a b * c b)).
Definition definite_on {A} (k : A -> A -> R) (L : list A) : Prop :=
  forall d (c : nat -> R), sumn (length L) (fun a => c a * sumn (length L) (fun b => gram k d L L a b * c b)) = 0 -> forall a, (a < length L)%nat -> c a = 0.
(** the callback is vectorised: entry by entry it is h *)
Definition vectorised (h : Z -> Z -> list R -> list R -> R) (k : kern) : Prop := forall i j, rowwise (h i j) (k i j).
(** what scipy provides: splu factors every symmetric positive definite matrix and its solve solves; cg solves symmetric positive definite systems (exactly) *)
Definition spd (n : nat) (M : matrix) : Prop :=
  (forall i j, (i < n)%nat -> (j < n)%nat -> M i j = M j i) /\
  forall x, 0 <= sumn n (fun i => x i * sumn n (fun j => M i j * x j)) /\ (sumn n (fun i => x i * sumn n (fun j => M i j * x j)) = 0 -> forall i, (i < n)%nat -> x i = 0).
Definition splu_total (splu : solver_t) : Prop := forall n M, (0 < n)%nat -> spd n M -> exists f, splu n M = Ok f.
Definition cg_ok (cg : cg_t) : Prop := forall n M b, spd n M -> forall i, (i < n)%nat -> sumn n (fun j => M i j * cg n M b j) = b i.
(** x solves (K + s^2 I) x = b *)
Definition noisy_solution (n : nat) (K : nat -> nat -> R) (s : R) (b x : nat -> R) : Prop :=
  forall a, (a < n)%nat -> sumn n (fun c => K a c * x c) + s ^ 2 * x a = b a.
(** the Gaussian posterior of the observables P given observations [y] of the observables O with noise s:
    mean = K2^T (K + s^2 I)^-1 y, covariance = K1 - K2^T (K + s^2 I)^-1 K2 *)
Definition posterior {A} (k : A -> A -> R) (d : A) (s : R) (O : list A) (y : list R) (P : list A) (mean : nat -> R) (cov : nat -> nat -> R) : Prop :=
  let n := length O in let K := gram k d O O in let K2 := gram k d O P in
  (exists alpha, noisy_solution n K s (fun a => nth a y 0) alpha) /\
  (forall alpha, noisy_solution n K s (fun a => nth a y 0) alpha -> forall t, (t < length P)%nat -> mean t = sumn n (fun a => K2 a t * alpha a)) /\
  (exists W : nat -> nat -> R, forall u, (u < length P)%nat -> noisy_solution n K s (fun a => K2 a u) (fun a => W a u)) /\
  (forall W : nat -> nat -> R, (forall u, (u < length P)%nat -> noisy_solution n K s (fun a => K2 a u) (fun a => W a u)) ->
     forall t u, (t < length P)%nat -> (u < length P)%nat -> cov t u = gram k d P P t u - sumn n (fun a => K2 a t * W a u)).

(** ** proofs *)
Lemma observables_length g dim X : length (observables g dim X) = ((if g then dim + 1 else 1) * length X)%nat.
Proof.
  unfold observables. rewrite app_length, map_length. destruct g; cbn [length]; [|lia].
  assert (forall l, length (flat_map (fun i => map (pair (Z.of_nat i)) X) l) = (length l * length X)%nat) as ->. { induction l as [|i l IH]; [reflexivity|]. cbn. rewrite app_length, map_length, IH. reflexivity. }
  rewrite seq_length. lia.
Qed.
Lemma nth_flat_blocks {A B} (f : nat -> A -> B) (X : list A) d e : forall l i a, (i < length l)%nat -> (a < length X)%nat ->
  nth (i * length X + a) (flat_map (fun i => map (f i) X) l) d = f (nth i l 0%nat) (nth a X e).
Proof.
  induction l as [|j l IH]; intros i a Hi Ha; [cbn in Hi; lia|]. cbn [flat_map]. destruct i as [|i].
  - rewrite app_nth1 by (rewrite map_length; lia). cbn. rewrite (nth_indep _ d (f j e)) by (rewrite map_length; lia). apply map_nth.
  - rewrite app_nth2 by (rewrite map_length; cbn; lia). rewrite map_length. replace (S i * length X + a - length X)%nat with (i * length X + a)%nat by (cbn; lia). rewrite IH by (cbn in *; lia). reflexivity.
Qed.
Lemma observables_flat g dim X : observables g dim X = flat_map (fun i => map (pair (Z.of_nat i - 1)%Z) X) (seq 0 (if g then dim + 1 else 1)).
Proof.
  unfold observables. destruct g.
  - rewrite Nat.add_1_r. cbn [seq flat_map]. f_equal. rewrite <- seq_shift. generalize (seq 0 dim). induction l as [|i l IH]; [reflexivity|]. cbn [flat_map map]. rewrite IH. f_equal. f_equal. f_equal. lia.
  - cbn. reflexivity.
Qed.
Lemma observables_nth (g : bool) (dim : nat) X (i a : nat) : (i < (if g then dim + 1 else 1))%nat -> (a < length X)%nat ->
  nth (i * length X + a) (observables g dim X) o0 = ((Z.of_nat i - 1)%Z, nth a X []).
Proof.
  intros Hi Ha. rewrite observables_flat. rewrite (nth_flat_blocks (fun i => @pair Z (list R) (Z.of_nat i - 1)%Z) X o0 []) by (rewrite ?seq_length; auto). rewrite seq_nth by exact Hi. reflexivity.
Qed.
(** the covariance matrix without compact support *)
Lemma hstackL_ok (r c : nat) : forall ms, ms <> [] -> (forall M, In M ms -> nr M = r /\ nc M = c) -> exists H, hstackL ms = Ok H /\ nr H = r /\ nc H = (length ms * c)%nat /\
  forall i j b, (j < length ms)%nat -> (b < c)%nat -> at_ H i (j * c + b) = at_ (nth j ms (zeros 0 0)) i b.
Proof.
  induction ms as [|M ms IH]; intros NE HM; [contradiction|]. destruct (HM M (or_introl eq_refl)) as [R C]. destruct ms as [|N ms].
  - exists M. cbn. split; [reflexivity|]. split; [exact R|]. split; [lia|]. intros i [|j] b Hj Hb; [reflexivity|lia].
  - destruct IH as (H & E & HR & HC & HA); [discriminate|intros; apply HM; right; auto|].
    change (hstackL (M :: N :: ms)) with (do b <- hstackL (N :: ms); hstack2 M b). rewrite E. cbn [bind]. unfold hstack2. rewrite R, HR, Nat.eqb_refl. eexists. split; [reflexivity|]. cbn [nr nc at_]. split; [reflexivity|]. split; [cbn [length]; rewrite C, HC; cbn [length]; lia|].
    intros i [|j] b Hj Hb.
    + cbn [Nat.mul Nat.add nth]. rewrite C. destruct (Nat.ltb_spec b c); [reflexivity|lia].
    + rewrite C. destruct (Nat.ltb_spec (S j * c + b) c); [cbn in *; nia|]. replace (S j * c + b - c)%nat with (j * c + b)%nat by (cbn; lia). rewrite HA by (cbn in *; lia). reflexivity.
Qed.
Lemma vstackL_ok (r c : nat) : forall ms, ms <> [] -> (forall M, In M ms -> nr M = r /\ nc M = c) -> exists H, vstackL ms = Ok H /\ nc H = c /\ nr H = (length ms * r)%nat /\
  forall i j b, (j < length ms)%nat -> (b < r)%nat -> at_ H (j * r + b) i = at_ (nth j ms (zeros 0 0)) b i.
Proof.
  induction ms as [|M ms IH]; intros NE HM; [contradiction|]. destruct (HM M (or_introl eq_refl)) as [R C]. destruct ms as [|N ms].
  - exists M. cbn. split; [reflexivity|]. split; [exact C|]. split; [lia|]. intros i [|j] b Hj Hb; [reflexivity|lia].
  - destruct IH as (H & E & HC & HR & HA); [discriminate|intros; apply HM; right; auto|].
    change (vstackL (M :: N :: ms)) with (do b <- vstackL (N :: ms); vstack2 M b). rewrite E. cbn [bind]. unfold vstack2. rewrite C, HC, Nat.eqb_refl. eexists. split; [reflexivity|]. cbn [nr nc at_]. split; [reflexivity|]. split; [cbn [length]; rewrite R, HR; cbn [length]; lia|].
    intros i [|j] b Hj Hb.
    + cbn [Nat.mul Nat.add nth]. rewrite R. destruct (Nat.ltb_spec b r); [reflexivity|lia].
    + rewrite R. destruct (Nat.ltb_spec (S j * r + b) r); [cbn in *; nia|]. replace (S j * r + b - r)%nat with (j * r + b)%nat by (cbn; lia). rewrite HA by (cbn in *; lia). reflexivity.
Qed.
Lemma mapE_exists {A B} (f : A -> res B) (P : A -> B -> Prop) : forall l, (forall a, In a l -> exists b, f a = Ok b /\ P a b) -> exists bs, mapE f l = Ok bs /\ Forall2 P l bs.
Proof.
  induction l as [|a l IH]; intro H; [eexists; split; [reflexivity|constructor]|]. cbn. destruct (H a (or_introl eq_refl)) as (b & -> & Pb). destruct IH as (bs & -> & Pbs); [intros; apply H; right; auto|]. eexists. split; [reflexivity|]. constructor; auto.
Qed.
Lemma F2_nth {A B} (P : A -> B -> Prop) l m d e : Forall2 P l m -> length l = length m /\ forall i, (i < length l)%nat -> P (nth i l d) (nth i m e).
Proof. induction 1; cbn; [split; [reflexivity|intros; lia]|]. destruct IHForall2. split; [lia|]. intros [|i] Hi; [auto|apply H2; lia]. Qed.
Lemma mff_ok h (ker : kern) i j X1 X2 : rowwise (h i j) (ker i j) -> exists M, matrix_from_function (ker i j) X1 X2 = Ok M /\
  forall a b, (a < length X1)%nat -> (b < length X2)%nat -> entry M (Z.of_nat a) (Z.of_nat b) = h i j (nth a X1 []) (nth b X2 []).
Proof.
  intro W. destruct (C24_full _ _ _ X1 X2 W) as (M & E & H). exists M. split; [exact E|]. intros a b Ha Hb. apply H; apply nth_error_nth'; auto.
Qed.
Lemma cov_matrix_ok h ker dim X1 X2 g : vectorised h ker -> exists M, cov_matrix ker dim X1 X2 g None = Ok M /\
  nr M = length (observables g dim X1) /\ nc M = length (observables g dim X2) /\
  forall p q, (p < nr M)%nat -> (q < nc M)%nat -> at_ M p q = gram (kk h) o0 (observables g dim X1) (observables g dim X2) p q.
Proof.
  intro V. rewrite !observables_length. set (D := if g then (dim + 1)%nat else 1%nat).
  enough (exists M, cov_matrix ker dim X1 X2 g None = Ok M /\ nr M = (D * length X1)%nat /\ nc M = (D * length X2)%nat /\
    forall i j a b, (i < D)%nat -> (j < D)%nat -> (a < length X1)%nat -> (b < length X2)%nat -> at_ M (i * length X1 + a) (j * length X2 + b) = h (Z.of_nat i - 1)%Z (Z.of_nat j - 1)%Z (nth a X1 []) (nth b X2 [])) as (M & E & R & C & H).
  { exists M. split; [exact E|]. split; [exact R|]. split; [exact C|]. intros p q Hp Hq. rewrite R in Hp. rewrite C in Hq.
    assert (forall p n, (p < D * n)%nat -> exists i a, p = (i * n + a)%nat /\ (i < D)%nat /\ (a < n)%nat) as SP.
    { intros r n Hr. assert (n <> 0)%nat by (intro; subst; lia). exists (r / n)%nat, (r mod n)%nat. rewrite (Nat.mul_comm (r / n) n), <- Nat.div_mod by auto. split; [reflexivity|]. split; [apply Nat.div_lt_upper_bound; lia|apply Nat.mod_upper_bound; auto]. }
    destruct (SP _ _ Hp) as (i & a & -> & Hi & Ha). destruct (SP _ _ Hq) as (j & b & -> & Hj & Hb). rewrite H by auto. unfold gram, kk. rewrite !observables_nth by auto. reflexivity. }
  unfold cov_matrix. destruct g; cbn in D.
  - destruct (mapE_exists (fun i => do ms <- mapE (fun j => do M <- matrix_from_function (ker (Z.of_nat i - 1)%Z (Z.of_nat j - 1)%Z) X1 X2; Ok (of_trips (length X1) (length X2) M)) (seq 0 (dim + 1)); hstackL ms)
      (fun i H => nr H = length X1 /\ nc H = (D * length X2)%nat /\ forall j a b, (j < D)%nat -> (a < length X1)%nat -> (b < length X2)%nat -> at_ H a (j * length X2 + b) = h (Z.of_nat i - 1)%Z (Z.of_nat j - 1)%Z (nth a X1 []) (nth b X2 [])) (seq 0 (dim + 1))) as (rows & ER & FR).
    { intros i _. destruct (mapE_exists (fun j => do M <- matrix_from_function (ker (Z.of_nat i - 1)%Z (Z.of_nat j - 1)%Z) X1 X2; Ok (of_trips (length X1) (length X2) M))
        (fun j M => nr M = length X1 /\ nc M = length X2 /\ forall a b, (a < length X1)%nat -> (b < length X2)%nat -> at_ M a b = h (Z.of_nat i - 1)%Z (Z.of_nat j - 1)%Z (nth a X1 []) (nth b X2 [])) (seq 0 (dim + 1))) as (ms & EM & FM).
      { intros j _. destruct (mff_ok h ker (Z.of_nat i - 1) (Z.of_nat j - 1) X1 X2 (V _ _)) as (M & -> & HM). cbn [bind]. eexists. split; [reflexivity|]. cbn. auto. }
      rewrite EM. cbn [bind]. destruct (F2_nth _ _ _ 0%nat (zeros 0 0) FM) as [LM HM]. rewrite seq_length in *.
      destruct (hstackL_ok (length X1) (length X2) ms) as (H & EH & HR & HC & HA).
      - intros ->. cbn in LM. lia.
      - intros M IM. destruct (In_nth _ _ (zeros 0 0) IM) as (j & Hj & <-). destruct (HM j ltac:(lia)) as (A & B & _). auto.
      - exists H. split; [exact EH|]. split; [exact HR|]. split; [rewrite HC, <- LM; reflexivity|]. intros j a b Hj Ha Hb. rewrite HA by (auto; lia). destruct (HM j Hj) as (_ & _ & Q). rewrite Q by auto. rewrite seq_nth by exact Hj. reflexivity. }
    rewrite ER. cbn [bind]. destruct (F2_nth _ _ _ 0%nat (zeros 0 0) FR) as [LR HR]. rewrite seq_length in *.
    destruct (vstackL_ok (length X1) (D * length X2) rows) as (M & EM & MC & MR & MA).
    + intros ->. cbn in LR. lia.
    + intros M IM. destruct (In_nth _ _ (zeros 0 0) IM) as (j & Hj & <-). destruct (HR j ltac:(lia)) as (A & B & _). auto.
    + exists M. split; [exact EM|]. split; [rewrite MR, <- LR; reflexivity|]. split; [exact MC|]. intros i j a b Hi Hj Ha Hb. rewrite MA by (auto; lia). destruct (HR i Hi) as (_ & _ & Q). rewrite Q by auto. rewrite seq_nth by exact Hi. reflexivity.
  - destruct (mff_ok h ker (-1) (-1) X1 X2 (V _ _)) as (M & -> & HM). cbn [bind]. eexists. split; [reflexivity|]. unfold D. cbn [nr nc of_trips at_]. split; [lia|]. split; [lia|]. intros i j a b Hi Hj Ha Hb. assert (i = 0)%nat as -> by lia. assert (j = 0)%nat as -> by lia. apply HM; auto.
Qed.

(** K + s^2 I is positive definite *)
Lemma noisy_app n K s x a : (a < n)%nat -> app n (fun i j => K i j + (if Nat.eqb i j then s ^ 2 else 0)) x a = sumn n (fun c => K a c * x c) + s ^ 2 * x a.
Proof.
  intro Ha. unfold app. rewrite (sumn_ext n _ (fun j => K a j * x j + x j * (if Nat.eqb j a then s ^ 2 else 0))) by (intros; rewrite (Nat.eqb_sym a i); destruct (Nat.eqb i a); ring).
  rewrite sumn_plus, (pick n x a (s ^ 2) Ha). ring.
Qed.
Lemma sumn_sq_zero n x : 0 <= sumn n (fun i => x i * x i) /\ (sumn n (fun i => x i * x i) = 0 -> forall i, (i < n)%nat -> x i = 0).
Proof.
  induction n as [|n [IH1 IH2]]; [split; [unfold sumn; cbn; lra|intros; lia]|]. rewrite sumn_S. assert (0 <= x n * x n) as P by (pose proof (Rle_0_sqr (x n)) as Q; exact Q). split; [lra|]. intros Z i Hi. destruct (Nat.eq_dec i n) as [ -> | ]; [|apply IH2; [lra|lia]]. assert (x n * x n = 0) as Q by lra. destruct (Rmult_integral _ _ Q); auto.
Qed.
Definition noisy (s : R) (K : nat -> nat -> R) : matrix := fun i j => K i j + (if Nat.eqb i j then s ^ 2 else 0).
Lemma form_noisy n K s x : form n (noisy s K) x = form n K x + s ^ 2 * sumn n (fun i => x i * x i).
Proof.
  unfold form, dotn. rewrite <- sumn_scal, <- sumn_plus. apply sumn_ext. intros i Hi. unfold noisy. rewrite noisy_app by exact Hi. unfold app. ring.
Qed.
Lemma covariance_sub {A} (k : A -> A -> R) L M : covariance_on k (L ++ M) -> covariance_on k L.
Proof.
  intros [S F]. split; [intros; apply S; apply in_or_app; auto|]. intros d c.
  specialize (F d (fun a => if Nat.ltb a (length L) then c a else 0)). rewrite app_length, !sumn_app in F.
  rewrite (sumn_ext (length M) _ (fun _ => 0)) in F. 2:{ intros i Hi. destruct (Nat.ltb_spec (length L + i) (length L)); [lia|ring]. }
  replace (sumn (length M) (fun _ => 0)) with 0 in F by (symmetry; apply sumf_zero; auto). rewrite Rplus_0_r in F. erewrite sumn_ext; [exact F|]. intros a Ha. cbn beta. destruct (Nat.ltb_spec a (length L)); [|lia]. f_equal. rewrite sumn_app. rewrite (sumn_ext (length M) _ (fun _ => 0)).
  2:{ intros i Hi. destruct (Nat.ltb_spec (length L + i) (length L)); [lia|ring]. }
  replace (sumn (length M) (fun _ => 0)) with 0 by (symmetry; apply sumf_zero; auto). rewrite Rplus_0_r. apply sumn_ext. intros b Hb. destruct (Nat.ltb_spec b (length L)); [|lia]. unfold gram. rewrite !app_nth1 by auto. reflexivity.
Qed.
Lemma noisy_spd {A} (k : A -> A -> R) d s L : covariance_on k L -> s <> 0 \/ definite_on k L -> spd (length L) (noisy s (gram k d L L)).
Proof.
  intros [S F] SD. split.
  - intros i j Hi Hj. unfold noisy, gram. rewrite (S (nth i L d) (nth j L d)) by (apply nth_In; auto). rewrite Nat.eqb_sym. reflexivity.
  - intro x. change (sumn (length L) (fun i => x i * sumn (length L) (fun j => noisy s (gram k d L L) i j * x j))) with (form (length L) (noisy s (gram k d L L)) x). rewrite form_noisy.
    specialize (F d x). change (0 <= form (length L) (gram k d L L) x) in F. destruct (sumn_sq_zero (length L) x) as [Q1 Q2]. pose proof (pow2_ge_0 s) as P2. assert (0 <= s ^ 2 * sumn (length L) (fun i => x i * x i)) by (apply Rmult_le_pos; auto). split; [lra|].
    intro Z. destruct SD as [NZ|DF].
    + apply Q2. assert (0 < s ^ 2) by (pose proof (Rsqr_pos_lt s NZ) as Q3; unfold Rsqr in Q3; cbn; lra). assert (s ^ 2 * sumn (length L) (fun i => x i * x i) = 0) as ZZ by lra. destruct (Rmult_integral _ _ ZZ); [lra|auto].
    + apply (DF d x). change (form (length L) (gram k d L L) x = 0). lra.
Qed.
Lemma spd_unique n K s b x y : spd n (noisy s K) -> noisy_solution n K s b x -> noisy_solution n K s b y -> forall i, (i < n)%nat -> x i = y i.
Proof.
  intros [_ P] X Y. apply (pd_inj n (noisy s K)). { exact P. }
  intros i Hi. unfold noisy. rewrite !noisy_app by exact Hi. rewrite X, Y by exact Hi. reflexivity.
Qed.
(** a solution and solve functions give the posterior *)
Lemma posterior_intro {A} (k : A -> A -> R) d s O y P mean cov alpha W : spd (length O) (noisy s (gram k d O O)) ->
  noisy_solution (length O) (gram k d O O) s (fun a => nth a y 0) alpha ->
  (forall u, (u < length P)%nat -> noisy_solution (length O) (gram k d O O) s (fun a => gram k d O P a u) (fun a => W a u)) ->
  (forall t, (t < length P)%nat -> mean t = sumn (length O) (fun a => gram k d O P a t * alpha a)) ->
  (forall t u, (t < length P)%nat -> (u < length P)%nat -> cov t u = gram k d P P t u - sumn (length O) (fun a => gram k d O P a t * W a u)) ->
  posterior k d s O y P mean cov.
Proof.
  intros SP SA SW HM HC. unfold posterior. split; [exists alpha; exact SA|]. split; [|split; [exists W; exact SW|]].
  - intros alpha' S' t Ht. rewrite HM by exact Ht. apply sumn_ext. intros a Ha. f_equal. eapply spd_unique; eauto.
  - intros W' S' t u Ht Hu. rewrite HC by auto. f_equal. apply sumn_ext. intros a Ha. f_equal. apply (spd_unique _ _ _ _ (fun a => W a u) (fun a => W' a u) SP (SW u Hu) (S' u Hu) a Ha).
Qed.
(** consequences of the formula *)
Lemma posterior_cov {A} (k : A -> A -> R) d s O y P mean cov : covariance_on k (O ++ P) -> posterior k d s O y P mean cov ->
  (forall t u, (t < length P)%nat -> (u < length P)%nat -> cov t u = cov u t) /\
  (forall c : nat -> R, 0 <= sumn (length P) (fun t => c t * sumn (length P) (fun u => cov t u * c u))) /\
  (forall t, (t < length P)%nat -> 0 <= cov t t <= k (nth t P d) (nth t P d)).
Proof.
  intros CV (_ & _ & (W & SW) & HC). specialize (HC W SW). set (n := length O) in *. set (m := length P) in *. set (K := gram k d O O) in *. set (K2 := gram k d O P) in *.
  pose proof (covariance_sub k O P CV) as CO. destruct CV as [S F]. assert (symm n K) as SK. { intros i j Hi Hj. apply S; apply in_or_app; left; apply nth_In; auto. }
  assert (forall w, 0 <= form n K w) as FK by (intro w; apply (proj2 CO d w)).
  assert (forall i u, (i < n)%nat -> (u < m)%nat -> app n K (fun a => W a u) i = K2 i u - s ^ 2 * W i u) as SWA. { intros i u Hi Hu. pose proof (SW u Hu i Hi) as Q. unfold app. lra. }
  assert (forall t u, (t < m)%nat -> (u < m)%nat -> sumn n (fun a => K2 a t * W a u) = dotn n (fun a => W a u) (app n K (fun a => W a t)) + s ^ 2 * sumn n (fun a => W a t * W a u)) as KW.
  { intros t u Ht Hu. unfold dotn. rewrite <- sumn_scal, <- sumn_plus. apply sumn_ext. intros a Ha. rewrite SWA by auto. ring. }
  assert (forall c : nat -> R, 0 <= sumn m (fun t => c t * sumn m (fun u => cov t u * c u))) as PSD.
  { intro c. set (w := fun a => sumn m (fun u => W a u * c u)). set (v := fun a => sumn m (fun u => K2 a u * c u)).
    assert (sumn m (fun t => c t * sumn m (fun u => cov t u * c u)) = form m (gram k d P P) c - dotn n v w) as E.
    { unfold form, dotn. replace (sumn n (fun i => v i * w i)) with (sumn m (fun t => c t * sumn m (fun u => sumn n (fun a => K2 a t * W a u) * c u))).
      - unfold Rminus. rewrite <- (Rmult_1_l (sumn m (fun t => c t * sumn m (fun u => sumn n _ * _)))), Ropp_mult_distr_l, <- sumn_scal, <- sumn_plus. apply sumn_ext. intros t Ht. unfold app. rewrite (sumn_ext m (fun u => cov t u * c u) (fun u => gram k d P P t u * c u + (-1) * (sumn n (fun a => K2 a t * W a u) * c u))) by (intros u Hu; rewrite HC by auto; ring). rewrite sumn_plus, sumn_scal. ring.
      - transitivity (sumn m (fun t => sumn n (fun a => K2 a t * c t * w a))).
        + apply sumn_ext. intros t Ht. rewrite <- sumn_scal. transitivity (sumn m (fun u => sumn n (fun a => c t * (K2 a t * W a u * c u)))). { apply sumn_ext. intros u Hu. rewrite sumn_scal, <- sumn_scal_r. reflexivity. }
          rewrite sumn_swap. apply sumn_ext. intros a Ha. unfold w. rewrite <- sumn_scal. apply sumn_ext. intros; ring.
        + rewrite sumn_swap. apply sumn_ext. intros a Ha. unfold v. rewrite <- sumn_scal_r. apply sumn_ext. intros; ring. }
    assert (forall i, (i < n)%nat -> app n K w i = v i - s ^ 2 * w i) as AW.
    { intros i Hi. unfold app, w. transitivity (sumn m (fun u => app n K (fun a => W a u) i * c u)).
      - rewrite (sumn_ext n _ (fun j => sumn m (fun u => K i j * W j u * c u))) by (intros; rewrite <- sumn_scal; apply sumn_ext; intros; ring). rewrite sumn_swap. apply sumn_ext. intros u Hu. unfold app. rewrite <- sumn_scal_r. reflexivity.
      - rewrite (sumn_ext m _ (fun u => K2 i u * c u + (- s ^ 2) * (W i u * c u))) by (intros u Hu; rewrite SWA by auto; ring). rewrite sumn_plus, sumn_scal. unfold v. ring. }
    specialize (F d (fun a => if Nat.ltb a n then - w a else c (a - n)%nat)). rewrite app_length in F. fold n m in F.
    assert (form (n + m) (gram k d (O ++ P) (O ++ P)) (fun a => if Nat.ltb a n then - w a else c (a - n)%nat) = form n K w - 2 * dotn n v w + form m (gram k d P P) c) as FE.
    { unfold form, dotn. rewrite sumn_app.
      assert (forall a, app (n + m) (gram k d (O ++ P) (O ++ P)) (fun a => if Nat.ltb a n then - w a else c (a - n)%nat) a = - sumn n (fun b => k (nth a (O ++ P) d) (nth b O d) * w b) + sumn m (fun u => k (nth a (O ++ P) d) (nth u P d) * c u)) as AE.
      { intro a. unfold app. rewrite sumn_app. f_equal.
        - rewrite <- (Rmult_1_l (sumn n (fun b => _ * w b))), Ropp_mult_distr_l, <- sumn_scal. apply sumn_ext. intros b Hb. destruct (Nat.ltb_spec b n); [|lia]. unfold gram. rewrite (app_nth1 O P d (n := b)) by exact Hb. ring.
        - apply sumn_ext. intros u Hu. destruct (Nat.ltb_spec (n + u) n); [lia|]. unfold gram. rewrite (app_nth2 O P d (n := n + u)) by (unfold n; lia). fold n. replace (n + u - n)%nat with u by lia. reflexivity. }
      rewrite (sumn_ext n _ (fun a => w a * app n K w a + (-1) * (v a * w a))).
      2:{ intros a Ha. destruct (Nat.ltb_spec a n); [|lia]. rewrite AE. rewrite (app_nth1 O P d) by exact Ha. change (sumn n (fun b => k (nth a O d) (nth b O d) * w b)) with (app n K w a). change (sumn m (fun u => k (nth a O d) (nth u P d) * c u)) with (v a). ring. }
      rewrite (sumn_ext m _ (fun t => c t * app m (gram k d P P) c t + (-1) * (c t * sumn n (fun b => K2 b t * w b)))).
      2:{ intros t Ht. destruct (Nat.ltb_spec (n + t) n); [lia|]. rewrite AE. rewrite (app_nth2 O P d) by (unfold n; lia). fold n. replace (n + t - n)%nat with t by lia. change (sumn m (fun u => k (nth t P d) (nth u P d) * c u)) with (app m (gram k d P P) c t).
          rewrite (sumn_ext n (fun b => k (nth t P d) (nth b O d) * w b) (fun b => K2 b t * w b)) by (intros b Hb; unfold K2, gram; rewrite (S (nth t P d) (nth b O d)) by (apply in_or_app; first [left; apply nth_In; exact Hb | right; apply nth_In; exact Ht]); reflexivity). ring. }
      rewrite !sumn_plus, !sumn_scal.
      assert (sumn m (fun t => c t * sumn n (fun b => K2 b t * w b)) = sumn n (fun a => v a * w a)) as ->.
      { transitivity (sumn m (fun t => sumn n (fun b => c t * (K2 b t * w b)))); [apply sumn_ext; intros; rewrite sumn_scal; reflexivity|]. rewrite sumn_swap. apply sumn_ext. intros a Ha. unfold v. rewrite <- sumn_scal_r. apply sumn_ext. intros; ring. }
      ring. }
    change (0 <= form (n + m) (gram k d (O ++ P) (O ++ P)) (fun a => if Nat.ltb a n then - w a else c (a - n)%nat)) in F. rewrite FE in F.
    assert (form n K w = dotn n v w - s ^ 2 * sumn n (fun i => w i * w i)) as FW. { unfold form, dotn. unfold Rminus. rewrite Ropp_mult_distr_l, <- sumn_scal, <- sumn_plus. apply sumn_ext. intros i Hi. rewrite AW by exact Hi. ring. }
    pose proof (pow2_ge_0 s). destruct (sumn_sq_zero n w) as [Q _]. assert (0 <= s ^ 2 * sumn n (fun i => w i * w i)) by (apply Rmult_le_pos; auto). rewrite E. lra. }
  split; [|split; [exact PSD|]].
  - intros t u Ht Hu. rewrite !HC, !KW by auto. unfold gram at 1 2. rewrite (S (nth t P d) (nth u P d)) by (apply in_or_app; right; apply nth_In; auto). rewrite (app_symm n K (fun a => W a u) (fun a => W a t) SK). f_equal. f_equal. f_equal. apply sumn_ext. intros; ring.
  - intros t Ht. split.
    + specialize (PSD (fun u => if Nat.eqb u t then 1 else 0)). erewrite sumn_ext in PSD.
      2:{ intros i Hi. rewrite (pick m (cov i) t 1 Ht), Rmult_1_r, Rmult_comm. reflexivity. } rewrite (pick m (fun i => cov i t) t 1 Ht) in PSD. lra.
    + rewrite HC by auto. unfold gram at 1. rewrite KW by auto. specialize (FK (fun a => W a t)). unfold form in FK. destruct (sumn_sq_zero n (fun a => W a t)) as [Q _]. pose proof (pow2_ge_0 s). assert (0 <= s ^ 2 * sumn n (fun a => W a t * W a t)) by (apply Rmult_le_pos; auto). lra.
Qed.

(** the data fit: one value per point and, if given, one gradient row per point *)
Definition data_ok (X : list (list R)) (y : list R) (G : option (list (list R))) : Prop :=
  X <> [] /\ length y = length X /\ match G with Some g => length g = length X | None => True end.
Definition with_grads (G : option (list (list R))) : bool := match G with Some _ => true | None => false end.
Lemma targets_length dim X y G : data_ok X y G -> length (targets dim y G) = length (observables (with_grads G) dim X).
Proof.
  intros (_ & Ly & LG). rewrite observables_length. unfold targets. rewrite app_length, Ly. destruct G as [g|]; cbn [with_grads length]; [|lia].
  assert (forall l, length (flat_map (fun i => map (fun r => nth i r 0) g) l) = (length l * length X)%nat) as ->. { induction l as [|i l IH]; [reflexivity|]. cbn. rewrite app_length, map_length, IH, LG. reflexivity. }
  rewrite seq_length. lia.
Qed.
Lemma spd_ext n M N : (forall i j, (i < n)%nat -> (j < n)%nat -> M i j = N i j) -> spd n M -> spd n N.
Proof.
  intros E [S P]. split; [intros; rewrite <- !E by auto; auto|]. intro x. rewrite <- (sumn_ext n (fun i => x i * sumn n (fun j => M i j * x j))); [apply P|]. intros i Hi. f_equal. apply sumn_ext. intros j Hj. rewrite E by auto. reflexivity.
Qed.
Lemma noisy_of_solve n (M K : nat -> nat -> R) s b x : (forall i j, (i < n)%nat -> (j < n)%nat -> M i j = noisy s K i j) ->
  (forall i, (i < n)%nat -> sumn n (fun j => M i j * x j) = b i) -> noisy_solution n K s b x.
Proof. intros E H a Ha. rewrite <- (H a Ha), <- noisy_app by exact Ha. apply sumn_ext. intros j Hj. rewrite E by auto. reflexivity. Qed.

(** what cov_matrix must return: the kernel matrix of the observables *)
Definition cov_spec (h : Z -> Z -> list R -> list R -> R) (g : bool) (dim : nat) (X1 X2 : list (list R)) (r : res mat) : Prop :=
  exists M, r = Ok M /\ nr M = length (observables g dim X1) /\ nc M = length (observables g dim X2) /\
  forall p q, (p < nr M)%nat -> (q < nc M)%nat -> at_ M p q = gram (kk h) o0 (observables g dim X1) (observables g dim X2) p q.
Lemma plain_ok : forall splu cg h k dim X y T G sigma (compact : bool),
  solver_ok splu -> splu_total splu -> cg_ok cg -> vectorised h k -> data_ok X y G ->
  let O := observables (with_grads G) dim X in let P := observables (with_grads G) dim T in
  let sup := if compact then Some (find_support k dim) else None in
  cov_spec h (with_grads G) dim X X (cov_matrix k dim X X (with_grads G) sup) -> cov_spec h (with_grads G) dim X T (cov_matrix k dim X T (with_grads G) sup) ->
  covariance_on (kk h) (O ++ P) -> sigma <> 0 \/ definite_on (kk h) O ->
  exists mean cov, gaussian_process splu cg X dim y T (Some k) None G false compact sigma = Ok (length P, mean, cov) /\
    nr cov = length P /\ nc cov = length P /\
    posterior (kk h) o0 sigma O (targets dim y G) P mean (at_ cov) /\
    (forall t u, (t < length P)%nat -> (u < length P)%nat -> at_ cov t u = at_ cov u t) /\
    (forall c : nat -> R, 0 <= sumn (length P) (fun t => c t * sumn (length P) (fun u => at_ cov t u * c u))) /\
    (forall t, (t < length P)%nat -> 0 <= at_ cov t t <= kk h (nth t P o0) (nth t P o0)).
Proof.
  intros splu cg h k dim X y T G sigma compact SO ST CG V D O P sup SP3 SP2 CV SD.
  assert (exists mean cov, gaussian_process splu cg X dim y T (Some k) None G false compact sigma = Ok (length P, mean, cov) /\
    nr cov = length P /\ nc cov = length P /\ posterior (kk h) o0 sigma O (targets dim y G) P mean (at_ cov)) as (mean & cov & E & R & C & PO).
  2:{ exists mean, cov. split; [exact E|]. split; [exact R|]. split; [exact C|]. split; [exact PO|]. exact (posterior_cov _ _ _ _ _ _ _ _ CV PO). }
  pose proof (targets_length dim X y G D) as LT. fold O in LT. destruct D as (NX & Ly & LG).
  assert (0 < length O)%nat as PO. { unfold O. rewrite observables_length. destruct X; [contradiction|]. destruct (with_grads G); cbn [length]; lia. }
  pose proof (noisy_spd (kk h) o0 sigma O (covariance_sub _ _ _ CV) SD) as SP.
  unfold gaussian_process, gp_train. rewrite Ly, Nat.eqb_refl. cbn [negb].
  change (match G with Some _ => true | None => false end) with (with_grads G).
  replace (match G with Some G0 => y ++ flattenF dim G0 | None => y end) with (targets dim y G) by (unfold targets, flattenF; destruct G; [reflexivity|apply app_nil_r]).
  fold sup. destruct SP3 as (K3 & E3 & R3 & C3 & A3). fold O in R3, C3, A3. rewrite E3. cbn [bind].
  assert (forall i j, (i < length O)%nat -> (j < length O)%nat -> add_noise K3 sigma i j = noisy sigma (gram (kk h) o0 O O) i j) as AN.
  { intros i j Hi Hj. unfold add_noise, noisy. rewrite A3 by (rewrite ?R3, ?C3; auto). reflexivity. }
  assert (spd (length O) (add_noise K3 sigma)) as SPA by (eapply spd_ext; [|exact SP]; intros; symmetry; auto).
  rewrite R3. destruct (ST _ _ PO SPA) as (LU & ELU). rewrite ELU. cbn [bind]. rewrite LT, Nat.eqb_refl. cbn [negb bind].
  unfold gp_predict. cbn [g_state g_ker g_dim g_X g_grads g_support].
  destruct SP2 as (K2 & E2 & R2 & C2 & A2). fold O P in R2, C2, A2. rewrite E2. cbn [bind].
  destruct (cov_matrix_ok h k dim T T (with_grads G) V) as (K1 & E1 & R1 & C1 & A1). fold P in R1, C1, A1. rewrite E1. cbn [bind].
  rewrite C2. eexists _, _. split; [reflexivity|]. cbn [nr nc at_]. split; [exact R1|]. split; [exact C1|].
  eapply (posterior_intro (kk h) o0 sigma O (targets dim y G) P _ _ _ (fun a u => LU (fun k => at_ K2 k u) a) SP).
  - eapply noisy_of_solve; [exact AN|]. exact (CG _ _ _ SPA).
  - intros u Hu. eapply noisy_of_solve; [exact AN|]. intros i Hi. rewrite (SO _ _ _ ELU _ _ Hi). apply A2; [rewrite R2|rewrite C2]; auto.
  - intros t Ht. unfold mvec. cbn [transpose nc at_]. rewrite R2. apply sumn_ext. intros a Ha. rewrite A2 by (rewrite ?R2, ?C2; auto). reflexivity.
  - intros t u Ht Hu. rewrite A1 by (rewrite ?R1, ?C1; auto). f_equal. rewrite R2. apply sumn_ext. intros a Ha. rewrite A2 by (rewrite ?R2, ?C2; auto). reflexivity.
Qed.
Theorem C70_posterior : forall splu cg h k dim X y T G sigma,
  solver_ok splu -> splu_total splu -> cg_ok cg -> vectorised h k -> data_ok X y G ->
  let O := observables (with_grads G) dim X in let P := observables (with_grads G) dim T in
  covariance_on (kk h) (O ++ P) -> sigma <> 0 \/ definite_on (kk h) O ->
  exists mean cov, gaussian_process splu cg X dim y T (Some k) None G false false sigma = Ok (length P, mean, cov) /\
    nr cov = length P /\ nc cov = length P /\
    posterior (kk h) o0 sigma O (targets dim y G) P mean (at_ cov) /\
    (forall t u, (t < length P)%nat -> (u < length P)%nat -> at_ cov t u = at_ cov u t) /\
    (forall c : nat -> R, 0 <= sumn (length P) (fun t => c t * sumn (length P) (fun u => at_ cov t u * c u))) /\
    (forall t, (t < length P)%nat -> 0 <= at_ cov t t <= kk h (nth t P o0) (nth t P o0)).
Proof.
  intros splu cg h k dim X y T G sigma SO ST CG V D O P CV SD. apply plain_ok; auto; apply (cov_matrix_ok h k dim); auto.
Qed.
Print Assumptions C70_posterior.
(** at a training observable the mean is the datum minus sigma^2 times its weight: without noise, the data are interpolated and the variance there is 0 *)
Theorem C70_interpolates : forall {A} (k : A -> A -> R) d sigma O y P mean cov i t,
  (forall a b, In a O -> In b O -> k a b = k b a) -> posterior k d sigma O y P mean cov -> (i < length O)%nat -> (t < length P)%nat -> nth t P d = nth i O d ->
  (exists alpha, noisy_solution (length O) (gram k d O O) sigma (fun a => nth a y 0) alpha /\ mean t = nth i y 0 - sigma ^ 2 * alpha i) /\
  (sigma = 0 -> mean t = nth i y 0 /\ cov t t = 0).
Proof.
  intros A k d sigma O y P mean cov i t S ((al & SA) & HM & (W & SW) & HC) Hi Ht E.
  assert (forall x, sumn (length O) (fun a => gram k d O P a t * x a) = sumn (length O) (fun a => gram k d O O i a * x a)) as KI.
  { intro x. apply sumn_ext. intros a Ha. unfold gram. rewrite E, S by (apply nth_In; auto). reflexivity. }
  assert (mean t = nth i y 0 - sigma ^ 2 * al i) as M. { rewrite (HM al SA t Ht), KI. pose proof (SA i Hi) as Q. cbn beta in Q. lra. }
  split; [exists al; auto|]. intros ->. split; [rewrite M; lra|]. rewrite (HC W SW t t Ht Ht), KI. pose proof (SW t Ht i Hi) as Q. cbn beta in Q. unfold gram in *. rewrite E in Q |- *. lra.
Qed.
Print Assumptions C70_interpolates.

(** ** the default kernel *)
Definition rows_of (dim : nat) (X : list (list R)) : Prop := forall x, In x X -> length x = dim.
Lemma obs_in g dim X o : In o (observables g dim X) -> In (snd o) X /\ (-1 <= fst o < Z.of_nat dim)%Z.
Proof.
  unfold observables. rewrite in_app_iff. intros [I|I].
  - apply in_map_iff in I as (x & <- & I). cbn. split; [exact I|lia].
  - destruct g; [|destruct I]. apply in_flat_map in I as (i & Hi & I). apply in_seq in Hi. apply in_map_iff in I as (x & <- & I). cbn. split; [exact I|lia].
Qed.
Lemma default_vectorised : vectorised (sek (2/10) 1) default_kernel.
Proof. intros i j A B _. reflexivity. Qed.
Lemma sek_covariance dim (L : list observable) len scale : len <> 0 -> 0 < scale -> (forall o, In o L -> length (snd o) = dim /\ (-1 <= fst o < Z.of_nat dim)%Z) -> covariance_on (kk (sek len scale)) L.
Proof.
  intros Hl Hs H. split.
  - intros a b Ia Ib. destruct (H a Ia) as [La Ra], (H b Ib) as [Lb Rb]. unfold kk. apply sek_sym; auto; [congruence|rewrite La; exact Ra|rewrite La; exact Rb].
  - intros d c. apply (sek_obs_psd len scale dim (length L) (fun a => nth a L d) c Hl Hs). intros a Ha. apply H, nth_In, Ha.
Qed.
Lemma default_covariance g dim X T : rows_of dim X -> rows_of dim T -> covariance_on (kk (sek (2/10) 1)) (observables g dim X ++ observables g dim T).
Proof.
  intros HX HT. apply (sek_covariance dim); [lra|lra|]. intros o I. apply in_app_iff in I as [I|I]; apply obs_in in I as [I R]; auto.
Qed.
Lemma default_definite dim X : rows_of dim X -> NoDup X -> definite_on (kk (sek (2/10) 1)) (observables false dim X).
Proof.
  intros HX ND d c. unfold observables. rewrite app_nil_r, map_length. intros Z. eapply (kform_definite (length X) dim (fun a => nth a X []) (2/10) 1); [|lra|lra| |].
  - intros a Ha. apply HX, nth_In, Ha.
  - intros a b Ha Hb E. eapply (proj1 (NoDup_nth X []) ND); eauto.
  - etransitivity; [|exact Z]. unfold kform. apply sumn_ext. intros a Ha. f_equal. apply sumn_ext. intros b Hb. f_equal. unfold gram.
    assert (forall e, (e < length X)%nat -> nth e (map (pair (-1)%Z) X) d = ((-1)%Z, nth e X [])) as N. { intros e He. rewrite (nth_indep _ d ((-1)%Z, [])) by (rewrite map_length; auto). apply (map_nth (pair (-1)%Z)). }
    rewrite !N by auto. unfold kk. cbn [fst snd]. assert (length (nth a X []) = length (nth b X [])) by (rewrite !HX by (apply nth_In; auto); reflexivity). rewrite sek_vv by (auto; lra). apply sek_gauss; auto; lra.
Qed.
(** without kernel argument: the squared exponential kernel of length 0.2 and scale 1, with or without gradient data *)
Theorem C70_default : forall splu cg dim X y T G sigma compact,
  solver_ok splu -> splu_total splu -> cg_ok cg -> data_ok X y G -> rows_of dim X -> rows_of dim T -> sigma <> 0 \/ (G = None /\ NoDup X) ->
  let O := observables (with_grads G) dim X in let P := observables (with_grads G) dim T in
  exists mean cov, gaussian_process splu cg X dim y T None None G false compact sigma = Ok (length P, mean, cov) /\
    posterior (kk (sek (2/10) 1)) o0 sigma O (targets dim y G) P mean (at_ cov) /\
    (forall t u, (t < length P)%nat -> (u < length P)%nat -> at_ cov t u = at_ cov u t) /\
    (forall c : nat -> R, 0 <= sumn (length P) (fun t => c t * sumn (length P) (fun u => at_ cov t u * c u))).
Proof.
  intros splu cg dim X y T G sigma compact SO ST CG D HX HT SD O P.
  change (gaussian_process splu cg X dim y T None None G false compact sigma) with (gaussian_process splu cg X dim y T (Some default_kernel) None G false false sigma).
  destruct (C70_posterior splu cg (sek (2/10) 1) default_kernel dim X y T G sigma SO ST CG default_vectorised D) as (mean & cov & E & _ & _ & PO & S & PS & _).
  - apply default_covariance; auto.
  - destruct SD as [SD|[ -> ND]]; [left; exact SD|right; apply default_definite; auto].
  - exists mean, cov. auto.
Qed.
Print Assumptions C70_default.
(** the mean is one function of the test point, and with gradient data the further outputs are its partial derivatives *)
Lemma derivable_pt_lim_sumn n (f : nat -> R -> R) (l : nat -> R) x : (forall a, (a < n)%nat -> derivable_pt_lim (f a) x (l a)) -> derivable_pt_lim (fun s => sumn n (fun a => f a s)) x (sumn n l).
Proof.
  induction n as [|n IH]; intro H.
  - unfold sumn. cbn. apply (derivable_pt_lim_const 0).
  - rewrite sumn_S. eapply deriv_ext; [intro s; apply sumn_S|]. apply (derivable_pt_lim_plus (fun s => sumn n (fun a => f a s)) (f n)); auto.
Qed.
Lemma sek_deriv2 len scale x y j i : len <> 0 -> length x = length y -> (-1 <= j < Z.of_nat (length x))%Z -> (i < length x)%nat ->
  derivable_pt_lim (fun s => sek len scale j (-1) x (with_coord y i s)) (nth i y 0) (sek len scale j (Z.of_nat i) x y).
Proof.
  intros Hl H Hj Hi. pose proof (gauss_d2 len scale x y i (nth i y 0) Hl H Hi) as D. rewrite set_same in D by lia.
  destruct (Z.eq_dec j (-1)) as [ -> | Nj ].
  - rewrite sek_vd by auto. replace (/ len ^ 2 * (nth i x 0 - nth i y 0)) with ((nth i x 0 - nth i y 0) / len ^ 2) by (unfold Rdiv; ring). eapply deriv_ext; [|exact D]. intro s. apply sek_vv; auto. rewrite set_nth_length. exact H.
  - replace j with (Z.of_nat (Z.to_nat j)) by lia. set (q := Z.to_nat j). assert (q < length x)%nat as Hq by lia. rewrite sek_dd by auto.
    eapply deriv_ext. { intro s. rewrite sek_dv by (rewrite ?set_nth_length; auto). reflexivity. } cbv beta.
    assert (derivable_pt_lim (fun s => - (/ len ^ 2 * (nth q x 0 - nth q (with_coord y i s) 0))) (nth i y 0) (if Nat.eqb q i then / len ^ 2 else 0)) as D1.
    { destruct (Nat.eqb_spec q i) as [ -> | N ].
      - eapply deriv_ext; [intro s; rewrite nth_set by lia; rewrite Nat.eqb_refl; reflexivity|]. apply (deriv_ext _ (fun s => (/ len ^ 2) * id s + - (/ len ^ 2 * nth i x 0))); [intro s; unfold id; ring|].
        pose proof (derivable_pt_lim_plus (fun s => / len ^ 2 * id s) (fun _ => - (/ len ^ 2 * nth i x 0)) (nth i y 0) _ _ (derivable_pt_lim_scal id (/ len ^ 2) _ _ (derivable_pt_lim_id (nth i y 0))) (derivable_pt_lim_const _ _)) as Q. rewrite Rmult_1_r, Rplus_0_r in Q. exact Q.
      - eapply deriv_ext; [intro s; rewrite nth_set by lia; destruct (Nat.eqb_spec q i); [contradiction|reflexivity]|]. apply (derivable_pt_lim_const (- (/ len ^ 2 * (nth q x 0 - nth q y 0)))). }
    pose proof (derivable_pt_lim_mult _ _ _ _ _ D1 D) as M. cbv beta in M. unfold mult_fct in M. rewrite set_same in M by lia.
    match type of M with derivable_pt_lim _ _ ?l => replace l with (((if Nat.eqb q i then / len ^ 2 else 0) - / len ^ 2 * (nth q x 0 - nth q y 0) * (/ len ^ 2 * (nth i x 0 - nth i y 0))) * gauss len scale x y) in M by (field; exact Hl) end. exact M.
Qed.
Theorem C70_mean_function : forall splu cg dim X y G sigma,
  solver_ok splu -> splu_total splu -> cg_ok cg -> data_ok X y G -> rows_of dim X -> sigma <> 0 \/ (G = None /\ NoDup X) ->
  exists mu : list R -> R, forall T, rows_of dim T ->
  exists n mean cov, gaussian_process splu cg X dim y T None None G false false sigma = Ok (n, mean, cov) /\
    n = ((if with_grads G then dim + 1 else 1) * length T)%nat /\
    forall t, (t < length T)%nat -> mean t = mu (nth t T []) /\
      (with_grads G = true -> forall i, (i < dim)%nat -> derivable_pt_lim (fun s => mu (with_coord (nth t T []) i s)) (nth i (nth t T []) 0) (mean ((i + 1) * length T + t)%nat)).
Proof.
  intros splu cg dim X y G sigma SO ST CG D HX SD. set (g := with_grads G). set (O := observables g dim X).
  destruct (C70_default splu cg dim X y [] G sigma false SO ST CG D HX ltac:(intros ? []) SD) as (m0 & c0 & _ & PO0 & _). destruct PO0 as ((al & SA) & _).
  exists (fun z => sumn (length O) (fun a => kk (sek (2/10) 1) (nth a O o0) ((-1)%Z, z) * al a)). intros T HT.
  destruct (C70_default splu cg dim X y T G sigma false SO ST CG D HX HT SD) as (mean & cov & E & PO & _). exists (length (observables g dim T)), mean, cov. split; [exact E|]. split; [apply observables_length|].
  destruct PO as (_ & HM & _). specialize (HM al SA). fold g O in HM.
  assert (forall i t, (i < (if g then dim + 1 else 1))%nat -> (t < length T)%nat -> mean (i * length T + t)%nat = sumn (length O) (fun a => kk (sek (2/10) 1) (nth a O o0) ((Z.of_nat i - 1)%Z, nth t T []) * al a)) as ME.
  { intros i t Hi Ht. rewrite HM.
    - apply sumn_ext. intros a Ha. unfold gram. rewrite (observables_nth g dim T i t Hi Ht). reflexivity.
    - rewrite observables_length. destruct g; nia. }
  intros t Ht. split.
  - apply (ME 0%nat t); [destruct g; lia|exact Ht].
  - intros Eg i Hi. rewrite ME by (rewrite ?Eg; lia). rewrite Nat2Z.inj_add. replace (Z.of_nat i + Z.of_nat 1 - 1)%Z with (Z.of_nat i) by lia.
    apply (derivable_pt_lim_sumn (length O) (fun a s => kk (sek (2 / 10) 1) (nth a O o0) ((-1)%Z, with_coord (nth t T []) i s) * al a)). intros a Ha. unfold kk. cbn [fst snd].
    assert (In (nth a O o0) O) as I by (apply nth_In; exact Ha). apply obs_in in I as [I R]. assert (length (snd (nth a O o0)) = dim) as L1 by (apply HX, I). assert (length (nth t T []) = dim) as L2 by (apply HT, nth_In, Ht).
    rewrite (Rmult_comm _ (al a)). eapply deriv_ext; [intro s; apply Rmult_comm|]. apply (derivable_pt_lim_scal (fun s => sek (2 / 10) 1 (fst (nth a O o0)) (-1) (snd (nth a O o0)) (with_coord (nth t T []) i s))). apply sek_deriv2; [lra|congruence|rewrite L1; exact R|lia].
Qed.
Print Assumptions C70_mean_function.
(** inducing points equal to the training points change nothing *)
Theorem C70_induced_same : forall splu cg h k dim X y T G sigma,
  solver_ok splu -> splu_total splu -> cg_ok cg -> vectorised h k -> data_ok X y G -> 0 < sigma ->
  let O := observables (with_grads G) dim X in let P := observables (with_grads G) dim T in
  covariance_on (kk h) O -> definite_on (kk h) O ->
  exists mean cov, gaussian_process splu cg X dim y T (Some k) (Some X) G false false sigma = Ok (length P, mean, cov) /\
    nr cov = length P /\ nc cov = length P /\ posterior (kk h) o0 sigma O (targets dim y G) P mean (at_ cov).
Proof.
  intros splu cg h k dim X y T G sigma SO ST CG V D Hs O P CV DF.
  pose proof (targets_length dim X y G D) as LT. fold O in LT. destruct D as (NX & Ly & LG).
  set (n := length O) in *. set (K := gram (kk h) o0 O O).
  assert (0 < n)%nat as PO. { unfold n, O. rewrite observables_length. destruct X; [contradiction|]. destruct (with_grads G); cbn [length]; lia. }
  assert (sigma <> 0) as NS by lra.
  pose proof (noisy_spd (kk h) o0 sigma O CV (or_introl NS)) as SP. fold n K in SP.
  assert (spd n K) as SK. { pose proof (noisy_spd (kk h) o0 0 O CV (or_intror DF)) as Q. fold n K in Q. eapply spd_ext; [|exact Q]. intros i j _ _. unfold noisy. destruct (Nat.eqb i j); ring. }
  assert (symm n K) as YK by exact (proj1 SK). assert (pd n K) as DK by (exact (proj2 SK)).
  set (ts := targets dim y G) in *.
  unfold gaussian_process, gp_train. rewrite Ly, Nat.eqb_refl. cbn [negb].
  change (match G with Some _ => true | None => false end) with (with_grads G).
  replace (match G with Some G0 => y ++ flattenF dim G0 | None => y end) with ts by (unfold ts, targets, flattenF; destruct G; [reflexivity|apply app_nil_r]).
  destruct (Rle_dec sigma 0) as [|_]; [lra|].
  destruct (cov_matrix_ok h k dim X X (with_grads G) V) as (M & EM & RM & CM & AM). fold O in RM, CM, AM. fold n in RM, CM. fold K in AM. rewrite EM. cbn [bind].
  unfold mul. cbn [transpose nr]. rewrite Nat.eqb_refl. cbn [bind nc at_]. rewrite CM, RM, LT, Nat.eqb_refl. cbn [negb].
  assert (forall i j, (i < n)%nat -> (j < n)%nat -> at_ M i j = K i j) as AMK by (intros; apply AM; rewrite ?RM, ?CM; auto).
  set (SI := fun i j => at_ M i j + 1 / sigma ^ 2 * sumn n (fun k0 => at_ M i k0 * at_ M j k0)).
  assert (forall x i, (i < n)%nat -> app n SI x i = app n K x i + / sigma ^ 2 * app n K (app n K x) i) as SIA.
  { intros x i Hi. unfold app. rewrite (sumn_ext n _ (fun j => K i j * x j + / sigma ^ 2 * sumn n (fun k0 => K i k0 * K k0 j * x j))).
    - rewrite sumn_plus, sumn_scal, sumn_swap. f_equal. f_equal. apply sumn_ext. intros k0 Hk. rewrite <- sumn_scal. apply sumn_ext. intros; ring.
    - intros j Hj. unfold SI. rewrite AMK by auto. rewrite (sumn_ext n _ (fun k0 => K i k0 * K k0 j)) by (intros k0 Hk; rewrite !AMK by auto; rewrite (YK j k0) by auto; reflexivity). rewrite sumn_scal_r. field. exact NS. }
  assert (0 < / sigma ^ 2) as IS by (apply Rinv_0_lt_compat; apply pow_lt; exact Hs).
  assert (spd n SI) as SSI.
  { split.
    - intros i j Hi Hj. unfold SI. rewrite !AMK by auto. rewrite (YK i j) by auto. f_equal. f_equal. apply sumn_ext. intros k0 Hk. ring.
    - intro x. change (0 <= form n SI x /\ (form n SI x = 0 -> forall i, (i < n)%nat -> x i = 0)).
      assert (form n SI x = form n K x + / sigma ^ 2 * sumn n (fun i => app n K x i * app n K x i)) as ->.
      { unfold form. rewrite (dotn_ext n x (app n SI x) x (fun i => app n K x i + / sigma ^ 2 * app n K (app n K x) i)) by (auto; intros; apply SIA; auto).
        transitivity (dotn n x (app n K x) + / sigma ^ 2 * dotn n x (app n K (app n K x))). { unfold dotn. rewrite <- sumn_scal, <- sumn_plus. apply sumn_ext. intros; ring. }
        rewrite (app_symm n K x (app n K x) YK). reflexivity. }
      destruct (DK x) as [D1 D2]. destruct (sumn_sq_zero n (app n K x)) as [Q _]. assert (0 <= / sigma ^ 2 * sumn n (fun i => app n K x i * app n K x i)) by (apply Rmult_le_pos; lra). split; [lra|]. intro Z. apply D2. lra. }
  assert (spd n (at_ M)) as SM by (eapply spd_ext; [|exact SK]; intros; symmetry; auto).
  destruct (ST n SI PO SSI) as (sLU & EsL). change (fun i j : nat => at_ M i j + 1 / sigma ^ 2 * sumn n (fun k0 : nat => at_ M i k0 * at_ (transpose M) k0 j)) with SI. rewrite EsL. cbn [bind]. destruct (ST n (at_ M) PO SM) as (LU & EL). rewrite EL. cbn [bind].
  unfold gp_predict. cbn [g_state g_ker g_dim g_X g_grads g_support].
  destruct (cov_matrix_ok h k dim X T (with_grads G) V) as (K2 & E2 & R2 & C2 & A2). fold O P in R2, C2, A2. fold n in R2. rewrite E2. cbn [bind].
  destruct (cov_matrix_ok h k dim T T (with_grads G) V) as (K1 & E1 & R1 & C1 & A1). fold P in R1, C1, A1. rewrite E1. cbn [bind].
  cbn [nr nc at_ transpose]. rewrite ?RM, ?CM, ?R2, ?C2.
  set (z := cg n SI (mvec M (fun j => nth j ts 0))). set (mu := fun i => 1 / sigma ^ 2 * mvec M z i). set (beta := cg n (at_ M) mu).
  assert (forall x i, (i < n)%nat -> sumn n (fun j => at_ M i j * x j) = app n K x i) as MA by (intros x i Hi; apply sumn_ext; intros; rewrite AMK by auto; reflexivity).
  assert (forall i, (i < n)%nat -> app n SI z i = app n K (fun j => nth j ts 0) i) as Hz. { intros i Hi. unfold z. rewrite <- (MA _ i Hi). transitivity (mvec M (fun j => nth j ts 0) i); [apply (CG n SI _ SSI i Hi)|]. unfold mvec. rewrite CM. reflexivity. }
  assert (forall i, (i < n)%nat -> beta i = / sigma ^ 2 * z i) as Hb.
  { apply (pd_inj n K _ _ DK). intros i Hi. rewrite app_scal, <- (MA _ i Hi). unfold beta. rewrite (CG n (at_ M) mu SM i Hi). unfold mu, mvec. rewrite CM, (MA _ i Hi). field. exact NS. }
  assert (forall i, (i < n)%nat -> z i + / sigma ^ 2 * app n K z i = nth i ts 0) as Hzy.
  { apply (pd_inj n K _ _ DK). intros i Hi. rewrite app_add, app_scal, <- SIA by exact Hi. apply Hz, Hi. }
  set (lu := fun u a => LU (fun k => at_ K2 k u) a).
  set (W := fun u a => sLU (fun k0 => sumn n (fun k1 => at_ M k0 k1 * lu u k1)) a).
  assert (forall u a, (a < n)%nat -> app n K (lu u) a = at_ K2 a u) as Hlu by (intros u a Ha; rewrite <- (MA _ a Ha); apply (SO _ _ _ EL (fun k => at_ K2 k u) a Ha)).
  assert (forall u a, (a < n)%nat -> W u a + / sigma ^ 2 * app n K (W u) a = lu u a) as HW.
  { intro u. apply (pd_inj n K _ _ DK). intros i Hi. rewrite app_add, app_scal, <- SIA by exact Hi. transitivity (sumn n (fun k1 => at_ M i k1 * lu u k1)); [apply (SO _ _ _ EsL (fun k0 => sumn n (fun k1 => at_ M k0 k1 * lu u k1)) i Hi)|apply MA, Hi]. }
  eexists _, _. split; [reflexivity|]. cbn [nr nc at_]. split; [exact R1|]. split; [exact C1|].
  eapply (posterior_intro (kk h) o0 sigma O ts P _ _ beta (fun a u => lu u a - W u a) SP); fold n K.
  - intros a Ha. rewrite (sumn_ext n _ (fun c => K a c * (/ sigma ^ 2 * z c))) by (intros; rewrite Hb by auto; reflexivity). change (sumn n (fun c => K a c * (/ sigma ^ 2 * z c))) with (app n K (fun c => / sigma ^ 2 * z c) a). rewrite app_scal, Hb, <- (Hzy a Ha) by auto. field. exact NS.
  - intros u Hu a Ha. change (sumn n (fun c => K a c * (lu u c - W u c))) with (app n K (fun c => lu u c - W u c) a). rewrite app_sub, (Hlu u a Ha), <- (HW u a Ha). rewrite A2 by (rewrite ?R2, ?C2; auto). field. exact NS.
  - intros t Ht. unfold mvec. cbn [transpose nc at_]. rewrite R2. apply sumn_ext. intros a Ha. rewrite A2 by (rewrite ?R2, ?C2; auto). reflexivity.
  - intros t u Ht Hu. rewrite A1 by (rewrite ?R1, ?C1; auto). unfold Rminus at 1. rewrite Rplus_assoc. unfold Rminus. f_equal.
    fold (lu t) (lu u). transitivity (- sumn n (fun a => at_ K2 a t * lu u a) + sumn n (fun a => at_ K2 a t * W u a)).
    + f_equal. transitivity (dotn n (lu t) (app n K (W u))). { apply sumn_ext. intros a Ha. rewrite (MA _ a Ha). reflexivity. } rewrite (app_symm n K _ _ YK). unfold dotn. apply sumn_ext. intros a Ha. rewrite Hlu by exact Ha. ring.
    + rewrite <- (Rmult_1_l (sumn n (fun a => at_ K2 a t * lu u a))), Ropp_mult_distr_l, <- sumn_scal, <- sumn_plus. rewrite <- (Rmult_1_l (sumn n (fun a => gram _ _ _ _ _ _ * _))), Ropp_mult_distr_l, <- sumn_scal. apply sumn_ext. intros a Ha. rewrite A2 by (rewrite ?R2, ?C2; auto). ring.
Qed.
Print Assumptions C70_induced_same.

(** ** compactly supported kernels *)
Lemma combine_idx {A} (X : list A) : forall s i x, In (i, x) (combine (map Z.of_nat (seq s (length X))) X) <-> exists a, i = Z.of_nat (s + a) /\ nth_error X a = Some x.
Proof.
  induction X as [|y X IH]; intros s i x; cbn [length seq map combine In].
  - split; [intros []|]. intros (a & _ & E). destruct a; discriminate.
  - rewrite IH. split.
    + intros [E|(a & -> & E)]; [injection E as <- <-; exists 0%nat; split; [f_equal; lia|reflexivity]|exists (S a); split; [f_equal; lia|exact E]].
    + intros ([|a] & -> & E); [left; cbn in E; injection E as ->; f_equal; f_equal; lia|right; exists a; split; [f_equal; lia|exact E]].
Qed.
Lemma ball_in X1 X2 r i j : In (i, j) (ball_pattern X1 X2 r) <-> exists a b x y, i = Z.of_nat a /\ j = Z.of_nat b /\ nth_error X1 a = Some x /\ nth_error X2 b = Some y /\ edist x y <= r.
Proof.
  unfold ball_pattern. rewrite in_flat_map. split.
  - intros ([i' x] & I1 & I2). apply in_map_iff in I2 as ([j' y] & E & I2). cbn in E. injection E as <- <-. apply filter_In in I2 as [I2 D]. cbn in D. destruct (Rle_dec (edist x y) r) as [D'|]; [|discriminate].
    apply (combine_idx X1 0) in I1 as (a & -> & E1). apply (combine_idx X2 0) in I2 as (b & -> & E2). exists a, b, x, y. repeat split; auto.
  - intros (a & b & x & y & -> & -> & E1 & E2 & D). exists (Z.of_nat a, x). split; [apply (combine_idx X1 0); exists a; auto|]. apply in_map_iff. exists (Z.of_nat b, y). split; [reflexivity|]. apply filter_In. split; [apply (combine_idx X2 0); exists b; auto|]. cbn. destruct (Rle_dec (edist x y) r); [reflexivity|contradiction].
Qed.
Lemma NoDup_fst_pairs {A} (X : list A) s : NoDup (map fst (combine (map Z.of_nat (seq s (length X))) X)).
Proof.
  revert s. induction X as [|x X IH]; intro s; cbn; constructor; auto. intro I. apply in_map_iff in I as ([i y] & E & I). cbn in E. apply combine_idx in I as (a & -> & _). lia.
Qed.
Lemma NoDup_filter_fst {A} (f : Z * A -> bool) l : NoDup (map fst l) -> NoDup (map fst (filter f l)).
Proof.
  induction l as [|p l IH]; cbn; intro H; [constructor|]. inversion H; subst. destruct (f p); [|auto]. cbn. constructor; auto. intro I. apply in_map_iff in I as (q & E & I). apply filter_In in I as [I _]. apply H2. apply in_map_iff. eauto.
Qed.
Lemma ball_nodup X1 X2 r : NoDup (ball_pattern X1 X2 r).
Proof.
  unfold ball_pattern. pose proof (NoDup_fst_pairs X1 0) as H. unfold lin_idx. revert H. generalize (combine (map Z.of_nat (seq 0 (length X1))) X1). induction l as [|p l IH]; cbn; intro H; [constructor|]. inversion H; subst. apply SubdivProofs.NoDup_app_iff. split; [|split; [apply IH; auto|]].
  - set (l2 := filter _ _). assert (NoDup (map fst l2)) as N by (apply NoDup_filter_fst, (NoDup_fst_pairs X2 0)). clearbody l2. clear - N. induction l2 as [|q l2 IH]; cbn in *; [constructor|]. inversion N; subst. constructor; [|auto]. intro I. apply in_map_iff in I as (q' & E & I). injection E as E. apply H1. apply in_map_iff. eauto.
  - intros [i j] I1 I2. apply in_map_iff in I1 as (q & E & _). injection E as <- <-. apply in_flat_map in I2 as (p' & I & I2). apply in_map_iff in I2 as (q' & E' & _). injection E' as E1 E2. apply H2. apply in_map_iff. exists p'. auto.
Qed.
Lemma cov_matrix_support_ok h ker dim X1 X2 r : vectorised h ker -> (forall x y, In x X1 -> In y X2 -> r < edist x y -> h (-1)%Z (-1)%Z x y = 0) ->
  cov_spec h false dim X1 X2 (cov_matrix ker dim X1 X2 false (Some r)).
Proof.
  intros V HZ. unfold cov_matrix. destruct (C24_pattern _ _ _ X1 X2 (ball_pattern X1 X2 r) (V (-1)%Z (-1)%Z)) as (M & E & M1 & M2).
  - intros [i j] I. apply ball_in in I as (a & b & x & y & -> & -> & E1 & E2 & _). assert (a < length X1)%nat by (apply nth_error_Some; congruence). assert (b < length X2)%nat by (apply nth_error_Some; congruence). cbn. lia.
  - apply ball_nodup.
  - unfold cov_spec. rewrite E. cbn [bind]. eexists. split; [reflexivity|]. cbn [of_trips nr nc at_]. rewrite !observables_length. split; [lia|]. split; [lia|]. intros p q Hp Hq.
    unfold gram. pose proof (observables_nth false dim X1 0 p Nat.lt_0_1 Hp) as O1. pose proof (observables_nth false dim X2 0 q Nat.lt_0_1 Hq) as O2. cbn [Nat.mul Nat.add] in O1, O2 |- *. rewrite O1, O2. unfold kk. cbn [fst snd]. change (Z.of_nat 0 - 1)%Z with (-1)%Z.
    pose proof (nth_error_nth' X1 [] Hp) as E1. pose proof (nth_error_nth' X2 [] Hq) as E2. destruct (Rle_dec (edist (nth p X1 []) (nth q X2 [])) r) as [D|D].
    + apply M1; auto. apply ball_in. exists p, q, (nth p X1 []), (nth q X2 []). auto.
    + rewrite M2. * symmetry. apply HZ; [apply nth_In; auto|apply nth_In; auto|lra].
      * intro I. apply ball_in in I as (a & b & x & y & Ea & Eb & Ex & Ey & DD). apply Nat2Z.inj in Ea, Eb. subst. rewrite E1 in Ex. rewrite E2 in Ey. injection Ex as <-. injection Ey as <-. contradiction.
Qed.
(** the bisection *)
Lemma bisect_spec ker dim : forall n x1 x2, x1 < x2 ->
  let kv := fun t => nth 0 (ker (-1)%Z (-1)%Z [repeat 0 dim] [repeat t dim]) 0 in
  exists j, (j < 2 ^ n)%nat /\ let w := (x2 - x1) / 2 ^ n in
  bisect ker dim n x1 x2 = x1 + INR (S j) * w /\
  (j = 0%nat \/ tenth_micro < kv (x1 + INR j * w)) /\ (bisect ker dim n x1 x2 = x2 \/ kv (bisect ker dim n x1 x2) <= tenth_micro).
Proof.
  intros n. induction n as [|n IH]; intros x1 x2 L kv.
  - exists 0%nat. split; [cbn; lia|]. cbn. split; [field|]. split; [left; reflexivity|left; reflexivity].
  - cbn [bisect]. set (mid := 1 / 2 * (x1 + x2)). change (nth 0 (ker (-1)%Z (-1)%Z [repeat 0 dim] [repeat mid dim]) 0) with (kv mid).
    assert (2 ^ n <> 0) as NZ by (apply pow_nonzero; lra). assert (INR (2 ^ n) = 2 ^ n) as IP by (rewrite pow_INR; reflexivity).
    destruct (Rlt_dec tenth_micro (kv mid)) as [H|H].
    + destruct (IH mid x2 ltac:(unfold mid; lra)) as (j & Hj & E & A & B). exists (2 ^ n + j)%nat. split; [cbn; lia|]. cbv zeta.
      assert (mid + INR j * ((x2 - mid) / 2 ^ n) = x1 + INR (2 ^ n + j) * ((x2 - x1) / 2 ^ S n)) as EQ by (rewrite plus_INR, IP; unfold mid; cbn [pow]; field; exact NZ).
      split; [|split; [|exact B]].
      * rewrite E. rewrite (S_INR (2 ^ n + j)), (S_INR j). rewrite !Rmult_plus_distr_r, <- !Rplus_assoc, EQ, !Rmult_1_l. unfold mid. cbn [pow]. field. exact NZ.
      * right. destruct A as [ -> | A].
        -- rewrite <- EQ. change (INR 0) with 0. rewrite Rmult_0_l, Rplus_0_r. exact H.
        -- cbv zeta in A. rewrite EQ in A. exact A.
    + destruct (IH x1 mid ltac:(unfold mid; lra)) as (j & Hj & E & A & B). exists j. split; [cbn; lia|]. cbv zeta.
      assert ((mid - x1) / 2 ^ n = (x2 - x1) / 2 ^ S n) as EQ by (unfold mid; cbn [pow]; field; exact NZ). cbv zeta in E, A. rewrite EQ in E, A. split; [exact E|]. split; [exact A|]. destruct B as [B|B]; [right; rewrite B; lra|right; exact B].
Qed.
(** In one dimension, for a radial nonincreasing kernel that vanishes from distance 1 on and does not take values in (0, 1e-10] at the multiples of 1/1024,
    compact_kernel=True changes nothing.  (Missing: higher dimension, where it is false, see below, and supports beyond 1.) *)
Theorem C70_compact_1d_partial : forall splu cg phi h k X y T sigma,
  solver_ok splu -> splu_total splu -> cg_ok cg -> vectorised h k -> data_ok X y None -> rows_of 1 X -> rows_of 1 T ->
  (forall x y, h (-1)%Z (-1)%Z [x] [y] = phi (Rabs (x - y))) ->
  (forall r s, 0 <= r <= s -> phi s <= phi r) -> (forall r, 0 <= phi r) -> phi 1 = 0 ->
  (forall j, (j <= 1024)%nat -> phi (INR j / 1024) <= tenth_micro -> phi (INR j / 1024) = 0) ->
  let O := observables false 1 X in let P := observables false 1 T in
  covariance_on (kk h) (O ++ P) -> sigma <> 0 \/ definite_on (kk h) O ->
  exists mean cov, gaussian_process splu cg X 1 y T (Some k) None None false true sigma = Ok (length P, mean, cov) /\
    posterior (kk h) o0 sigma O (targets 1 y None) P mean (at_ cov).
Proof.
  intros splu cg phi h k X y T sigma SO ST CG V D HX HT HP MO NN P1 DY O P CV SD.
  assert (forall r, find_support k 1 < r -> phi r = 0) as SUP.
  { intros r Hr. unfold find_support in *. destruct (bisect_spec k 1 10 0 1 ltac:(lra)) as (j & Hj & E & _ & B). cbv zeta in E, B. set (s := bisect k 1 10 0 1) in *. clearbody s.
    assert (s = INR (S j) / 1024) as Es by (rewrite E; field). assert (0 <= s) by (rewrite Es; pose proof (pos_INR (S j)); lra).
    assert (phi s = 0) as Z.
    { destruct B as [B|B]; [rewrite B; exact P1|]. rewrite (V (-1)%Z (-1)%Z) in B by reflexivity. cbn in B. rewrite HP in B. replace (0 - s) with (- s) in B by ring. rewrite Rabs_Ropp, Rabs_right in B by lra. rewrite Es in B |- *. apply DY; [cbn in Hj |- *; lia|exact B]. }
    apply Rle_antisym; [|apply NN]. rewrite <- Z. apply MO. lra. }
  assert (forall x y : list R, length x = 1%nat -> length y = 1%nat -> find_support k 1 < edist x y -> h (-1)%Z (-1)%Z x y = 0) as HZ.
  { intros x z Lx Lz. destruct x as [|a [|? ?]]; try discriminate. destruct z as [|b [|? ?]]; try discriminate. unfold edist. cbn [subl dotl]. intro H. rewrite HP. apply SUP. replace ((a - b) * (a - b) + 0) with (Rsqr (a - b)) in H by (unfold Rsqr; ring). rewrite sqrt_Rsqr_abs in H. exact H. }
  destruct (plain_ok splu cg h k 1 X y T None sigma true SO ST CG V D) as (mean & cov & E & _ & _ & PO & _); auto.
  - apply cov_matrix_support_ok; [exact V|]. intros x z Ix Iz. apply HZ; auto.
  - apply cov_matrix_support_ok; [exact V|]. intros x z Ix Iz. apply HZ; auto.
  - exists mean, cov. auto.
Qed.
Print Assumptions C70_compact_1d_partial.

(** solvers with these contracts exist: elimination *)
Definition elim_splu : solver_t := fun n M => match elim n M with Some f => Ok f | None => Err ValueError end.
Definition elim_cg : cg_t := fun n M b => match elim n M with Some f => f b | None => fun _ => 0 end.
Lemma elim_solver_ok : solver_ok elim_splu.
Proof. intros n M f E b i Hi. unfold elim_splu in E. destruct (elim n M) as [g|] eqn:Eg; [|discriminate]. injection E as <-. exact (elim_ok n M g Eg b i Hi). Qed.
Lemma elim_splu_total : splu_total elim_splu.
Proof. intros n M _ [S P]. unfold elim_splu. destruct (elim_pd n M S P) as (f & ->). eauto. Qed.
Lemma elim_cg_ok : cg_ok elim_cg.
Proof. intros n M b [S P] i Hi. unfold elim_cg. destruct (elim_pd n M S P) as (f & E). rewrite E. exact (elim_ok n M f E b i Hi). Qed.

(** compact_kernel=True in the plane: the support is searched along the diagonal and read off as a coordinate, so it comes out too small by sqrt 2;
    the compactly supported kernel max(0, 1-r)^2 then loses the covariance of points at distance 3/4, and the mean there changes from 1/32 to 0 *)
Definition askey (x y : list R) : R := Rmax 0 (1 - edist x y) ^ 2.
Definition askey_kernel : kern := fun _ _ A B => map (fun p => askey (fst p) (snd p)) (combine A B).
Lemma edist2 a b c e : edist [a; b] [c; e] = sqrt ((a - c) ^ 2 + (b - e) ^ 2).
Proof. unfold edist. cbn [subl dotl]. f_equal. ring. Qed.
Lemma askey_support : 0 < find_support askey_kernel 2 < 3/4.
Proof.
  unfold find_support. destruct (bisect_spec askey_kernel 2 10 0 1 ltac:(lra)) as (j & Hj & E & A & _). cbv zeta in E, A. rewrite E, S_INR. pose proof (pos_INR j).
  replace ((1 - 0) / 2 ^ 10) with (/ 1024) in * by field. rewrite Rplus_0_l in *. split; [lra|].
  destruct A as [ -> | A]; [cbn; lra|]. cbn in A. unfold askey in A. rewrite edist2 in A. set (t := INR j * / 1024) in *. assert (0 <= t) by (unfold t; lra).
  replace ((0 - t) ^ 2 + (0 - t) ^ 2) with (2 * Rsqr t) in A by (unfold Rsqr; ring). rewrite sqrt_mult in A by (try apply Rle_0_sqr; lra). rewrite sqrt_Rsqr in A by assumption.
  destruct (Rlt_dec (sqrt 2 * t) 1) as [L|L].
  - assert (14/10 < sqrt 2) by (rewrite <- (sqrt_Rsqr (14/10)) by lra; apply sqrt_lt_1; unfold Rsqr; lra). pose proof (Rmult_le_compat_r t (14/10) (sqrt 2) ltac:(assumption) ltac:(lra)). assert ((INR j + 1) * / 1024 = t + / 1024) as -> by (unfold t; ring). clearbody t. lra.
  - rewrite Rmax_left in A by lra. unfold tenth_micro in A. assert (0 < 1 / 10 ^ 10) by (apply Rdiv_lt_0_compat; [lra|apply pow_lt; lra]). lra.
Qed.
Lemma one_noisy (K : nat -> nat -> R) s b x : noisy_solution 1 K s b x -> K 0%nat 0%nat = 1 -> s = 1 -> b 0%nat = 1 -> x 0%nat = 1/2.
Proof. intros H HK -> Hb. specialize (H 0%nat ltac:(lia)). unfold sumn in H. cbn in H. rewrite HK, Hb in H. lra. Qed.
Lemma askey_vectorised : vectorised (fun _ _ => askey) askey_kernel.
Proof. intros i j A B _. reflexivity. Qed.
Lemma askey_00 : askey [0; 0] [0; 0] = 1.
Proof. unfold askey. rewrite edist2. replace ((0 - 0) ^ 2 + (0 - 0) ^ 2) with 0 by ring. rewrite sqrt_0, Rmax_right by lra. ring. Qed.
Lemma edist_34 : edist [0; 0] [3/4; 0] = 3/4.
Proof. rewrite edist2. replace ((0 - 3/4) ^ 2 + (0 - 0) ^ 2) with (Rsqr (3/4)) by (unfold Rsqr; field). apply sqrt_Rsqr. lra. Qed.
Lemma askey_34 : askey [0; 0] [3/4; 0] = 1/16.
Proof. unfold askey. rewrite edist_34, Rmax_right by lra. field. Qed.
Lemma askey_43 : askey [3/4; 0] [0; 0] = 1/16.
Proof. rewrite <- askey_34. unfold askey. rewrite !edist2. do 4 f_equal. ring. Qed.
Lemma askey_44 : askey [3/4; 0] [3/4; 0] = 1.
Proof. unfold askey. rewrite edist2. replace ((3/4 - 3/4) ^ 2 + (0 - 0) ^ 2) with 0 by ring. rewrite sqrt_0, Rmax_right by lra. ring. Qed.
Theorem C70_compact_refuted : forall splu cg, solver_ok splu -> splu_total splu -> cg_ok cg ->
  (exists mean cov, gaussian_process splu cg [[0; 0]] 2 [1] [[3/4; 0]] (Some askey_kernel) None None false false 1 = Ok (1%nat, mean, cov) /\ mean 0%nat = 1/32) /\
  (exists mean cov, gaussian_process splu cg [[0; 0]] 2 [1] [[3/4; 0]] (Some askey_kernel) None None false true 1 = Ok (1%nat, mean, cov) /\ mean 0%nat = 0).
Proof.
  intros splu cg SO ST CG.
  assert (data_ok [[0; 0]] [1] None) as D by (split; [discriminate|split; [reflexivity|exact I]]). split.
  - destruct (C70_posterior splu cg (fun _ _ => askey) askey_kernel 2 [[0; 0]] [1] [[3/4; 0]] None 1 SO ST CG askey_vectorised D) as (mean & cov & E & _ & _ & PO & _).
    + cbn [with_grads observables map app seq flat_map]. split.
      * intros a b [ <- |[ <- |[]]] [ <- |[ <- |[]]]; unfold kk; cbn [fst snd]; rewrite ?askey_34, ?askey_43; reflexivity.
      * intros d c. unfold sumn, gram, kk. cbn [length seq sumf nth fst snd]. cbn -[Rplus Rmult Rdiv askey]. rewrite askey_00, askey_34, askey_43, askey_44. nra.
    + left; lra.
    + exists mean, cov. split; [exact E|]. destruct PO as ((al & SA) & HM & _). pose proof (one_noisy _ _ _ _ SA askey_00 eq_refl eq_refl) as A0. rewrite (HM al SA 0%nat ltac:(cbn; lia)). unfold sumn, gram, kk. cbn -[Rplus Rmult Rdiv askey]. rewrite askey_34, A0. lra.
  - pose proof askey_support as [S1 S2].
    assert (cov_spec (fun _ _ => askey) false 2 [[0; 0]] [[0; 0]] (cov_matrix askey_kernel 2 [[0; 0]] [[0; 0]] false (Some (find_support askey_kernel 2)))) as C3.
    { apply cov_matrix_support_ok; [exact askey_vectorised|]. intros x y [ <- |[]] [ <- |[]] H. rewrite edist2 in H. replace ((0 - 0) ^ 2 + (0 - 0) ^ 2) with 0 in H by ring. rewrite sqrt_0 in H. lra. }
    destruct C3 as (K3 & E3 & R3 & N3 & A3). unfold gaussian_process, gp_train. cbn [length Nat.eqb negb]. rewrite E3. cbn [bind].
    assert (at_ K3 0 0 = 1) as K1 by (rewrite A3 by (rewrite ?R3, ?N3; cbn; lia); exact askey_00). cbn in R3. rewrite R3.
    assert (spd 1 (add_noise K3 1)) as SP. { split; [intros [|i] [|j] Hi Hj; try lia; reflexivity|]. intro x. unfold sumn, add_noise. cbn. rewrite K1. split; [nra|]. intros Z [|i] Hi; [|lia]. nra. }
    destruct (ST 1%nat _ ltac:(lia) SP) as (LU & ->). cbn [bind length Nat.eqb negb app]. unfold gp_predict. cbn [g_state g_ker g_dim g_grads g_support g_X].
    assert (ball_pattern [[0; 0]] [[3/4; 0]] (find_support askey_kernel 2) = []) as BP. { unfold ball_pattern. cbn [lin_idx length seq map combine flat_map filter fst snd]. rewrite edist_34. destruct (Rle_dec (3/4) (find_support askey_kernel 2)); [lra|reflexivity]. }
    assert (cov_matrix askey_kernel 2 [[0; 0]] [[3/4; 0]] false (Some (find_support askey_kernel 2)) = Ok (of_trips 1 1 [])) as E2 by (unfold cov_matrix; rewrite BP; reflexivity). rewrite E2. cbn [bind].
    destruct (cov_matrix_ok (fun _ _ => askey) askey_kernel 2 [[3/4; 0]] [[3/4; 0]] false askey_vectorised) as (K1' & E1 & _). rewrite E1. cbn [bind]. eexists _, _. split; [reflexivity|]. unfold mvec, sumn. cbn. ring.
Qed.
Print Assumptions C70_compact_refuted.
(** with gradient data the mean has (dim+1) * num_test entries, not num_test as documented *)
Theorem C70_shape_refuted : forall splu cg, solver_ok splu -> splu_total splu -> cg_ok cg ->
  exists X dim y T G mean cov n, gaussian_process splu cg X dim y T None None (Some G) false false 1 = Ok (n, mean, cov) /\ n <> length T.
Proof.
  intros splu cg SO ST CG. destruct (C70_mean_function splu cg 1 [[0]] [1] (Some [[2]]) 1 SO ST CG) as (mu & H).
  - split; [discriminate|]. split; reflexivity.
  - intros x [ <- |[]]. reflexivity.
  - left. lra.
  - destruct (H [[3]]) as (n & mean & cov & E & En & _); [intros x [ <- |[]]; reflexivity|]. exists [[0]], 1%nat, [1], [[3]], [[2]], mean, cov, n. split; [exact E|]. rewrite En. cbn. lia.
Qed.
Print Assumptions C70_shape_refuted.
Example C70_nonvacuous : solver_ok elim_splu /\ splu_total elim_splu /\ cg_ok elim_cg /\ data_ok [[0; 1]; [2; 3]] [4; 5] (Some [[1; 0]; [0; 1]]) /\ rows_of 2 [[0; 1]; [2; 3]] /\
  covariance_on (kk (sek (2/10) 1)) (observables false 2 [[0; 1]; [2; 3]]) /\ definite_on (kk (sek (2/10) 1)) (observables false 2 [[0; 1]; [2; 3]]).
Proof.
  assert (rows_of 2 [[0; 1]; [2; 3]]) as R2 by (intros x [ <- |[ <- |[]]]; reflexivity).
  split; [exact elim_solver_ok|]. split; [exact elim_splu_total|]. split; [exact elim_cg_ok|]. split; [split; [discriminate|split; reflexivity]|]. split; [exact R2|].
  split; [apply (covariance_sub _ _ (observables false 2 [])); apply default_covariance; [exact R2|intros x []]|]. apply default_definite; [exact R2|].
  constructor; [intros [E|[]]; injection E; lra|]. constructor; [intros []|constructor].
Qed.
(** a kernel as in C70_compact_1d_partial: max(0, 1 - 2r)^2 *)
Example C70_nonvacuous_compact : let phi := fun r => Rmax 0 (1 - 2 * r) ^ 2 in
  (forall r s, 0 <= r <= s -> phi s <= phi r) /\ (forall r, 0 <= phi r) /\ phi 1 = 0 /\ (forall j, (j <= 1024)%nat -> phi (INR j / 1024) <= tenth_micro -> phi (INR j / 1024) = 0) /\ phi 0 = 1.
Proof.
  intro phi. unfold phi. split; [|split; [|split; [|split]]].
  - intros r s H. apply pow_incr. split; [apply Rmax_l|]. apply Rle_max_compat_l. lra.
  - intro r. apply pow2_ge_0.
  - rewrite Rmax_left by lra. ring.
  - intros j Hj H. destruct (le_lt_dec 512 j) as [L|L].
    + rewrite Rmax_left; [ring|]. assert (INR 512 <= INR j) as Q by (apply le_INR; exact L). replace (INR 512) with 512 in Q by (rewrite INR_IZR_INZ; reflexivity). lra.
    + exfalso. assert (INR j + 1 <= 512) as Q. { rewrite <- S_INR. replace 512 with (INR 512) by (rewrite INR_IZR_INZ; reflexivity). apply le_INR. lia. }
      pose proof (Rmax_r 0 (1 - 2 * (INR j / 1024))) as M. assert (/ 512 <= Rmax 0 (1 - 2 * (INR j / 1024))) as M2 by lra. assert ((/ 512) ^ 2 <= Rmax 0 (1 - 2 * (INR j / 1024)) ^ 2) as M3 by (apply pow_incr; lra). unfold tenth_micro in H. cbn in *. lra.
  - rewrite Rmax_right by lra. ring.
Qed.
