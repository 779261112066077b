(** C78: stochastic_poisson_surface_reconstruction *)
From Coq Require Import Reals Lra Lia ZArith List Bool Psatz Permutation.
From Verif Require Import NumpyModel NumpyProofs PyExn Vec MatModel MatProofs SubdivModel MatFunModel P_MatFun GridMeshModel GridMeshProofs GridNbModel GridNbProofs FdModel FdProofs P_Fd
  KernelModel KernelSpec KernelProofs P_Kernel EigModel SolveModel P_Solve P_ElDyn LoopSubProofs BiharmProofs Biharm2Proofs Subdiv3Proofs CutProofs PsrModel PsrSpec PsrNbProofs PsrProofs Psr2Proofs Psr3Proofs Psr4Proofs Psr5Proofs.
Import ListNotations.
Open Scope R_scope.

(** -- specification -- *)
(** two or three dimensions, positive spacings, at least eight nodes per axis, at least one sample, every sample half a step inside the lower faces
    and not beyond the last nodes; s is one and a half times the smallest spacing *)
Definition setting (gs : list Z) (h corner : list R) (P : list (list R)) (s : R) : Prop :=
  (length gs = 2%nat \/ length gs = 3%nat) /\ length h = length gs /\ length corner = length gs /\ Forall (fun e => 0 < e) h /\ Forall (fun g => (8 <= g)%Z) gs
  /\ P <> [] /\ (forall p, In p P -> well_inside gs h corner p) /\ exists hm, is_least hm h /\ s = 3 / 2 * hm.
(** the contract of scipy's bicg with atol=1e-10: exit code 0 means a small residual *)
Definition norm_n (n : nat) (x : nat -> R) : R := sqrt (sumn n (fun i => x i * x i)).
Definition bicg_ok (bicg : nat -> matrix -> (nat -> R) -> (nat -> R) * Z) : Prop :=
  forall n A b x, bicg n A b = (x, 0%Z) -> norm_n n (fun i => sumn n (fun j => A i j * x j) - b i) <= Rmax (1 / 10 ^ 5 * norm_n n b) (1 / 10 ^ 10).
(** a prior on rows, or none *)
Definition prior_or_zero (phi : option (list R -> list R)) : list R -> list R := match phi with Some f => f | None => fun _ => [] end.

(** -- lemmas -- *)
Lemma next_on d : forall gs idx, on_grid (fewer d gs) idx -> (d < length gs)%nat -> on_grid gs idx /\ on_grid gs (next d idx).
Proof.
  induction d as [|d IH]; intros [|g gs] idx H L; cbn in L; try lia; cbn [fewer] in H; inversion H as [|? i ? r Hi Hr]; subst; cbn [next].
  - split; constructor; auto; lia.
  - destruct (IH gs r Hr ltac:(lia)). split; constructor; auto.
Qed.
Lemma diff_ext gs h u u' d idx : (forall i, on_grid gs i -> u i = u' i) -> on_grid (fewer d gs) idx -> (d < length gs)%nat -> diff d h u idx = diff d h u' idx.
Proof. intros H Gi L. destruct (next_on d gs idx Gi L) as [A B]. unfold diff. rewrite !H by auto. auto. Qed.
Lemma poisson_ext e gs h u u' w w' : (forall i, on_grid gs i -> u i = u' i) -> (forall i, on_grid gs i -> w i = w' i) -> poisson e gs h u w = poisson e gs h u' w'.
Proof.
  intros H H'. unfold poisson. f_equal.
  - apply edge_sum_ext. intros d idx L Gi. rewrite (diff_ext gs h u u'), (diff_ext gs h w w') by auto. auto.
  - f_equal. apply grid_sum_ext. intros. rewrite H, H' by auto. auto.
Qed.
Definition flat (gs : list Z) (w : list Z -> R) : nat -> R := fun j => w (unravelF gs (Z.of_nat j)).
Lemma fl_flat gs w idx : Forall (fun g => (0 < g)%Z) gs -> on_grid gs idx -> fl gs (flat gs w) idx = w idx.
Proof.
  intros Gp Gi. unfold fl, flat. pose proof (ravel_bound gs idx Gi) as B. rewrite Z2Nat.id by lia. destruct (unravelF_ok gs (ravelF gs idx) Gp B) as [Gi' E]. f_equal. apply (ravel_inj gs); auto.
Qed.
Lemma setting_facts gs h corner P s : setting gs h corner P s -> dims gs /\ length h = length gs /\ length corner = length gs /\ Forall (fun e => 0 < e) h /\ Forall (fun g => (8 <= g)%Z) gs
  /\ P <> [] /\ (forall p, In p P -> well_inside gs h corner p) /\ 0 < s /\ 3 / 2 * lmin h = s /\ Forall (fun g => (0 < g)%Z) gs.
Proof.
  intros (D & Lh & Lc & Ph & G8 & NE & Ins & hm & Le & ->). repeat (split; [assumption|]). rewrite (least_unique hm h Le). assert (0 < hm) by (rewrite Forall_forall in Ph; apply Ph, Le).
  split; [lra|]. split; auto. eapply Forall_impl; [|exact G8]. cbn. lia.
Qed.
Section CORE.
  Variables (blur : list Z -> list R -> list R) (P Nrm : list (list R)) (gs : list Z) (h corner : list R) (s sn : R) (phi : option (list R -> list R)).
  Hypothesis ST : setting gs h corner P s.
  Definition blk_mean dens (b : block) d := forall idx, on_grid (fewer d gs) idx -> snd (fst b) (Z.to_nat (ravelF (fewer d gs) idx)) = gp_mean s sn dens P Nrm (prior_or_zero phi) d (node (half_step d corner h) h idx).
  Definition blk_cov dens (b : block) d := forall x y, on_grid (fewer d gs) x -> on_grid (fewer d gs) y ->
    snd b (Z.to_nat (ravelF (fewer d gs) x)) (Z.to_nat (ravelF (fewer d gs) y)) = gp_cov s sn dens P (node (half_step d corner h) h x) (node (half_step d corner h) h y).
  Lemma core : exists dens bs G W, density blur P gs h corner = Ok dens /\ mapX (psr_axis P Nrm gs h corner (fun i => 1 / (dens i + sn * sn)) (option_map (@map pt pt) phi)) (seq 0 (length gs)) = Ok bs
    /\ fd_grad_l gs h = Ok G /\ interp P gs h corner = Ok W /\ is_density blur gs h corner P dens /\ (blurs blur -> forall i, (i < length P)%nat -> 0 < dens i)
    /\ length bs = length gs /\ (forall d b, nth_error bs d = Some b -> fst (fst b) = Z.to_nat (zprod (fewer d gs)) /\ blk_mean dens b d /\ (length gs = 2%nat -> blk_cov dens b d))
    /\ (forall f d idx, (d < length gs)%nat -> on_grid (fewer d gs) idx -> mulv (Z.to_nat (zprod gs)) G f (eoff gs d + ravelF (fewer d gs) idx) = diff d h (fun idx => f (ravelF gs idx)) idx)
    /\ (forall i f, (i < length P)%nat -> mulv (Z.to_nat (zprod gs)) W f (Z.of_nat i) = lerp corner h (nth i P []) (fun idx => f (ravelF gs idx))).
  Proof.
    destruct (setting_facts _ _ _ _ _ ST) as (D & Lh & Lc & Ph & G8 & NE & Ins & SP & Es & Gp).
    destruct (density_ok blur P gs h corner D Lh Lc Ph Gp) as (dens & Ed & Hd). destruct Hd as [Hd Pd]; [intros p I; apply well_lower; auto|].
    destruct (mapX_ex (psr_axis P Nrm gs h corner (fun i => 1 / (dens i + sn * sn)) (option_map (@map pt pt) phi))
      (fun d b => fst (fst b) = Z.to_nat (zprod (fewer d gs)) /\ blk_mean dens b d /\ (length gs = 2%nat -> blk_cov dens b d)) (seq 0 (length gs))) as (bs & Eb & F).
    { intros d I. apply in_seq in I. destruct (axis_ok P Nrm gs h corner s D Lh Lc Ph G8 Ins SP Es (fun i => 1 / (dens i + sn * sn)) phi d ltac:(lia)) as (b & E & S1 & M & C). exists b. split; [exact E|]. split; auto. split.
      - intros idx Gi. rewrite M by auto. unfold gp_mean, prior_or_zero. cbv zeta. f_equal. apply sumn_ext. intros. cbv beta zeta. unfold Rdiv. destruct phi; ring.
      - intros L2 x y Gx Gy. rewrite C by auto. unfold gp_cov. cbv zeta. f_equal. apply sumn_ext. intros. cbv beta zeta. unfold Rdiv. ring. }
    apply Forall2_seq in F as [Lb F].
    destruct (grad_ok gs h D Lh Ph Gp) as (G & EG & HG). destruct (interp_ok P gs h corner D Lh Lc Ph) as (W & EW & HW).
    exists dens, bs, G, W. repeat (split; [assumption|]). intros i f Li. apply HW; auto; [apply nth_error_nth'; auto|]. apply well_box; auto. apply Ins, nth_In. auto.
  Qed.
End CORE.

Lemma sumn_const' n c : sumn n (fun _ => c) = INR n * c.
Proof. induction n as [|n IH]; [unfold sumn; cbn; ring|]. rewrite sumn_S, IH, S_INR. ring. Qed.
(** -- the mean -- *)
Theorem C78_mean : forall blur bicg splu argsort P Nrm gs h corner s sn sigma variance sub phi out, setting gs h corner P s -> blurs blur -> bicg_ok bicg ->
  stochastic_psr blur bicg splu argsort (length gs) (length gs) P Nrm (Some gs) (Some h) (Some corner) variance sn sigma sub (option_map (@map (list R) (list R)) phi) = Ok out ->
  let mu := val_at gs (o_mean out) in
  length (o_mean out) = Z.to_nat (fold_right Z.mul 1%Z gs)
  /\ sumn (length P) (fun i => lerp corner h (nth i P []) mu) = 0
  /\ exists dens shift b r, is_density blur gs h corner P dens /\ (forall i, (i < length P)%nat -> 0 < dens i)
  /\ (forall w, grid_sum gs (fun i => b i * w i) = edge_sum gs (fun d idx => gp_mean s sn dens P Nrm (prior_or_zero phi) d (node (half_step d corner h) h idx) * diff d h w idx))
  /\ (forall w, poisson (1 / 10 ^ 6) gs h (fun i => mu i + shift) w = grid_sum gs (fun i => (b i + r i) * w i))
  /\ sqrt (grid_sum gs (fun i => r i * r i)) <= Rmax (1 / 10 ^ 5 * sqrt (grid_sum gs (fun i => b i * b i))) (1 / 10 ^ 10).
Proof.
  intros blur bicg splu argsort P Nrm gs h corner s sn sigma variance sub phi out ST BL BI H mu.
  destruct (setting_facts _ _ _ _ _ ST) as (D & Lh & Lc & Ph & G8 & NE & Ins & SP & Es & Gp).
  destruct (core blur P Nrm gs h corner s sn phi ST) as (dens & bs & G & W & Ed & Eb & EG & EW & ID & PD & Lb & HB & HG & HW).
  unfold stochastic_psr in H. rewrite Nat.eqb_refl in H. cbn [negb] in H. unfold psr_args in H. cbn [fst snd bind] in H. rewrite Nat.eqb_refl in H. cbn [bind] in H. unfold pt in *. rewrite Ed in H. cbn [bind] in H.
  rewrite Eb in H. cbn [bind] in H. rewrite EG in H. cbn [bind] in H.
  set (n := Z.to_nat (zprod gs)) in *. change (fold_right (fun b s => (fst (fst b) + s)%nat) 0%nat bs) with (bsize bs) in H.
  set (A := fun i j => _ + small * _) in H. set (b' := fun j => sumn (bsize bs) (fun r => entry G (Z.of_nat r) (Z.of_nat j) * concat_v bs r)) in H.
  destruct (bicg n A b') as [u info] eqn:EB. destruct (Z.eqb_spec info 0) as [->|]; cbn [negb] in H; [|discriminate]. rewrite EW in H. cbn [bind] in H.
  set (shift := _ / INR (length P)) in H. set (mean := map (fun j => u j - shift) (seq 0 n)) in H.
  assert (EM : o_mean out = mean).
  { destruct variance; cbn [negb] in H; [|injection H as <-; reflexivity]. match type of H with bind ?x _ = _ => destruct x; cbn [bind] in H; [|discriminate] end. injection H as <-. reflexivity. }
  assert (Sz : forall d b, nth_error bs d = Some b -> fst (fst b) = Z.to_nat (zprod (fewer d gs))) by (intros d b E; apply HB; auto).
  assert (MU : forall idx, on_grid gs idx -> mu idx = fl gs u idx - shift).
  { intros idx Gi. pose proof (ravel_bound gs idx Gi). unfold mu, val_at. rewrite EM, pos_ravel. unfold mean. rewrite nth_map_seq by (unfold n; lia). reflexivity. }
  assert (LN : (0 < length P)%nat) by (destruct P; [congruence|cbn; lia]).
  split; [rewrite EM; unfold mean; rewrite map_length, seq_length; reflexivity|]. split.
  - rewrite (sumn_ext _ _ (fun i => lerp corner h (nth i P []) (fl gs u) + -1 * shift)).
    + rewrite sumn_plus, sumn_const'. unfold shift. rewrite (sumn_ext _ (fun i => mulv n W (fun j => u (Z.to_nat j)) (Z.of_nat i)) (fun i => lerp corner h (nth i P []) (fl gs u))) by (intros i Li; unfold n; rewrite HW by auto; reflexivity).
      assert (INR (length P) <> 0) by (apply not_0_INR; lia). field. auto.
    + intros i Li. rewrite (lerp_grid gs h corner (nth i P []) mu (fun idx => fl gs u idx + -1 * shift)); auto.
      * rewrite lerp_plus, lerp_const. auto.
      * apply well_box; auto. apply Ins, nth_In. auto.
      * intros idx Gi. rewrite MU by auto. ring.
  - set (rr := fun i => sumn n (fun j => A i j * u j) - b' i). exists dens, shift, (fl gs b'), (fl gs rr). split; auto. split; [intros; apply PD; auto|]. split; [|split].
    + intros w. transitivity (sumn n (fun j => b' j * flat gs w j)).
      * unfold n. rewrite flat_sum by (eapply Forall_impl; [|exact Gp]; cbn; lia). apply grid_sum_ext. intros i Gi. rewrite <- (fl_flat gs w i) by auto. reflexivity.
      * unfold b', n. rewrite (form_b gs h bs G Gp Lb Sz HG). apply edge_sum_ext. intros d idx Hd Gi. rewrite (diff_ext gs h _ w) by (auto; intros; apply fl_flat; auto). f_equal.
        destruct (nth_error bs d) as [[[nd fd] gd]|] eqn:E; [|apply nth_error_None in E; lia]. destruct (HB d _ E) as (S1 & M & _). cbn [fst] in S1. pose proof (ravel_bound _ _ Gi).
        unfold enat. rewrite (concat_at bs d nd fd gd) by (auto; lia). apply M; auto.
    + intros w. rewrite (poisson_ext _ _ _ _ (fl gs u) _ (fl gs (flat gs w))); [|intros i Gi; rewrite MU by auto; ring|intros i Gi; rewrite fl_flat by auto; auto].
      change (1 / 10 ^ 6) with small. rewrite <- (form_A gs h bs G Gp Lb Sz HG). rewrite flat_sum by (eapply Forall_impl; [|exact Gp]; cbn; lia).
      apply grid_sum_ext. intros i Gi. cbv beta. rewrite <- (fl_flat gs w i) by auto. unfold fl at 1 2. unfold rr. change (fl gs (flat gs w) i) with (flat gs w (Z.to_nat (ravelF gs i))).
      match goal with |- ?x * _ = _ => change x with (sumn n (fun j => A (Z.to_nat (ravelF gs i)) j * u j)) end. ring.
    + pose proof (BI n A b' u EB) as Q. unfold norm_n in Q. fold rr in Q. change (fun i => sumn n (fun j => A i j * u j) - b' i) with rr in Q.
      unfold n in Q. rewrite (flat_sum gs (fun i => (sumn (Z.to_nat (zprod gs)) (fun j => A i j * u j) - b' i) * (sumn (Z.to_nat (zprod gs)) (fun j => A i j * u j) - b' i))) in Q by (eapply Forall_impl; [|exact Gp]; cbn; lia).
      rewrite (flat_sum gs (fun i => b' i * b' i)) in Q by (eapply Forall_impl; [|exact Gp]; cbn; lia). exact Q.
Qed.
Print Assumptions C78_mean.

(** -- it succeeds -- *)
Lemma sumn_sq_nonneg n x : 0 <= sumn n (fun i => x i * x i).
Proof. apply sumn_nonneg. intros. nra. Qed.
Lemma A_spd n m (g : nat -> nat -> R) : pos_def n (fun i j => sumn m (fun r => g r i * g r j) + small * (if Nat.eqb i j then 1 else 0)).
Proof.
  intros x. assert (E : sumn n (fun i => x i * sumn n (fun j => (sumn m (fun r => g r i * g r j) + small * (if Nat.eqb i j then 1 else 0)) * x j)) = sumn m (fun r => sumn n (fun j => g r j * x j) * sumn n (fun j => g r j * x j)) + small * sumn n (fun i => x i * x i)).
  { rewrite (sumn_ext n _ (fun i => sumn m (fun r => x i * g r i * sumn n (fun j => g r j * x j)) + small * (x i * x i))).
    - rewrite sumn_plus, sumn_scal. f_equal. rewrite sumn_swap. apply sumn_ext. intros r _. rewrite sumn_scal_r. f_equal. apply sumn_ext. intros. ring.
    - intros i Hi. rewrite (sumn_ext n _ (fun j => sumn m (fun r => g r i * g r j * x j) + small * ((if Nat.eqb i j then 1 else 0) * x j))) by (intros; rewrite sumn_scal_r; ring).
      rewrite sumn_plus, sumn_scal, sumn_delta, sumn_swap by auto. rewrite Rmult_plus_distr_l. f_equal; [|ring]. rewrite <- sumn_scal. apply sumn_ext. intros r _. rewrite <- !sumn_scal. apply sumn_ext. intros. ring. }
  rewrite E. assert (S0 : 0 < small) by (unfold small; apply Rdiv_lt_0_compat; [lra|apply pow_lt; lra]). pose proof (sumn_sq_nonneg m (fun r => sumn n (fun j => g r j * x j))) as Q1. cbv beta in Q1. pose proof (sumn_sq_nonneg n x) as Q2.
  split; [nra|]. intros Z i Hi. assert (Z2 : sumn n (fun i => x i * x i) = 0) by nra. pose proof (sumn_ge n (fun i => x i * x i) i ltac:(intros; cbn; nra) Hi) as Q. cbn in Q. nra.
Qed.
Theorem C78_succeeds : forall blur bicg splu argsort P Nrm gs h corner s sn sigma variance sub phi, setting gs h corner P s ->
  (forall n A b, (forall i j, (i < n)%nat -> (j < n)%nat -> A i j = A j i) -> pos_def n A -> snd (bicg n A b) = 0%Z) -> (variance = true -> sub = 0%nat -> spd_solver splu) ->
  exists out, stochastic_psr blur bicg splu argsort (length gs) (length gs) P Nrm (Some gs) (Some h) (Some corner) variance sn sigma sub (option_map (@map (list R) (list R)) phi) = Ok out
  /\ (variance = true <-> o_var out <> None).
Proof.
  intros blur bicg splu argsort P Nrm gs h corner s sn sigma variance sub phi ST BI SV.
  destruct (core blur P Nrm gs h corner s sn phi ST) as (dens & bs & G & W & Ed & Eb & EG & EW & _).
  unfold stochastic_psr. rewrite Nat.eqb_refl. cbn [negb]. unfold psr_args. cbn [fst snd bind]. rewrite Nat.eqb_refl. cbn [bind]. unfold pt in *. rewrite Ed. cbn [bind].
  rewrite Eb. cbn [bind]. rewrite EG. cbn [bind]. match goal with |- context [bicg ?n ?A ?b] => assert (Q : snd (bicg n A b) = 0%Z) by (apply BI; [intros i j _ _; rewrite Nat.eqb_sym; f_equal; apply sumn_ext; intros; ring|apply A_spd]); destruct (bicg n A b) as [u info] end. cbn [snd] in Q. subst info. cbn [Z.eqb negb].
  rewrite EW. cbn [bind]. destruct variance; cbn [negb]; [|eexists; split; [reflexivity|]; cbn; split; congruence].
  destruct (Nat.ltb_spec 0 sub) as [L|L].
  - destruct (length gs =? 2)%nat; cbn [bind eigenfunctions2 eigenfunctions3]; (eexists; split; [reflexivity|]; cbn; split; congruence).
  - specialize (SV eq_refl ltac:(lia)). destruct SV as [_ SV]. match goal with |- context [splu ?n ?A] => destruct (SV n A) as (f & ->) end.
    + intros i j _ _. rewrite Nat.eqb_sym. f_equal. apply sumn_ext. intros. ring.
    + apply A_spd.
    + cbn [bind]. eexists; split; [reflexivity|]; cbn; split; congruence.
Qed.
Print Assumptions C78_succeeds.
Theorem C78_not_converged : forall blur bicg splu argsort P Nrm gs h corner s sn sigma variance sub phi, setting gs h corner P s ->
  (forall n A b, snd (bicg n A b) <> 0%Z) ->
  stochastic_psr blur bicg splu argsort (length gs) (length gs) P Nrm (Some gs) (Some h) (Some corner) variance sn sigma sub (option_map (@map (list R) (list R)) phi) = Err AssertionError.
Proof.
  intros blur bicg splu argsort P Nrm gs h corner s sn sigma variance sub phi ST BI.
  destruct (core blur P Nrm gs h corner s sn phi ST) as (dens & bs & G & W & Ed & Eb & EG & EW & _).
  unfold stochastic_psr. rewrite Nat.eqb_refl. cbn [negb]. unfold psr_args. cbn [fst snd bind]. rewrite Nat.eqb_refl. cbn [bind]. unfold pt in *. rewrite Ed. cbn [bind].
  rewrite Eb. cbn [bind]. rewrite EG. cbn [bind]. match goal with |- context [bicg ?n ?A ?b] => pose proof (BI n A b) as Q; destruct (bicg n A b) as [u info] end. cbn [snd] in Q.
  destruct (Z.eqb_spec info 0); [congruence|reflexivity].
Qed.
Print Assumptions C78_not_converged.

(** -- the variance, two dimensions -- *)
Lemma green_pair n (A : matrix) z x y j : (forall i k, (i < n)%nat -> (k < n)%nat -> A i k = A k i) -> (j < n)%nat -> (forall i, (i < n)%nat -> sumn n (fun k => A i k * z k) = if Nat.eqb i j then 1 else 0) ->
  (forall i, (i < n)%nat -> sumn n (fun k => A i k * x k) = y i) -> x j = sumn n (fun k => z k * y k).
Proof.
  intros SY Hj Hz Hx. rewrite (sumn_ext n _ (fun k => sumn n (fun l => z k * (A k l * x l)))) by (intros k Hk; rewrite <- Hx by auto; rewrite <- sumn_scal; auto).
  rewrite sumn_swap. rewrite (sumn_ext n _ (fun l => (if Nat.eqb j l then 1 else 0) * x l)).
  - rewrite sumn_delta; auto.
  - intros l Hl. rewrite Nat.eqb_sym, <- Hz by auto. rewrite <- sumn_scal_r. apply sumn_ext. intros k Hk. rewrite (SY l k) by auto. ring.
Qed.
Lemma shifted_min vs e x0 : vs <> [] -> let l := map (fun x => x - lmin vs + e) vs in (forall i, (i < length vs)%nat -> nth i l 0 = nth i vs x0 - lmin vs + e) /\ (forall x, In x l -> e <= x) /\ In e l.
Proof.
  intros NE l. split; [|split].
  - intros i Hi. unfold l. rewrite (nth_indep _ 0 (x0 - lmin vs + e)) by (rewrite map_length; auto). apply (map_nth (fun x => x - lmin vs + e)).
  - intros x I. apply in_map_iff in I as (y & <- & I). pose proof (lmin_le y vs I). lra.
  - apply in_map_iff. exists (lmin vs). split; [lra|]. apply lmin_in; auto.
Qed.
(** what is common to both ways of solving: the smallest variance returned is the noise plus the regularisation *)
Definition floor_is (e : R) (l : list R) : Prop := (forall x, In x l -> e <= x) /\ In e l.
Theorem C78_variance : forall blur bicg splu argsort P Nrm gs h corner s sn sigma phi out, setting gs h corner P s -> length gs = 2%nat -> blurs blur -> solver_ok splu ->
  stochastic_psr blur bicg splu argsort 2 2 P Nrm (Some gs) (Some h) (Some corner) true sn sigma 0 (option_map (@map (list R) (list R)) phi) = Ok out ->
  exists var dens base, o_var out = Some var /\ length var = Z.to_nat (fold_right Z.mul 1%Z gs) /\ floor_is (sn * sn + 1 / 10 ^ 6) var
  /\ is_density blur gs h corner P dens /\ (forall i, (i < length P)%nat -> 0 < dens i)
  /\ forall idx, on_grid gs idx -> exists z, (forall w, poisson (1 / 10 ^ 6) gs h z w = w idx)
     /\ val_at gs var idx = base + cov_form gs h (fun d a b => sigma * sigma * gp_cov s sn dens P (node (half_step d corner h) h a) (node (half_step d corner h) h b)) z z.
Proof.
  intros blur bicg splu argsort P Nrm gs h corner s sn sigma phi out ST L2 BL SO H.
  destruct (setting_facts _ _ _ _ _ ST) as (D & Lh & Lc & Ph & G8 & NE & Ins & SP & Es & Gp).
  destruct (core blur P Nrm gs h corner s sn phi ST) as (dens & bs & G & W & Ed & Eb & EG & EW & ID & PD & Lb & HB & HG & HW). rewrite <- L2 in H.
  unfold stochastic_psr in H. rewrite Nat.eqb_refl in H. cbn [negb] in H. unfold psr_args in H. cbn [fst snd bind] in H. rewrite Nat.eqb_refl in H. cbn [bind] in H. unfold pt in *. rewrite Ed in H. cbn [bind] in H.
  rewrite Eb in H. cbn [bind] in H. rewrite EG in H. cbn [bind] in H.
  set (n := Z.to_nat (zprod gs)) in *. change (fold_right (fun b s => (fst (fst b) + s)%nat) 0%nat bs) with (bsize bs) in H.
  set (A := fun i j => _ + small * _) in H. destruct (bicg n A _) as [u info] eqn:EB. destruct (Z.eqb_spec info 0) as [->|]; cbn [negb] in H; [|discriminate]. rewrite EW in H. cbn [bind] in H. cbn [Nat.ltb Nat.leb] in H.
  destruct (splu n A) as [lu|] eqn:EL; cbn [bind] in H; [|discriminate].
  match type of H with context [map ?f (seq 0 n)] => match f with fun i => lu _ i => set (var := f) in H end end.
  injection H as <-. cbn [o_var].
  assert (Sz : forall d b, nth_error bs d = Some b -> fst (fst b) = Z.to_nat (zprod (fewer d gs))) by (intros d b E; apply HB; auto).
  assert (NP : (0 < n)%nat). { pose proof (ravel_bound gs (map (fun _ => 0%Z) gs)) as Q. assert (on_grid gs (map (fun _ => 0%Z) gs)) by (clear - Gp; induction Gp; cbn; constructor; auto; lia). specialize (Q H). unfold n. lia. }
  set (vs := map var (seq 0 n)) in *. assert (NV : vs <> []) by (unfold vs; destruct n; [lia|discriminate]). assert (LV : length vs = n) by (unfold vs; rewrite map_length, seq_length; auto).
  set (e := sn * sn + 1 / 10 ^ 6). set (l := map _ vs). assert (EQ : l = map (fun x => x - lmin vs + e) vs) by (unfold l, e, small; apply map_ext; intros; ring).
  destruct (shifted_min vs e 0 NV) as (S1 & S2 & S3). rewrite <- EQ in S1, S2, S3.
  exists l, dens, (e - lmin vs). split; [reflexivity|]. split; [rewrite EQ, map_length, LV; reflexivity|]. split; [split; auto|]. split; auto. split; [intros; apply PD; auto|].
  intros idx Gi. pose proof (ravel_bound gs idx Gi) as RB. set (j := Z.to_nat (ravelF gs idx)). assert (Hj : (j < n)%nat) by (unfold j, n; lia).
  pose proof (SO n A lu EL) as HL. set (z := lu (fun k => if Nat.eqb k j then 1 else 0)).
  assert (SY : forall i k, A i k = A k i) by (intros; unfold A; rewrite Nat.eqb_sym; f_equal; apply sumn_ext; intros; ring).
  assert (Hz : forall i, (i < n)%nat -> sumn n (fun k => A i k * z k) = if Nat.eqb i j then 1 else 0) by (intros i Hi; unfold z; rewrite HL by auto; reflexivity).
  exists (fl gs z). split.
  - intros w. rewrite (poisson_ext _ _ _ _ (fl gs z) _ (fl gs (flat gs w))) by (auto; intros i Gi'; rewrite fl_flat by auto; auto). change (1 / 10 ^ 6) with small. rewrite <- (form_A gs h bs G Gp Lb Sz HG).
    transitivity (sumn n (fun i => (if Nat.eqb j i then 1 else 0) * flat gs w i)).
    + apply sumn_ext. intros i Hi. rewrite Nat.eqb_sym. f_equal. apply Hz; auto.
    + rewrite sumn_delta by auto. change (fl gs (flat gs w) idx = w idx). apply fl_flat; auto.
  - unfold val_at. rewrite pos_ravel. fold j. rewrite S1 by lia. replace (nth j vs 0) with (var j) by (unfold vs; rewrite nth_map_seq; auto).
    assert (EV : var j = cov_form gs h (fun d a b => sigma * sigma * gp_cov s sn dens P (node (half_step d corner h) h a) (node (half_step d corner h) h b)) (fl gs z) (fl gs z)).
    { rewrite <- (form_diag gs h bs Lb Sz (sigma * sigma) (fun d a b => gp_cov s sn dens P (node (half_step d corner h) h a) (node (half_step d corner h) h b)) (fl gs z) (fl gs z)).
      2:{ intros d b E x y Gx Gy. destruct (HB d b E) as (_ & _ & C). apply (C L2); auto. }
      rewrite <- (form_M gs h bs G Gp Lb Sz HG (fun a b => sigma * sigma * block_diag_v bs a b) z z). fold n.
      unfold var. rewrite (green_pair n A z _ (fun k => lu (fun k0 => sumn (bsize bs) (fun r => sumn (bsize bs) (fun s0 => entry G (Z.of_nat r) (Z.of_nat k0) * (sigma * sigma * block_diag_v bs r s0) * entry G (Z.of_nat s0) (Z.of_nat k)))) j) j); auto.
      - apply sumn_ext. intros k Hk. rewrite (green_pair n A z _ (fun k0 => sumn (bsize bs) (fun r => sumn (bsize bs) (fun s0 => entry G (Z.of_nat r) (Z.of_nat k0) * (sigma * sigma * block_diag_v bs r s0) * entry G (Z.of_nat s0) (Z.of_nat k)))) j); auto; [ring|]. intros i Hi. rewrite HL by auto. reflexivity.
      - intros i Hi. rewrite HL by auto. reflexivity. }
    rewrite EV. ring.
Qed.
Print Assumptions C78_variance.
(** projection onto the eigenfunctions of grid_laplacian_eigenfunctions (any choice of argsort) *)
Theorem C78_subspace : forall blur bicg splu argsort P Nrm g0 g1 h0 h1 corner s sn sigma sub phi out, let gs := [g0; g1] in let h := [h0; h1] in setting gs h corner P s -> blurs blur -> (0 < sub)%nat ->
  stochastic_psr blur bicg splu argsort 2 2 P Nrm (Some gs) (Some h) (Some corner) true sn sigma sub (option_map (@map (list R) (list R)) phi) = Ok out ->
  let E k idx := snd (eigenfunctions2 argsort sub (Z.to_nat g0) (Z.to_nat g1) (IZR g0 * h0) (IZR g1 * h1)) (Z.to_nat (pos gs idx)) k in
  exists var dens base, o_var out = Some var /\ length var = Z.to_nat (g0 * g1) /\ floor_is (sn * sn + 1 / 10 ^ 6) var
  /\ is_density blur gs h corner P dens /\ (forall i, (i < length P)%nat -> 0 < dens i)
  /\ forall idx, on_grid gs idx ->
     val_at gs var idx = base + sumn sub (fun k => sumn sub (fun l => E k idx * E l idx
       * cov_form gs h (fun d a b => sigma * sigma * gp_cov s sn dens P (node (half_step d corner h) h a) (node (half_step d corner h) h b)) (E l) (E k)
       / (poisson (1 / 10 ^ 6) gs h (E k) (E k) * poisson (1 / 10 ^ 6) gs h (E l) (E l)))).
Proof.
  intros blur bicg splu argsort P Nrm g0 g1 h0 h1 corner s sn sigma sub phi out gs h ST BL HK H E.
  destruct (setting_facts _ _ _ _ _ ST) as (D & Lh & Lc & Ph & G8 & NE & Ins & SP & Es & Gp).
  destruct (core blur P Nrm gs h corner s sn phi ST) as (dens & bs & G & W & Ed & Eb & EG & EW & ID & PD & Lb & HB & HG & HW).
  unfold stochastic_psr in H. change (2 =? 2)%nat with true in H. cbn [negb] in H. unfold psr_args in H. cbn [fst snd bind] in H. change (length gs =? 2)%nat with true in H. cbn [bind] in H. unfold pt in *. rewrite Ed in H. cbn [bind] in H.
  change (length gs) with 2%nat in Eb. rewrite Eb in H. cbn [bind] in H. rewrite EG in H. cbn [bind] in H.
  set (n := Z.to_nat (zprod gs)) in *. change (fold_right (fun b s => (fst (fst b) + s)%nat) 0%nat bs) with (bsize bs) in H.
  set (A := fun i j => _ + small * _) in H. destruct (bicg n A _) as [u info] eqn:EB. destruct (Z.eqb_spec info 0) as [->|]; cbn [negb] in H; [|discriminate]. rewrite EW in H. cbn [bind] in H.
  replace (0 <? sub)%nat with true in H by (symmetry; apply Nat.ltb_lt; auto). cbn [bind] in H.
  change (nth 0 gs 0%Z) with g0 in H. change (nth 1 gs 0%Z) with g1 in H. change (nth 0 h 0) with h0 in H. change (nth 1 h 0) with h1 in H.
  unfold E. destruct (eigenfunctions2 argsort sub (Z.to_nat g0) (Z.to_nat g1) (IZR g0 * h0) (IZR g1 * h1)) as [[nn K] e'] eqn:EE. assert (K = sub) by (unfold eigenfunctions2 in EE; congruence). subst K. cbn [snd bind] in *. clear E EE.
  set (M := fun i j : nat => sumn (bsize bs) (fun r => sumn (bsize bs) (fun s0 => entry G (Z.of_nat r) (Z.of_nat i) * (sigma * sigma * block_diag_v bs r s0) * entry G (Z.of_nat s0) (Z.of_nat j)))) in *.
  match type of H with context [map ?f (seq 0 n)] => match f with fun i => sumn sub _ => set (var := f) in H end end.
  injection H as <-. cbn [o_var].
  assert (Sz : forall d b, nth_error bs d = Some b -> fst (fst b) = Z.to_nat (zprod (fewer d gs))) by (intros d b Q; apply HB; auto).
  assert (NP : (0 < n)%nat). { pose proof (ravel_bound gs (map (fun _ => 0%Z) gs)) as Q. assert (Q0 : on_grid gs (map (fun _ => 0%Z) gs)) by (clear - Gp; induction Gp; cbn; constructor; auto; lia). specialize (Q Q0). unfold n. lia. }
  set (vs := map var (seq 0 n)) in *. assert (NV : vs <> []) by (unfold vs; destruct n; [lia|discriminate]). assert (LV : length vs = n) by (unfold vs; rewrite map_length, seq_length; auto).
  set (e := sn * sn + 1 / 10 ^ 6). set (l := map _ vs). assert (EQ : l = map (fun x => x - lmin vs + e) vs) by (unfold l, e, small; apply map_ext; intros; ring).
  destruct (shifted_min vs e 0 NV) as (S1 & S2 & S3). rewrite <- EQ in S1, S2, S3.
  exists l, dens, (e - lmin vs). split; [reflexivity|]. split; [rewrite EQ, map_length, LV; unfold n; f_equal; unfold gs; cbn [zprod fold_right]; ring|]. split; [split; auto|]. split; auto. split; [intros; apply PD; auto|].
  intros idx Gi. pose proof (ravel_bound gs idx Gi) as RB. unfold val_at. rewrite !(pos_ravel gs idx). set (j := Z.to_nat (ravelF gs idx)). assert (Hj : (j < n)%nat) by (unfold j, n; lia).
  rewrite S1 by lia. replace (nth j vs 0) with (var j) by (unfold vs; rewrite nth_map_seq; auto). enough (EV : var j = sumn sub (fun k => sumn sub (fun l0 => e' j k * e' j l0 * cov_form gs h (fun d a b => sigma * sigma * gp_cov s sn dens P (node (half_step d corner h) h a) (node (half_step d corner h) h b)) (fun idx0 => e' (Z.to_nat (pos gs idx0)) l0) (fun idx0 => e' (Z.to_nat (pos gs idx0)) k)
       / (poisson (1 / 10 ^ 6) gs h (fun idx0 => e' (Z.to_nat (pos gs idx0)) k) (fun idx0 => e' (Z.to_nat (pos gs idx0)) k) * poisson (1 / 10 ^ 6) gs h (fun idx0 => e' (Z.to_nat (pos gs idx0)) l0) (fun idx0 => e' (Z.to_nat (pos gs idx0)) l0))))) by (rewrite EV; ring).
  assert (FP : forall k, poisson (1 / 10 ^ 6) gs h (fun idx0 => e' (Z.to_nat (pos gs idx0)) k) (fun idx0 => e' (Z.to_nat (pos gs idx0)) k) = sumn n (fun j0 => sumn n (fun i => e' i k * A i j0) * e' j0 k)).
  { intros k. change (1 / 10 ^ 6) with small. rewrite (poisson_ext small gs h _ (fl gs (fun i => e' i k)) _ (fl gs (fun i => e' i k))) by (intros; rewrite pos_ravel; reflexivity).
    rewrite <- (form_A gs h bs G Gp Lb Sz HG). apply sumn_ext. intros i _. f_equal. apply sumn_ext. intros i0 _. fold (A i i0). rewrite (Rmult_comm (e' i0 k)). f_equal. unfold A. rewrite Nat.eqb_sym. f_equal. apply sumn_ext. intros. ring. }
  assert (FM : forall k l0, cov_form gs h (fun d a b => sigma * sigma * gp_cov s sn dens P (node (half_step d corner h) h a) (node (half_step d corner h) h b)) (fun idx0 => e' (Z.to_nat (pos gs idx0)) l0) (fun idx0 => e' (Z.to_nat (pos gs idx0)) k) = sumn n (fun j0 => sumn n (fun i => e' i l0 * M i j0) * e' j0 k)).
  { intros k l0. rewrite <- (form_diag gs h bs Lb Sz (sigma * sigma) (fun d a b => gp_cov s sn dens P (node (half_step d corner h) h a) (node (half_step d corner h) h b))).
    2:{ intros d b Q x y Gx Gy. destruct (HB d b Q) as (_ & _ & C). apply (C eq_refl); auto. }
    unfold M, n. rewrite (form_M gs h bs G Gp Lb Sz HG (fun a b => sigma * sigma * block_diag_v bs a b) (fun i => e' i l0) (fun i => e' i k)).
    apply edge_sum_ext. intros d a Hd Ga. apply edge_sum_ext. intros d' b Hd' Gb. rewrite (diff_ext gs h _ (fl gs (fun i => e' i l0)) d a), (diff_ext gs h _ (fl gs (fun i => e' i k)) d' b) by (auto; intros; rewrite pos_ravel; reflexivity). reflexivity. }
  unfold var. rewrite (sumn_ext sub _ (fun l0 => sumn sub (fun k => e' j k * (sumn n (fun j0 => sumn n (fun i => e' i l0 * M i j0) * e' j0 k) / sumn n (fun j0 => sumn n (fun i => e' i l0 * A i j0) * e' j0 l0) / sumn n (fun j0 => sumn n (fun i => e' i k * A i j0) * e' j0 k)) * e' j l0))) by (intros; rewrite sumn_scal_r; auto).
  rewrite sumn_swap. apply sumn_ext. intros k _. apply sumn_ext. intros l0 _. rewrite !FP, FM. unfold Rdiv. rewrite Rinv_mult. ring.
Qed.
Print Assumptions C78_subspace.

(** -- arguments -- *)
Definition grid_of_cloud (dim : nat) (P : list (list R)) (gs : list Z) (h corner : list R) : Prop :=
  length h = dim /\ length corner = dim /\ forall d, (d < dim)%nat -> exists lo hi, is_least lo (map (fun p => nth d p 0) P) /\ is_least (- hi) (map (fun p => - nth d p 0) P)
    /\ nth d corner 0 = 3 / 2 * lo /\ nth d h 0 = 3 / 2 * (hi - lo) / IZR (nth d gs 0%Z).
Lemma lmax_ge x l : In x l -> x <= lmax l.
Proof.
  destruct l as [|a l]; [intros []|]. cbn [lmax]. assert (G : forall l, a <= fold_right Rmax a l) by (induction l0; cbn; [lra|apply Rle_trans with (fold_right Rmax a l0); auto; apply Rmax_r]).
  intros [->|I]; [apply G|]. induction l as [|b l IH]; [destruct I|]. cbn. destruct I as [->|I]; [apply Rmax_l|]. apply Rle_trans with (fold_right Rmax a l); [apply IH; auto|apply Rmax_r].
Qed.
Lemma lmax_in l : l <> [] -> In (lmax l) l.
Proof.
  destruct l as [|a l]; [congruence|]. intros _. cbn [lmax]. induction l as [|b l IH]; [left; reflexivity|]. cbn [fold_right]. unfold Rmax at 1. destruct (Rle_dec b (fold_right Rmax a l)); [|right; left; auto]. destruct IH as [Q|Q]; [left; auto|right; right; auto].
Qed.
Lemma lmin_scaled l : l <> [] -> exists lo, is_least lo l /\ lmin (map (fun x => 3 / 2 * x) l) = 3 / 2 * lo.
Proof.
  intros NE. exists (lmin l). split; [split; [apply lmin_in; auto|intros; apply lmin_le; auto]|]. apply least_unique. split.
  - apply in_map_iff. exists (lmin l). split; auto. apply lmin_in; auto.
  - intros x I. apply in_map_iff in I as (y & <- & I). pose proof (lmin_le y l I). lra.
Qed.
Lemma lmax_scaled l : l <> [] -> exists hi, is_least (- hi) (map (fun x => - x) l) /\ lmax (map (fun x => 3 / 2 * x) l) = 3 / 2 * hi.
Proof.
  intros NE. exists (lmax l). split.
  - split; [apply in_map, lmax_in; auto|]. intros x I. apply in_map_iff in I as (y & <- & I). pose proof (lmax_ge y l I). lra.
  - assert (NE' : map (fun x => 3 / 2 * x) l <> []) by (destruct l; [congruence|discriminate]). apply Rle_antisym.
    + pose proof (lmax_in _ NE') as I. apply in_map_iff in I as (y & <- & I). pose proof (lmax_ge y l I). lra.
    + apply lmax_ge. apply in_map_iff. exists (lmax l). split; auto. apply lmax_in; auto.
Qed.
Lemma nth_zipw {A B C} (f : A -> B -> C) a : forall b d da db dc, length a = length b -> (d < length a)%nat -> nth d (zipw f a b) dc = f (nth d a da) (nth d b db).
Proof. unfold zipw. induction a as [|x a IH]; intros [|y b] [|d] da db dc L H; cbn in *; try lia; auto. apply IH; lia. Qed.
Lemma zipw_len {A B C} (f : A -> B -> C) a b : length a = length b -> length (zipw f a b) = length a.
Proof. intros L. unfold zipw. rewrite map_length, combine_length. lia. Qed.
(** without h or without corner, both are taken from the bounding box of the points scaled by 3/2 about the origin *)
Theorem C78_grid_from_cloud : forall blur bicg splu argsort dim P Nrm gs h0 corner0 variance sn sigma sub prior, P <> [] -> length gs = dim -> h0 = None \/ corner0 = None ->
  exists h corner, grid_of_cloud dim P gs h corner /\
  stochastic_psr blur bicg splu argsort dim dim P Nrm (Some gs) h0 corner0 variance sn sigma sub prior = stochastic_psr blur bicg splu argsort dim dim P Nrm (Some gs) (Some h) (Some corner) variance sn sigma sub prior
  /\ (gs = repeat 100%Z dim -> h0 = None -> corner0 = None ->
      stochastic_psr blur bicg splu argsort dim dim P Nrm None None None variance sn sigma sub prior = stochastic_psr blur bicg splu argsort dim dim P Nrm (Some gs) (Some h) (Some corner) variance sn sigma sub prior).
Proof.
  intros blur bicg splu argsort dim P Nrm gs h0 corner0 variance sn sigma sub prior NE L HC.
  set (hi := map (fun d => lmax (map (fun x => 3 / 2 * x) (axis d P))) (seq 0 dim)). set (lo := map (fun d => lmin (map (fun x => 3 / 2 * x) (axis d P))) (seq 0 dim)).
  set (h := zipw (fun a n => a / IZR n) (zipw Rminus hi lo) gs).
  assert (Lhi : length hi = dim) by (unfold hi; rewrite map_length, seq_length; auto). assert (Llo : length lo = dim) by (unfold lo; rewrite map_length, seq_length; auto).
  assert (EA : forall g, (g = Some gs \/ (g = None /\ h0 = None /\ corner0 = None /\ gs = repeat 100%Z dim)) -> psr_args dim P g h0 corner0 = Ok (gs, h, lo)).
  { intros g Hg. unfold psr_args. fold hi lo. assert (EL : (length gs =? dim)%nat = true) by (apply Nat.eqb_eq; auto). destruct P as [|p P']; [congruence|].
    destruct Hg as [->|(-> & -> & -> & ->)]; [|cbn [bind fst]; rewrite EL; reflexivity]. destruct h0, corner0; try (destruct HC; discriminate); cbn [bind fst]; rewrite EL; reflexivity. }
  exists h, lo. split; [|split].
  - split; [unfold h; rewrite zipw_len by (rewrite zipw_len; lia); rewrite zipw_len; lia|]. split; auto. intros d Hd.
    assert (NA : axis d P <> []) by (unfold axis; destruct P; [congruence|discriminate]).
    destruct (lmin_scaled _ NA) as (l & Hl & El). destruct (lmax_scaled _ NA) as (u & Hu & Eu). exists l, u. split; auto. split; [unfold axis in Hu; rewrite map_map in Hu; auto|].
    assert (Q1 : nth d lo 0 = 3 / 2 * l) by (unfold lo; rewrite nth_map_seq by auto; auto). assert (Q2 : nth d hi 0 = 3 / 2 * u) by (unfold hi; rewrite nth_map_seq by auto; auto).
    split; auto. unfold h. rewrite (nth_zipw _ _ _ d 0 0%Z 0) by (rewrite zipw_len; lia). rewrite (nth_zipw _ _ _ d 0 0 0) by lia. rewrite Q1, Q2. f_equal. ring.
  - unfold stochastic_psr. rewrite (EA (Some gs)) by auto. unfold psr_args at 1. cbn [bind fst]. rewrite (proj2 (Nat.eqb_eq _ _) L). reflexivity.
  - intros Eg -> ->. unfold stochastic_psr. rewrite (EA None) by auto. unfold psr_args at 1. cbn [bind fst]. rewrite (proj2 (Nat.eqb_eq _ _) L). reflexivity.
Qed.
Print Assumptions C78_grid_from_cloud.
(** the number of nodes is only deduced when both h and corner are given; wrong shapes are rejected *)
Theorem C78_arguments : forall blur bicg splu argsort dim dimN P Nrm gs0 h0 corner0 variance sn sigma sub prior,
  (dim <> dimN -> stochastic_psr blur bicg splu argsort dim dimN P Nrm gs0 h0 corner0 variance sn sigma sub prior = Err AssertionError)
  /\ (gs0 = None -> (h0 = None <-> corner0 <> None) -> stochastic_psr blur bicg splu argsort dim dimN P Nrm gs0 h0 corner0 variance sn sigma sub prior = Err AssertionError)
  /\ (forall gs, gs0 = Some gs -> P <> [] -> length gs <> dim -> stochastic_psr blur bicg splu argsort dim dimN P Nrm gs0 h0 corner0 variance sn sigma sub prior = Err AssertionError).
Proof.
  intros. unfold stochastic_psr. split; [|split].
  - intros N. rewrite (proj2 (Nat.eqb_neq _ _) N). reflexivity.
  - intros -> HC. destruct (dim =? dimN)%nat; cbn [negb]; auto. unfold psr_args. destruct h0, corner0; cbn [bind]; auto; exfalso; intuition congruence.
  - intros gs -> NE N. destruct (dim =? dimN)%nat; cbn [negb]; auto. unfold psr_args. destruct P; [congruence|]. destruct h0, corner0; cbn [bind fst]; rewrite (proj2 (Nat.eqb_neq _ _) N); reflexivity.
Qed.
Print Assumptions C78_arguments.
Lemma Ok_inj {A} (a b : A) : Ok a = Ok b -> a = b.
Proof. congruence. Qed.
Lemma o_grid_eq blur bicg splu argsort P Nrm gs h corner variance sn sigma sub prior out :
  stochastic_psr blur bicg splu argsort (length gs) (length gs) P Nrm (Some gs) (Some h) (Some corner) variance sn sigma sub prior = Ok out -> o_grid out = map (meshgrid_xy gs h corner) (seq 0 (length gs)).
Proof.
  unfold stochastic_psr. rewrite Nat.eqb_refl. cbn [negb]. unfold psr_args. cbn [fst snd bind]. rewrite Nat.eqb_refl. cbn [bind]. intros H.
  destruct (density _ _ _ _ _); cbn [bind] in H; [|discriminate]. destruct (mapX _ _); cbn [bind] in H; [|discriminate]. destruct (fd_grad_l _ _); cbn [bind] in H; [|discriminate].
  destruct (bicg _ _ _) as [u info]. destruct (negb (info =? 0)%Z); [discriminate|]. destruct (interp _ _ _ _); cbn [bind] in H; [|discriminate].
  destruct variance; cbn [negb] in H; [|apply Ok_inj in H; rewrite <- H; reflexivity].
  match type of H with bind ?x _ = _ => destruct x; cbn [bind] in H; [|discriminate] end. apply Ok_inj in H. rewrite <- H. reflexivity.
Qed.
(** the returned grid coordinates: in the plane, entry (i, j) of the arrays, read row by row, is the node of mean entry i * gs[0] + j *)
Theorem C78_grid_order_2d : forall blur bicg splu argsort P Nrm g0 g1 h0 h1 c0 c1 variance sn sigma sub prior out,
  stochastic_psr blur bicg splu argsort 2 2 P Nrm (Some [g0; g1]) (Some [h0; h1]) (Some [c0; c1]) variance sn sigma sub prior = Ok out ->
  exists X Y, o_grid out = [([g1; g0], X); ([g1; g0], Y)] /\ forall i j, (0 <= i < g1)%Z -> (0 <= j < g0)%Z -> X [i; j] = c0 + IZR j * h0 /\ Y [i; j] = c1 + IZR i * h1 /\ (i * g0 + j)%Z = pos [g0; g1] [j; i].
Proof.
  intros blur bicg splu argsort P Nrm g0 g1 h0 h1 c0 c1 variance sn sigma sub prior out H.
  assert (EG : o_grid out = map (meshgrid_xy [g0; g1] [h0; h1] [c0; c1]) (seq 0 2)) by exact (o_grid_eq blur bicg splu argsort P Nrm [g0; g1] [h0; h1] [c0; c1] _ _ _ _ _ _ H). clear H.
  rewrite EG. cbn [seq map]. unfold meshgrid_xy. cbn [swap01 nth]. eexists _, _. split; [reflexivity|]. intros i j Hi Hj. cbv beta. cbn [swap01 nth pos]. rewrite !linsp_step by auto. split; auto. split; auto. ring.
Qed.
Print Assumptions C78_grid_order_2d.
(** in space neither reading order matches: entry (1, 0, 0) of the coordinate arrays is the node of mean entry 8, not of entry 64 (row by row) or 1 (column by column) *)
Theorem C78_grid_order_3d_refuted : forall blur bicg splu argsort P Nrm h0 h1 h2 c0 c1 c2 variance sn sigma sub prior out, 0 < h1 ->
  stochastic_psr blur bicg splu argsort 3 3 P Nrm (Some [8; 8; 8]%Z) (Some [h0; h1; h2]) (Some [c0; c1; c2]) variance sn sigma sub prior = Ok out ->
  exists X Y Z, o_grid out = [([8; 8; 8]%Z, X); ([8; 8; 8]%Z, Y); ([8; 8; 8]%Z, Z)] /\ [X [1; 0; 0]%Z; Y [1; 0; 0]%Z; Z [1; 0; 0]%Z] = node [c0; c1; c2] [h0; h1; h2] [0; 1; 0]%Z /\ pos [8; 8; 8]%Z [0; 1; 0]%Z = 8%Z
  /\ forall idx, on_grid [8; 8; 8]%Z idx -> node [c0; c1; c2] [h0; h1; h2] idx = [X [1; 0; 0]%Z; Y [1; 0; 0]%Z; Z [1; 0; 0]%Z] -> 0 < h0 -> 0 < h2 -> pos [8; 8; 8]%Z idx <> (1 * 64 + 0 * 8 + 0)%Z /\ pos [8; 8; 8]%Z idx <> (1 + 0 * 8 + 0 * 64)%Z.
Proof.
  intros blur bicg splu argsort P Nrm h0 h1 h2 c0 c1 c2 variance sn sigma sub prior out P1 H.
  assert (EG : o_grid out = map (meshgrid_xy [8; 8; 8]%Z [h0; h1; h2] [c0; c1; c2]) (seq 0 3)) by exact (o_grid_eq blur bicg splu argsort P Nrm [8; 8; 8]%Z [h0; h1; h2] [c0; c1; c2] _ _ _ _ _ _ H). clear H.
  rewrite EG. cbn [seq map]. unfold meshgrid_xy. cbn [swap01 nth]. eexists _, _, _. split; [reflexivity|]. cbv beta. cbn [swap01 nth node]. rewrite !linsp_step by lia. split; [reflexivity|]. split; [reflexivity|].
  intros idx Gi E P0 P2. inversion Gi as [|? x ? ? Rx Gi1]; subst; inversion Gi1 as [|? y ? ? Ry Gi2]; subst; inversion Gi2 as [|? z ? ? Rz Gi3]; subst; inversion Gi3; subst. cbn [node] in E. injection E as E0 E1 E2.
  assert (X0 : IZR x = 0) by nra. assert (X1 : IZR y = 1) by nra. assert (X2 : IZR z = 0) by nra. apply eq_IZR in X0, X1, X2. subst. cbn. lia.
Qed.
Print Assumptions C78_grid_order_3d_refuted.
