(** C46, C47 *)
From Coq Require Import Reals Lra Lia ZArith List Bool.
From Verif Require Import NumpyModel PyExn Vec LoopsModel LoopsProofs SubdivModel AabbModel AabbProofs SwarmModel.
Import ListNotations.
Open Scope R_scope.

(** *** C46 *)
Definition in_bounds (lb ub x : vec) : Prop := length x = length lb /\ forall j, (j < length lb)%nat -> nth j lb 0 <= nth j x 0 <= nth j ub 0.

Section Swarm.
  Variable cpp : bool. Variable topo : topology. Variable fn : vec -> R. Variable lb ub : vec. Variable momentum phi : R.
  Hypothesis LU : length ub = length lb.
  Hypothesis BU : forall j, (j < length lb)%nat -> nth j lb 0 <= nth j ub 0.
  Let n := length lb.

  Lemma clamp_in x : length x = n -> in_bounds lb ub (clamp lb ub x).
  Proof.
    intros L. unfold clamp. unfold n in L. split; [rewrite !map2_length; auto; rewrite map2_length; lia|]. intros j J.
    rewrite map2_nth; [|rewrite map2_length; lia|rewrite map2_length; lia]. rewrite map2_nth by lia. pose proof (BU j J). unfold Rmin, Rmax. repeat destruct Rle_dec; lra.
  Qed.
  Lemma first_best_ok xs : forall cx cf, cf = fn cx -> let b := first_best fn cx cf xs in
    snd b = fn (fst b) /\ snd b <= cf /\ (In (fst b) xs \/ fst b = cx) /\ forall x, In x xs -> snd b <= fn x.
  Proof.
    induction xs as [|x r IH]; intros cx cf E; cbn zeta in *; cbn [first_best]; [cbn; repeat split; auto; [lra|tauto]|].
    destruct (Rlt_dec (fn x) cf) as [L|L].
    - destruct (IH x (fn x) eq_refl) as (A & B & C & D). split; auto. split; [lra|]. split; [left; destruct C as [C|C]; [now right|left; auto]|].
      intros y [ <- |I]; auto.
    - destruct (IH cx cf E) as (A & B & C & D). split; auto. split; [lra|]. split; [destruct C; [left; now right|now right]|].
      intros y [ <- |I]; auto. lra.
  Qed.
  Definition swarm_inv (m : nat) (s : swarm) : Prop :=
    length (sx s) = m /\ length (sv s) = m /\ length (sbx s) = m /\ length (sbf s) = m /\
    Forall (in_bounds lb ub) (sx s) /\ Forall (fun v => length v = n) (sv s) /\ Forall (in_bounds lb ub) (sbx s) /\
    (forall f, In f (sbf s) -> scf s <= f) /\ scf s = fn (scx s) /\ In (scx s) (str s) /\
    Forall (in_bounds lb ub) (str s) /\ (forall y, In y (str s) -> scf s <= fn y).
  Lemma set_nth_Forall {A} (P : A -> Prop) l k x : Forall P l -> P x -> Forall P (set_nth l k x).
  Proof. revert k. induction l; intros k F Px; destruct k; cbn; auto; inversion F; subst; constructor; auto. Qed.
  Lemma set_nth_In {A} (l : list A) k x y : In y (set_nth l k x) -> y = x \/ In y l.
  Proof. revert k. induction l; intros k; destruct k; cbn; auto; intros [ <- |I]; auto. destruct (IHl _ I); auto. Qed.
  Lemma neighbor_ok m s i : swarm_inv m s -> (i < m)%nat -> (topo <> OtherTopology \/ cpp = true) -> exists nb, best_neighbor cpp topo s i = Ok nb /\ length nb = n.
  Proof.
    intros (A & B & C & D & E & F & G & _ & _ & I & J & _) L T. unfold best_neighbor.
    assert (Q : length (scx s) = n) by (eapply Forall_forall in J; [apply J|exact I]).
    destruct topo.
    - eauto.
    - unfold ring_index. rewrite C.
      assert (H1 : ((i + m - 1) mod m < m)%nat) by (apply Nat.mod_upper_bound; lia). assert (H2 : ((i + 1) mod m < m)%nat) by (apply Nat.mod_upper_bound; lia).
      rewrite (nth_error_nth' _ 0 (n := ((i + m - 1) mod m)%nat)), (nth_error_nth' _ 0 (n := i)), (nth_error_nth' _ 0 (n := ((i + 1) mod m)%nat)) by lia. cbn [lift bind].
      assert (K : forall k, (k < m)%nat -> exists nb, lift IndexError (nth_error (sbx s) k) = Ok nb /\ length nb = n).
      { intros k HK. destruct (nth_error (sbx s) k) as [w|] eqn:N; [|apply nth_error_None in N; lia]. exists w. split; auto. eapply Forall_forall in G; [apply G|eapply nth_error_In; eauto]. }
      destruct cpp.
      + destruct (Rlt_dec (nth ((i + m - 1) mod m) (sbf s) 0) (nth i (sbf s) 0)); cbn [bind]; (destruct Rlt_dec; apply K; auto).
      + destruct (Rlt_dec (nth i (sbf s) 0) (nth ((i + m - 1) mod m) (sbf s) 0)); cbn [bind]; (destruct Rlt_dec; apply K; auto).
    - destruct cpp; [eauto|]. destruct T; congruence.
  Qed.
  Lemma step_ok m s i rp rg : swarm_inv m s -> (i < m)%nat -> (topo <> OtherTopology \/ cpp = true) ->
    exists s', swarm_step cpp topo fn lb ub momentum phi s i rp rg = Ok s' /\ swarm_inv m s' /\ length (str s') = S (length (str s)) /\ scf s' <= scf s.
  Proof.
    intros INV L T. destruct (neighbor_ok m s i INV L T) as (nb & NB & LN). pose proof INV as (A & B & C & D & E & F & G & H & I & J & K & M).
    unfold swarm_step. rewrite NB. cbn [bind].
    destruct (nth_error (sv s) i) as [v|] eqn:Nv; [|apply nth_error_None in Nv; lia]. destruct (nth_error (sx s) i) as [x|] eqn:Nx; [|apply nth_error_None in Nx; lia].
    destruct (nth_error (sbx s) i) as [bx|] eqn:Nb; [|apply nth_error_None in Nb; lia]. destruct (nth_error (sbf s) i) as [bf|] eqn:Nf; [|apply nth_error_None in Nf; lia].
    cbn [lift bind].
    assert (Lv : length v = n) by (eapply (proj1 (Forall_forall _ _) F); eapply nth_error_In; eauto).
    assert (Lx : length x = n) by (eapply (proj1 (Forall_forall _ _) E); eapply nth_error_In; eauto).
    assert (Lbx : length bx = n) by (eapply (proj1 (Forall_forall _ _) G); eapply nth_error_In; eauto).
    set (v' := new_velocity momentum phi rp rg v x bx nb).
    assert (Lv' : length v' = n).
    { unfold v', new_velocity. rewrite !map2_length; rewrite ?map_length; try rewrite !map2_length; rewrite ?map_length; auto; rewrite ?map2_length; lia. }
    assert (CL : in_bounds lb ub (clamp lb ub (map2 Rplus x v'))) by (apply clamp_in; rewrite map2_length; lia).
    set (x' := clamp lb ub (map2 Rplus x v')) in *. pose proof (H bf (nth_error_In _ _ Nf)) as HB.
    eexists. split; [reflexivity|]. destruct (Rlt_dec (fn x') bf) as [L1|L1]; [destruct (Rlt_dec (fn x') (scf s)) as [L2|L2]|]; unfold swarm_inv; cbn [sx sv sbx sbf scx scf str];
      rewrite ?set_nth_length; (split; [split; [exact A|split; [exact B|split; [exact C|split; [exact D|]]]]|split; [reflexivity|lra]]);
      (split; [apply set_nth_Forall; auto|]); (split; [apply set_nth_Forall; auto|]).
    - split; [apply set_nth_Forall; auto|]. split; [intros f If; apply set_nth_In in If; destruct If as [ -> |If]; [lra|apply H in If; lra]|].
      split; [reflexivity|]. split; [now left|]. split; [constructor; auto|]. intros y [ <- |Iy]; [lra|apply M in Iy; lra].
    - split; [apply set_nth_Forall; auto|]. split; [intros f If; apply set_nth_In in If; destruct If as [ -> |If]; [lra|apply H in If; lra]|].
      split; [exact I|]. split; [now right|]. split; [constructor; auto|]. intros y [ <- |Iy]; [lra|apply M in Iy; lra].
    - split; [exact G|]. split; [exact H|]. split; [exact I|]. split; [now right|]. split; [constructor; auto|]. intros y [ <- |Iy]; [lra|apply M in Iy; lra].
  Qed.
  Lemma sweep_ok m draws is : (topo <> OtherTopology \/ cpp = true) -> (forall i, In i is -> (i < m)%nat) -> forall s, swarm_inv m s ->
    exists s', sweep cpp topo fn lb ub momentum phi draws is s = Ok s' /\ swarm_inv m s' /\ length (str s') = (length is + length (str s))%nat /\ scf s' <= scf s.
  Proof.
    intros T. induction is as [|i r IH]; intros IS s INV; [exists s; split; [reflexivity|]; split; [exact INV|]; split; [reflexivity|lra]|].
    cbn [sweep]. destruct (step_ok m s i (fst (draws i)) (snd (draws i)) INV (IS i (or_introl eq_refl)) T) as (s1 & E & INV1 & L1 & D1). rewrite E. cbn [bind].
    destruct (IH (fun j J => IS j (or_intror J)) s1 INV1) as (s2 & E2 & INV2 & L2 & D2). exists s2. rewrite E2. split; [reflexivity|]; split; [exact INV2|]; split; [cbn [length]; lia|lra].
  Qed.
  Lemma iterate_ok m draws its : (topo <> OtherTopology \/ cpp = true) -> forall s, swarm_inv m s ->
    exists s', iterate cpp topo fn lb ub momentum phi draws its m s = Ok s' /\ swarm_inv m s' /\ length (str s') = (length its * m + length (str s))%nat /\ scf s' <= scf s.
  Proof.
    intros T. induction its as [|i r IH]; intros s INV; [exists s; split; [reflexivity|]; split; [exact INV|]; split; [reflexivity|lra]|].
    cbn [iterate]. destruct (sweep_ok m (draws i) (seq 0 m) T) with (s := s) as (s1 & E & INV1 & L1 & D1); auto; [intros j J; apply in_seq in J; lia|]. rewrite E. cbn [bind].
    destruct (IH s1 INV1) as (s2 & E2 & INV2 & L2 & D2). exists s2. rewrite E2. rewrite seq_length in L1. split; [reflexivity|]; split; [exact INV2|]; split; [cbn [length]; lia|lra].
  Qed.
  Lemma init_inv x0 v0 : x0 <> [] -> length v0 = length x0 -> Forall (in_bounds lb ub) x0 -> Forall (fun v => length v = n) v0 ->
    exists s, swarm_init fn x0 v0 = Ok s /\ swarm_inv (length x0) s /\ str s = rev x0.
  Proof.
    destruct x0 as [|x r]; [congruence|]. intros _ LV FX FV. cbn [swarm_init]. destruct (first_best_ok r x (fn x) eq_refl) as (A & B & C & D).
    eexists. split; [reflexivity|]. split; [|reflexivity]. unfold swarm_inv. cbn [sx sv sbx sbf scx scf str]. rewrite map_length.
    assert (AL : forall y, In y (x :: r) -> snd (first_best fn x (fn x) r) <= fn y) by (intros y [ <- |I]; auto).
    repeat (split; [solve [auto]|]). split; [intros f I; apply in_map_iff in I; destruct I as (y & <- & I); auto|]. split; [exact A|].
    split; [rewrite <- in_rev; destruct C as [C|C]; [now right|left; auto]|]. split; [apply Forall_rev; auto|]. intros y I. rewrite <- in_rev in I. auto.
  Qed.
End Swarm.

Theorem C46_best : forall cpp topo fn lb ub momentum phi x0 v0 max_iter draws,
  length ub = length lb -> (forall j, (j < length lb)%nat -> nth j lb 0 <= nth j ub 0) ->
  (topo = Full \/ topo = Ring) -> x0 <> [] -> length v0 = length x0 -> Forall (in_bounds lb ub) x0 -> Forall (fun v => length v = length lb) v0 ->
  exists x f evaluated, particle_swarm cpp topo fn lb ub momentum phi x0 v0 max_iter draws = Ok (x, f, evaluated) /\
    in_bounds lb ub x /\ f = fn x /\ In x evaluated /\ (forall y, In y evaluated -> in_bounds lb ub y /\ f <= fn y) /\
    (forall y, In y x0 -> In y evaluated) /\ length evaluated = (length x0 * (1 + max_iter))%nat.
Proof.
  intros cpp topo fn lb ub mo phi x0 v0 mi draws LU BU T NE LV FX FV.
  destruct (init_inv fn lb ub x0 v0 NE LV FX FV) as (s & E & INV & ST).
  assert (T' : topo <> OtherTopology \/ cpp = true) by (left; destruct T; congruence).
  destruct (iterate_ok cpp topo fn lb ub mo phi LU BU (length x0) draws (seq 0 mi) T' s INV) as (s' & E' & INV' & L & _).
  assert (KEEP : forall y, In y (str s) -> In y (str s')).
  { clear - E'. revert s E'. generalize (seq 0 mi). intros its. revert s'. induction its as [|k r IH]; intros s' s E'; cbn [iterate] in E'; [injection E' as <-; auto|].
    destruct (sweep cpp topo fn lb ub mo phi (draws k) (seq 0 (length x0)) s) as [s1|] eqn:E1; [|discriminate]. cbn [bind] in E'. intros y I. apply (IH _ _ E'). clear - E1 I.
    revert s E1 I. generalize (seq 0 (length x0)). intros is. induction is as [|i r IH]; intros s E1 I; cbn [sweep] in E1; [injection E1 as <-; auto|].
    destruct (swarm_step cpp topo fn lb ub mo phi s i (fst (draws k i)) (snd (draws k i))) as [s2|] eqn:E2; [|discriminate]. cbn [bind] in E1. apply (IH _ E1).
    unfold swarm_step in E2. destruct (best_neighbor cpp topo s i); [|discriminate]. cbn [bind] in E2.
    destruct (nth_error (sv s) i); [|discriminate]. destruct (nth_error (sx s) i); [|discriminate]. destruct (nth_error (sbx s) i); [|discriminate]. destruct (nth_error (sbf s) i); [|discriminate].
    cbn [lift bind] in E2. injection E2 as <-. now right. }
  pose proof INV' as (_ & _ & _ & _ & _ & _ & _ & _ & F & IN & FB & ALL).
  exists (scx s'), (scf s'), (str s'). unfold particle_swarm. rewrite E. cbn [bind]. rewrite E'. cbn [bind]. split; [reflexivity|].
  split; [exact (proj1 (Forall_forall _ _) FB _ IN)|]. split; [exact F|]. split; [exact IN|]. split; [intros y I; split; [exact (proj1 (Forall_forall _ _) FB _ I)|auto]|].
  split; [intros y I; apply KEEP; rewrite ST, <- in_rev; exact I|]. rewrite L, ST, rev_length, seq_length. lia.
Qed.
Print Assumptions C46_best.
(** more iterations never give a worse value *)
Theorem C46_monotone : forall cpp topo fn lb ub momentum phi x0 v0 max_iter extra draws x f t x' f' t',
  length ub = length lb -> (forall j, (j < length lb)%nat -> nth j lb 0 <= nth j ub 0) ->
  (topo = Full \/ topo = Ring) -> x0 <> [] -> length v0 = length x0 -> Forall (in_bounds lb ub) x0 -> Forall (fun v => length v = length lb) v0 ->
  particle_swarm cpp topo fn lb ub momentum phi x0 v0 max_iter draws = Ok (x, f, t) ->
  particle_swarm cpp topo fn lb ub momentum phi x0 v0 (max_iter + extra) draws = Ok (x', f', t') -> f' <= f.
Proof.
  intros cpp topo fn lb ub mo phi x0 v0 mi ex draws x f t x' f' t' LU BU T NE LV FX FV P1 P2.
  destruct (init_inv fn lb ub x0 v0 NE LV FX FV) as (s & E & INV & ST).
  assert (T' : topo <> OtherTopology \/ cpp = true) by (left; destruct T; congruence).
  unfold particle_swarm in P1, P2. rewrite E in P1, P2. cbn [bind] in P1, P2.
  destruct (iterate_ok cpp topo fn lb ub mo phi LU BU (length x0) draws (seq 0 mi) T' s INV) as (s1 & E1 & INV1 & _ & _). rewrite E1 in P1. cbn [bind] in P1. injection P1 as <- <- <-.
  assert (AP : forall a b s, iterate cpp topo fn lb ub mo phi draws (a ++ b) (length x0) s = bind (iterate cpp topo fn lb ub mo phi draws a (length x0) s) (iterate cpp topo fn lb ub mo phi draws b (length x0))).
  { induction a as [|k a IH]; intros b s'; cbn [app iterate]; [reflexivity|]. destruct (sweep _ _ _ _ _ _ _ _ _ s'); cbn [bind]; auto. }
  rewrite seq_app, AP, E1 in P2. cbn [bind] in P2.
  destruct (iterate_ok cpp topo fn lb ub mo phi LU BU (length x0) draws (seq (0 + mi) ex) T' s1 INV1) as (s2 & E2 & _ & _ & D). rewrite E2 in P2. cbn [bind] in P2. injection P2 as <- <- <-. exact D.
Qed.
Print Assumptions C46_monotone.
(** an undocumented topology: the Python path raises at its first update, the C++ path treats it as 'full' *)
Theorem C46_other_topology : forall fn lb ub momentum phi x r v0 k draws,
  particle_swarm false OtherTopology fn lb ub momentum phi (x :: r) v0 (S k) draws = Err UnboundLocalError /\
  particle_swarm true OtherTopology fn lb ub momentum phi (x :: r) v0 (S k) draws = particle_swarm true Full fn lb ub momentum phi (x :: r) v0 (S k) draws.
Proof.
  intros. split; reflexivity.
Qed.
Print Assumptions C46_other_topology.
Example C46_nonvacuous : let lb := [0;0] in let ub := [1;2] in Forall (in_bounds lb ub) [[0;1]; [1;2]] /\ forall j, (j < 2)%nat -> nth j lb 0 <= nth j ub 0.
Proof.
  cbv zeta. split; [repeat apply Forall_cons; try apply Forall_nil; (split; [reflexivity|])|]; intros [|[|j]] J; cbn in *; try lra; lia.
Qed.

(** *** C47 *)
Section MH.
  Variable distr : vec -> R. Variable next_sample : nat -> vec -> vec. Variable draw : nat -> R.
  Hypothesis DR : forall k, 0 <= draw k < 1.
  (** y is reached from x by a proposal that was accepted *)
  Definition accepted_from (x y : vec) : Prop := exists k, y = next_sample k x /\ draw k < distr y / distr x.
  Fixpoint chain (x : vec) (l : list vec) : Prop := match l with [] => True | y :: r => accepted_from x y /\ chain y r end.
  Lemma mh_loop_ok fuel : forall k m x0 f0 Ss Fs S F, f0 = distr x0 -> 0 < f0 -> mh_loop distr next_sample draw fuel k m x0 f0 Ss Fs = Ok (S, F) ->
    exists T, S = rev Ss ++ T /\ F = rev Fs ++ map distr T /\ length T = m /\ chain x0 T /\ Forall (fun x => 0 < distr x) T.
  Proof.
    induction fuel as [|fuel IH]; intros k [|m] x0 f0 Ss Fs S F E P H; cbn [mh_loop] in H; try discriminate; try (injection H as <- <-; exists []; rewrite !app_nil_r; repeat split; auto).
    cbv zeta in H. destruct (Rlt_dec (draw k) (distr (next_sample k x0) / f0)) as [L|L].
    - assert (P1 : 0 < distr (next_sample k x0)).
      { destruct (DR k) as [D0 _]. assert (0 < distr (next_sample k x0) / f0) by lra. replace (distr (next_sample k x0)) with (distr (next_sample k x0) / f0 * f0) by (field; lra). now apply Rmult_lt_0_compat. }
      destruct (IH _ _ _ _ _ _ _ _ eq_refl P1 H) as (T & E1 & E2 & E3 & E4 & E5). exists (next_sample k x0 :: T). cbn [rev] in E1, E2. rewrite <- app_assoc in E1, E2.
      split; [exact E1|]. split; [exact E2|]. split; [cbn; lia|]. split; [split; [exists k; split; [reflexivity|rewrite <- E; exact L]|exact E4]|constructor; auto].
    - exact (IH _ _ _ _ _ _ _ _ E P H).
  Qed.
  Lemma chain_nth x0 l : chain x0 l -> forall i, (i < length l)%nat -> accepted_from (nth i (x0 :: l) []) (nth (S i) (x0 :: l) []).
  Proof. revert x0. induction l as [|y l IH]; intros x0 C i L; cbn in L; [lia|]. destruct C as [C1 C2]. destruct i; [exact C1|]. apply (IH y C2 i). lia. Qed.
End MH.
Theorem C47_samples : forall distr next_sample draw fuel x0 num_samples S F, (forall k, 0 <= draw k < 1) -> 0 < distr x0 ->
  metropolis_hastings distr next_sample draw fuel x0 num_samples = Ok (S, F) ->
  length S = num_samples /\ length F = num_samples /\ nth 0 S [] = x0 /\
  (forall i, (0 < i < num_samples)%nat -> nth i F 0 = distr (nth i S [])) /\
  (forall i, (i + 1 < num_samples)%nat -> accepted_from distr next_sample draw (nth i S []) (nth (i + 1) S [])) /\
  (forall x, In x S -> 0 < distr x).
Proof.
  intros distr nx draw fuel x0 [|m] S F D P H; cbn [metropolis_hastings] in H; [discriminate|].
  destruct (mh_loop_ok distr nx draw D fuel 0 m x0 (distr x0) [x0] [0] S F eq_refl P H) as (T & -> & -> & L & C & G). cbn [rev app].
  split; [cbn; lia|]. split; [cbn; rewrite map_length; lia|]. split; [reflexivity|]. split; [|split].
  - intros [|i] I; [lia|]. cbn [nth]. rewrite (nth_indep _ 0 (distr [])) by (rewrite map_length; lia). apply map_nth.
  - intros i I. replace (i + 1)%nat with (Datatypes.S i) by lia. apply (chain_nth distr nx draw x0 T C). lia.
  - intros x [ <- |I]; auto. exact (proj1 (Forall_forall _ _) G _ I).
Qed.
Print Assumptions C47_samples.
(** the claim F[0] = unnorm_distr(S[0]) is false for every run: F[0] is the 0 it was allocated with *)
Theorem C47_first_value_refuted : forall distr next_sample draw fuel x0 num_samples S F, 0 < distr x0 ->
  metropolis_hastings distr next_sample draw fuel x0 num_samples = Ok (S, F) -> nth 0 F 0 = 0 /\ nth 0 F 0 <> distr (nth 0 S []).
Proof.
  intros distr nx draw fuel x0 [|m] S F P H; cbn [metropolis_hastings] in H; [discriminate|].
  assert (K : forall fuel k m x f Ss Fs, mh_loop distr nx draw fuel k m x f (Ss ++ [x0]) (Fs ++ [0]) = Ok (S, F) -> nth 0 F 0 = 0 /\ nth 0 S [] = x0).
  { clear. induction fuel as [|fuel IH]; intros k [|m] x f Ss Fs H; cbn [mh_loop] in H; try discriminate; try (injection H as <- <-; rewrite !rev_app_distr; split; reflexivity).
    cbv zeta in H. destruct Rlt_dec; [apply (IH _ _ _ _ (_ :: Ss) (_ :: Fs) H)|apply (IH _ _ _ _ Ss Fs H)]. }
  destruct (K _ _ _ _ _ [] [] H) as (A & B). split; [exact A|]. rewrite A, B. lra.
Qed.
Print Assumptions C47_first_value_refuted.
(** the loop ends as soon as enough proposals have been accepted *)
Theorem C47_terminates : forall distr next_sample draw x0 m, (forall k, 0 <= draw k < 1) -> 0 < distr x0 -> (forall k x, distr x <= distr (next_sample k x)) ->
  exists S F, metropolis_hastings distr next_sample draw m x0 (m + 1) = Ok (S, F).
Proof.
  intros distr nx draw x0 m D P U. rewrite Nat.add_1_r. cbn [metropolis_hastings].
  assert (K : forall m k x Ss Fs, 0 < distr x -> exists S F, mh_loop distr nx draw m k m x (distr x) Ss Fs = Ok (S, F)).
  { clear P. intros m1. induction m1 as [|m0 IH]; intros k x Ss Fs P; cbn [mh_loop]; [eauto|]. cbv zeta. destruct (Rlt_dec (draw k) (distr (nx k x) / distr x)) as [L|L].
    - apply IH. pose proof (U k x). lra.
    - exfalso. apply L. pose proof (U k x). destruct (D k). assert (1 <= distr (nx k x) / distr x); [|lra]. apply (Rmult_le_reg_r (distr x)); [lra|]. unfold Rdiv. rewrite Rmult_assoc, Rinv_l; lra. }
  apply K. exact P.
Qed.
Print Assumptions C47_terminates.
Example C47_nonvacuous : exists S F, metropolis_hastings (fun _ => 1) (fun _ x => map (Rplus 1) x) (fun _ => 0) 3 [0] 3 = Ok (S, F) /\ length S = 3%nat.
Proof.
  assert (X := C47_terminates (fun _ => 1) (fun _ x => map (Rplus 1) x) (fun _ => 0) [0] 2 ltac:(intros; lra) ltac:(lra) ltac:(intros; lra)).
  unfold metropolis_hastings, mh_loop. cbv zeta. destruct (Rlt_dec 0 (1 / 1)) as [L|L]; [|exfalso; apply L; lra]. eauto.
Qed.
