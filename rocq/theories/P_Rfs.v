(** C81: reach_for_the_spheres (the flow loop) *)
From Coq Require Import List Arith ZArith Lia Bool Reals Lra.
From Verif Require Import PyExn NumpyModel TopoModel MatModel MatProofs Subdiv3Proofs SolveModel SolveProofs P_Solve P_ElDyn BiharmProofs Psr3Proofs RfsModel RfsProofs.
Import ListNotations.
Open Scope R_scope.

(** -- specification -- *)
(** a contact: the point of the mesh nearest to a sample, written in barycentric coordinates of a simplex *)
Definition contact_point (V : list row) (t : touch) (c : nat) : R := sumf (fun p => snd p * at2 V (fst p) c) (combine (tf t) (tb t)).
(** the total squared distance between the contact points and their targets (clamped samples do not count) *)
Definition misfit (dim : nat) (ts : list touch) (V : list row) : R :=
  sumf (fun t => sumn dim (fun c => (tw t * (contact_point V t c - nth c (ttarget t) 0)) ^ 2)) ts.
Definition contacts_in_range (n : nat) (ts : list touch) : Prop := Forall (fun t => forall i, In i (tf t) -> (i < n)%nat) ts.
Definition positive_step (o : opts) : Prop := if linesearch o then 0 < min_t o /\ 0 < max_t o else 0 < dt o.
Definition nonneg_mass (e : env) V F dim : Prop := forall i, (i < List.length V)%nat -> 0 <= mass e V F dim i.
Definition positive_mass (e : env) V F dim : Prop := forall i, (i < List.length V)%nat -> 0 < mass e V F dim i.
Definition all_rows (dim : nat) (V : list row) : Prop := Forall (fun v => List.length v = dim) V.

(** -- proofs -- *)
Lemma nth_ms {A} (d : A) (f : nat -> A) k i : (i < k)%nat -> nth i (map f (seq 0 k)) d = f i.
Proof. intros H. rewrite (nth_indep _ d (f 0%nat)) by (rewrite map_length, seq_length; auto). rewrite (map_nth f), seq_nth by auto. auto. Qed.
Lemma at2_rows n dim X i c : (i < n)%nat -> (c < dim)%nat -> at2 (to_rows n dim X) i c = X i c.
Proof.
  intros Hi Hc. unfold at2, to_rows. rewrite nth_ms by auto. rewrite nth_ms by auto. reflexivity.
Qed.
Lemma to_rows_length n dim X : List.length (to_rows n dim X) = n.
Proof. unfold to_rows. rewrite map_length, seq_length. reflexivity. Qed.
Lemma to_rows_dim n dim X : all_rows dim (to_rows n dim X).
Proof. unfold all_rows, to_rows. apply Forall_forall. intros v I. apply in_map_iff in I. destruct I as (i & <- & _). rewrite map_length, seq_length. reflexivity. Qed.
Lemma to_rows_self dim V : all_rows dim V -> to_rows (List.length V) dim (at2 V) = V.
Proof.
  intros H. apply nth_ext with (d := []) (d' := []); [apply to_rows_length|]. rewrite to_rows_length. intros i Hi.
  unfold to_rows. rewrite nth_ms by auto.
  assert (L : List.length (nth i V []) = dim) by (apply (proj1 (Forall_forall _ _) H); apply nth_In; auto).
  apply nth_ext with (d := 0) (d' := 0); [rewrite map_length, seq_length; auto|]. rewrite map_length, seq_length. intros c Hc.
  rewrite nth_ms by auto. reflexivity.
Qed.
Lemma to_rows_ext n dim X Y : (forall i c, (i < n)%nat -> (c < dim)%nat -> X i c = Y i c) -> to_rows n dim X = to_rows n dim Y.
Proof. intros H. unfold to_rows. apply map_ext_in. intros i Hi. apply map_ext_in. intros c Hc. apply in_seq in Hi, Hc. apply H; lia. Qed.

(** what the solve produces, column by column *)
Lemma solve_cases e o V F dim ts V1 : solver_ok (splu e) -> solve_step e o V F dim ts = Ok V1 ->
  let n := List.length V in let t := timestep o n dim ts (at2 V) in
  exists X (fixed : nat -> Prop), V1 = to_rows n dim X /\ (forall i, fixed i \/ ~ fixed i)
    /\ (fix_boundary o = false -> forall i, ~ fixed i)
    /\ (fix_boundary o = true -> exists bd, bdry F = Ok bd /\ (forall i, fixed i <-> In (Z.of_nat i) bd) /\ forall z, In z bd -> (0 <= z)%Z)
    /\ forall c, (c < dim)%nat -> (forall i, (i < n)%nat -> fixed i -> X i c = at2 V i c)
       /\ (forall i, (i < n)%nat -> ~ fixed i -> sumn n (fun j => Qmat e V F dim ts t i j * X j c) = rhs e V F dim ts t i c).
Proof.
  intros SO H n t. unfold solve_step in H. fold n in H. fold t in H. destruct (fix_boundary o) eqn:FB.
  - destruct (bdry F) as [bd|] eqn:EB; cbn [bind] in H; [|discriminate].
    destruct (fixed_dof_solve _ _ _ _ _ _ _ _) as [[p X]|] eqn:EF; cbn [bind] in H; [|discriminate]. injection H as <-.
    unfold fixed_dof_solve in EF. destruct (fixed_dof_solve_precompute (splu e) n n (Qmat e V F dim ts t) (Some bd)) as [P|] eqn:EP; cbn [bind] in EF; [|discriminate].
    assert (BP : forall z, In z bd -> (0 <= z)%Z).
    { unfold fixed_dof_solve_precompute in EP. rewrite Nat.eqb_refl in EP. cbn [negb] in EP. destruct (Nat.eqb n 0); [discriminate|].
      unfold check_k in EP. destruct bd as [|b0 bd]; [discriminate|]. destruct (forallb _ (b0 :: bd)) eqn:EA; cbn [andb] in EP; [|discriminate].
      intros z I. rewrite forallb_forall in EA. specialize (EA z I). apply andb_prop in EA. destruct EA as (EA & _). apply Z.leb_le in EA. auto. }
    exists X, (fun i => In (Z.of_nat i) bd). split; [reflexivity|]. split; [intros i; destruct (in_dec Z.eq_dec (Z.of_nat i) bd); auto|]. split; [discriminate|]. split.
    { intros _. exists bd. split; [reflexivity|]. split; [tauto|exact BP]. }
    intros c Hc. destruct (C43_fixed_dof (splu e) (garbage e) n n _ (Some bd) P SO EP _ _ p X EF c) as (K1 & K2). split.
    + intros i Hi I. unfold honours_k in K1. cbn [fixed_list value] in K1. apply In_nth_error in I. destruct I as (r & Er). specialize (K1 r (Z.of_nat i) Er). rewrite Nat2Z.id in K1. rewrite K1.
      rewrite (nth_error_nth bd r 0%Z Er), Nat2Z.id. reflexivity.
    + intros i Hi NI. apply (K2 i Hi NI).
  - destruct (splu e n (Qmat e V F dim ts t)) as [s|] eqn:ES; cbn [bind] in H; [|discriminate]. injection H as <-.
    exists (fun i c => s (fun i => rhs e V F dim ts t i c) i), (fun _ => False). split; [reflexivity|]. split; [auto|]. split; [auto|]. split; [discriminate|].
    intros c Hc. split; [intros i _ []|]. intros i Hi _. apply (SO n _ s ES (fun i => rhs e V F dim ts t i c) i Hi).
Qed.

Lemma misfit_residual n dim ts V : contacts_in_range n ts ->
  misfit dim ts V = sumn dim (fun c => sumn (List.length ts) (fun r => (sumn n (fun j => Amat ts r j * at2 V j c) - cmat ts r c) ^ 2)).
Proof.
  intros H. unfold misfit. rewrite (sumf_nth _ no_touch). rewrite sumn_swap. apply sumn_ext. intros c _. apply sumn_ext. intros r Hr. f_equal.
  unfold Amat, cmat, c_entry. rewrite (row_blend n _ (fun j => at2 V j c)); [unfold contact_point; ring|].
  apply (proj1 (Forall_forall _ _) H). apply nth_In; auto.
Qed.
Lemma timestep_pos o n dim ts V : positive_step o -> 0 < timestep o n dim ts V.
Proof.
  unfold positive_step, timestep. destruct (linesearch o); [|auto]. intros (H1 & H2). cbv zeta. set (q := if Req_EM_T _ _ then _ else _).
  apply Rmin_glb_lt; auto. pose proof (Rmax_r q (min_t o)). lra.
Qed.
Lemma sum_le n f g : (forall i, (i < n)%nat -> f i <= g i) -> sumn n f <= sumn n g.
Proof. intros H. unfold sumn. apply sumf_le. intros i I. apply in_seq in I. apply H. lia. Qed.
Lemma inv_nonneg m : 0 <= 1 / INR m.
Proof. destruct m; [cbn; unfold Rdiv; rewrite Rinv_0; lra|]. apply Rlt_le. unfold Rdiv. rewrite Rmult_1_l. apply Rinv_0_lt_compat. apply lt_0_INR. lia. Qed.

(** ** every implicit step, with or without a fixed boundary, keeps the number of vertices and never increases the misfit; if the masses are positive it decreases strictly unless the mesh stands still *)
Theorem C81_descent : forall e o V F dim ts V1, solver_ok (splu e) -> positive_step o -> nonneg_mass e V F dim -> contacts_in_range (List.length V) ts -> all_rows dim V ->
  solve_step e o V F dim ts = Ok V1 ->
  List.length V1 = List.length V /\ all_rows dim V1 /\ misfit dim ts V1 <= misfit dim ts V
  /\ (positive_mass e V F dim -> (0 < List.length ts)%nat -> V1 = V \/ misfit dim ts V1 < misfit dim ts V).
Proof.
  intros e o V F dim ts V1 SO PS NM RG AR H. destruct (solve_cases e o V F dim ts V1 SO H) as (X & fixed & -> & DEC & _ & _ & HC).
  set (n := List.length V) in *. set (t := timestep o n dim ts (at2 V)) in *. assert (T : 0 < t) by (apply timestep_pos; auto). pose proof (inv_nonneg (List.length ts)) as RP.
  assert (EQ : forall c, (c < dim)%nat -> forall i, (i < n)%nat -> ~ fixed i -> 
     sumn n (fun j => ((if Nat.eqb i j then mass e V F dim i else 0) + t * sumn (List.length ts) (fun r => Amat ts r i * (1 / INR (List.length ts) * Amat ts r j))) * X j c)
     = mass e V F dim i * at2 V i c + t * sumn (List.length ts) (fun r => Amat ts r i * (1 / INR (List.length ts) * cmat ts r c))).
  { intros c Hc i Hi NF. destruct (HC c Hc) as (_ & K). apply (K i Hi NF). }
  split; [apply to_rows_length|]. split; [apply to_rows_dim|].
  assert (MX : misfit dim ts (to_rows n dim X) = sumn dim (fun c => sumn (List.length ts) (fun r => (sumn n (fun j => Amat ts r j * X j c) - cmat ts r c) ^ 2))).
  { rewrite (misfit_residual n) by auto. apply sumn_ext. intros c Hc. apply sumn_ext. intros r Hr. f_equal. f_equal. apply sumn_ext. intros j Hj. rewrite at2_rows by auto. reflexivity. }
  rewrite MX, (misfit_residual n dim ts V RG).
  destruct (Nat.eq_dec (List.length ts) 0) as [Z0|NZ].
  { rewrite Z0. split; [apply Req_le; reflexivity|]. intros _ I. lia. }
  assert (R1 : 0 < 1 / INR (List.length ts)). { unfold Rdiv. rewrite Rmult_1_l. apply Rinv_0_lt_compat. apply lt_0_INR. lia. }
  set (rho := 1 / INR (List.length ts)) in *.
  assert (D : forall c, (c < dim)%nat -> sumn (List.length ts) (fun r => (sumn n (fun j => Amat ts r j * X j c) - cmat ts r c) ^ 2)
                       <= sumn (List.length ts) (fun r => (sumn n (fun j => Amat ts r j * at2 V j c) - cmat ts r c) ^ 2)).
  { intros c Hc. destruct (HC c Hc) as (K1 & _). apply Rmult_le_reg_l with rho; auto.
    apply (implicit_descent n (List.length ts) (mass e V F dim) (fun i => at2 V i c) (fun i => X i c) (Amat ts) (fun r => cmat ts r c) t rho fixed); auto. }
  split.
  - apply sum_le. exact D.
  - intros PM _.
    destruct (Rle_lt_or_eq_dec _ _ (sum_le dim _ _ (fun c Hc => D c Hc))) as [L|E]; [right; exact L|left].
    assert (DC : forall c, (c < dim)%nat -> sumn (List.length ts) (fun r => (sumn n (fun j => Amat ts r j * X j c) - cmat ts r c) ^ 2)
                       = sumn (List.length ts) (fun r => (sumn n (fun j => Amat ts r j * at2 V j c) - cmat ts r c) ^ 2)).
    { intros c Hc. pose proof (sumn_ge dim (fun c => sumn (List.length ts) (fun r => (sumn n (fun j => Amat ts r j * at2 V j c) - cmat ts r c) ^ 2)
          - sumn (List.length ts) (fun r => (sumn n (fun j => Amat ts r j * X j c) - cmat ts r c) ^ 2)) c) as G. rewrite sumn_minus in G.
      specialize (G ltac:(intros; pose proof (D i ltac:(auto)); lra) Hc). cbv beta in G. pose proof (D c Hc). lra. }
    transitivity (to_rows n dim (at2 V)); [|apply to_rows_self; auto]. apply to_rows_ext. intros i c Hi Hc. destruct (HC c Hc) as (K1 & _).
    pose proof (implicit_step n (List.length ts) (mass e V F dim) (fun i => at2 V i c) (fun i => X i c) (Amat ts) (fun r => cmat ts r c) t rho fixed ltac:(auto) K1 (EQ c Hc)) as ID.
    cbv beta in ID. rewrite (DC c Hc) in ID.
    assert (P2 : 0 <= t * rho * sumn (List.length ts) (fun r => sumn n (fun j => Amat ts r j * (at2 V j c - X j c)) ^ 2)) by (apply Rmult_le_pos; [apply Rmult_le_pos; lra|apply sumn_nonneg; intros; apply pow2_ge_0]).
    pose proof (sumn_ge n (fun i => mass e V F dim i * (at2 V i c - X i c) ^ 2) i ltac:(intros; apply Rmult_le_pos; [apply Rlt_le; auto|apply pow2_ge_0]) Hi) as G. cbv beta in G.
    assert (Q : mass e V F dim i * (at2 V i c - X i c) ^ 2 <= 0) by lra. pose proof (PM i Hi) as MP.
    assert (Q2 : (at2 V i c - X i c) ^ 2 <= 0). { apply Rmult_le_reg_l with (mass e V F dim i); auto. lra. }
    assert (at2 V i c - X i c = 0) by (apply Rsqr_0_uniq; unfold Rsqr; pose proof (pow2_ge_0 (at2 V i c - X i c)); lra). lra.
Qed.

(** ** fix_boundary: the vertices on the boundary (C07's boundary_vertices) do not move *)
Definition zt (t : nat * nat * nat) : Z * Z * Z := (Z.of_nat (fst (fst t)), Z.of_nat (snd (fst t)), Z.of_nat (snd t)).
Definition tri_rows (T : list (nat * nat * nat)) : list (list nat) := map (fun t => [fst (fst t); snd (fst t); snd t]) T.
Lemma bdry_tri T : bdry (tri_rows T) = lift AssertionError (boundary_vertices (map zt T)).
Proof.
  unfold bdry. match goal with |- bind ?x _ = _ => assert (E : x = Ok (map zt T)) end; [|rewrite E; reflexivity].
  induction T as [|[[a b] c] T IH]; [reflexivity|]. cbn [tri_rows map fold_right fst snd]. cbn [bind]. unfold tri_rows in IH. rewrite IH. reflexivity.
Qed.
Theorem C81_fixed_boundary : forall e o V T dim ts V1 bd, solver_ok (splu e) -> fix_boundary o = true -> all_rows dim V ->
  boundary_vertices (map zt T) = Some bd -> solve_step e o V (tri_rows T) dim ts = Ok V1 ->
  List.length V1 = List.length V /\ forall v, (v < List.length V)%nat -> In (Z.of_nat v) bd -> nth v V1 [] = nth v V [].
Proof.
  intros e o V T dim ts V1 bd SO FB AR EB H. destruct (solve_cases e o V _ dim ts V1 SO H) as (X & fixed & -> & DEC & _ & FX & HC).
  destruct (FX FB) as (bd' & EB' & IB & _). rewrite bdry_tri, EB in EB'. cbn [lift] in EB'. injection EB' as <-. split; [apply to_rows_length|].
  intros v Hv I. transitivity (nth v (to_rows (List.length V) dim (at2 V)) []); [|rewrite to_rows_self by auto; reflexivity]. unfold to_rows. rewrite !nth_ms by auto. apply map_ext_in. intros c Hc. apply in_seq in Hc.
  destruct (HC c ltac:(lia)) as (K & _). apply K; auto. apply IB. auto.
Qed.
(** a triangle mesh without boundary makes fix_boundary fail: np.min of an empty index array *)
Lemma step_raises e o dim st er : (Z.of_nat (its st) < max_iter o)%Z -> (forall ts, solve_step e o (sV st) (sF st) dim ts = Err er) -> iteration e o dim st = Err er.
Proof. intros L H. unfold iteration. destruct (Z.leb_spec (max_iter o) (Z.of_nat (its st))); [lia|]. destruct (draw e o st) as [ub sb]. cbv zeta. rewrite H. reflexivity. Qed.
Theorem C81_fix_boundary_closed_refuted : forall e o dim st T, fix_boundary o = true -> (Z.of_nat (its st) < max_iter o)%Z -> sF st = tri_rows T -> sV st <> [] ->
  boundary_vertices (map zt T) = Some [] -> iteration e o dim st = Err ValueError.
Proof.
  intros e o dim st T FB L EF NV EB. apply step_raises; auto. intros ts. unfold solve_step. rewrite FB, EF, bdry_tri, EB. cbn [lift bind List.length]. unfold fixed_dof_solve, fixed_dof_solve_precompute.
  rewrite Nat.eqb_refl. cbn [negb]. destruct (sV st); [congruence|]. reflexivity.
Qed.
(** in the plane fix_boundary always fails: the boundary helper needs triangles *)
Theorem C81_fix_boundary_2d_refuted : forall e o dim st a b F, fix_boundary o = true -> (Z.of_nat (its st) < max_iter o)%Z -> sF st = [a; b] :: F -> iteration e o dim st = Err AssertionError.
Proof. intros e o dim st a b F FB L EF. apply step_raises; auto. intros ts. unfold solve_step. rewrite FB, EF. reflexivity. Qed.
(** calling without sample points always raises, although the documentation promises sampling *)
Theorem C81_no_samples_refuted : forall fuel e o S V F dim h min_h, reach_for_the_spheres fuel e o None S V F dim h min_h = Err TypeError.
Proof. reflexivity. Qed.

(** ** one iteration: what happens to the mesh *)
Definition contacts (e : env) (o : opts) (V : list row) (F : list (list nat)) (us : list row) (ss : row) : list touch := map (fun p => correspond e o V F (fst p) (snd p)) (combine us ss).
Definition budget_left (o : opts) (st : state) : Prop := (Z.of_nat (its st) < max_iter o)%Z.
Theorem C81_iteration : forall e o dim st conv st', iteration e o dim st = Ok (conv, st') ->
  (~ budget_left o st /\ conv = true /\ st' = st) \/
  (budget_left o st /\ exists V1 us ss, solve_step e o (sV st) (sF st) dim (contacts e o (sV st) (sF st) us ss) = Ok V1
     /\ ((us, ss) = draw e o st)
     /\ ((singular e V1 (sF st) = true /\ conv = true /\ sV st' = Vlast st /\ sF st' = Flast st)                                        (* degenerate: fall back to the last good mesh *)
      \/ (singular e V1 (sF st) = false /\ conv = true /\ sV st' = V1 /\ sF st' = sF st /\ its st' = its st)                             (* converged *)
      \/ (singular e V1 (sF st) = false /\ its st' = S (its st) /\ conv = Z.leb (max_iter o) (Z.of_nat (its st'))
          /\ exists feat, remesh e V1 (sF st) (sh st') (invalid_faces o (contacts e o (sV st) (sF st) us ss)) feat = Ok (sV st', sF st')))).
Proof.
  intros e o dim st conv st' H. unfold iteration in H. unfold budget_left. destruct (Z.leb_spec (max_iter o) (Z.of_nat (its st))) as [L|L].
  { injection H as <- <-. left. split; [lia|auto]. }
  right. split; [auto|]. destruct (draw e o st) as [us ss] eqn:ED. cbv zeta in H. fold (contacts e o (sV st) (sF st) us ss) in H.
  destruct (solve_step e o (sV st) (sF st) dim (contacts e o (sV st) (sF st) us ss)) as [V1|] eqn:ES; cbn [bind] in H; [|discriminate].
  exists V1, us, ss. split; [auto|]. split; [auto|]. destruct (singular e V1 (sF st)) eqn:EG.
  { injection H as <- <-. left. cbn [sV sF]. auto. }
  right. destruct (match best st with Some b => _ | None => _ end) as [cnt1 best1].
  match type of H with context[if Nat.ltb 10 cnt1 then ?a else ?b] => destruct (if Nat.ltb 10 cnt1 then a else b) as [[[[Vl Fl] cnt2] best2] h2] end.
  match type of H with context[if ?c then _ else _] => destruct c eqn:EC end.
  { injection H as <- <-. left. cbn [sV sF its]. auto. }
  right. match type of H with context[remesh ?a ?b ?c ?d ?f ?g] => destruct (remesh a b c d f g) as [[V2 F2]|] eqn:ER; cbn [bind] in H; [|discriminate] end.
  injection H as <- <-. cbn [sV sF its sh]. split; [auto|]. split; [auto|]. split; [auto|]. eexists. exact ER.
Qed.

(** ** termination: the result does not depend on the fuel once it reaches max_iter + 1, and exhaustion of the fuel never happens *)
Definition enough (o : opts) (st : state) (fuel : nat) : Prop := (1 <= fuel)%nat /\ (max_iter o <= Z.of_nat (its st) + Z.of_nat fuel)%Z.
Lemma next_enough e o dim st st' fuel : iteration e o dim st = Ok (false, st') -> enough o st (S fuel) -> enough o st' fuel.
Proof.
  intros H (E1 & E2). destruct (C81_iteration e o dim st false st' H) as [(_ & C & _)|(B & V1 & us & ss & _ & _ & [(_ & C & _)|[(_ & C & _)|(_ & I & C & _)]])]; try discriminate.
  symmetry in C. apply Z.leb_gt in C. unfold enough. rewrite I in *. split; lia.
Qed.
Theorem C81_terminates : forall e o dim fuel fuel' st, enough o st fuel -> enough o st fuel' -> loop fuel e o dim st = loop fuel' e o dim st.
Proof.
  intros e o dim. induction fuel as [|fuel IH]; intros fuel' st E E'; [destruct E; lia|]. destruct fuel' as [|fuel']; [destruct E'; lia|]. cbn [loop].
  destruct (iteration e o dim st) as [[conv st']|] eqn:EI; cbn [bind]; [|reflexivity]. destruct conv; [reflexivity|]. apply IH; eapply next_enough; eauto.
Qed.
(** the number of iterations is at most max(1, max_iter); any exception raised is one raised inside an iteration *)
Inductive runs (e : env) (o : opts) (dim : nat) : nat -> state -> state -> Prop :=
| runs_last : forall st st', iteration e o dim st = Ok (true, st') -> runs e o dim 1 st st'
| runs_step : forall k st st1 st', iteration e o dim st = Ok (false, st1) -> runs e o dim k st1 st' -> runs e o dim (S k) st st'.
Theorem C81_outcome : forall e o dim fuel st, enough o st fuel ->
  (exists k st', loop fuel e o dim st = Ok st' /\ runs e o dim k st st' /\ (k <= fuel)%nat)
  \/ (exists st1 er, iteration e o dim st1 = Err er /\ loop fuel e o dim st = Err er).
Proof.
  intros e o dim. induction fuel as [|fuel IH]; intros st E; [destruct E; lia|]. cbn [loop].
  destruct (iteration e o dim st) as [[conv st']|er] eqn:EI; cbn [bind]; [|right; exists st, er; auto]. destruct conv.
  - left. exists 1%nat, st'. split; [auto|]. split; [constructor; auto|lia].
  - destruct (IH st' ltac:(eapply next_enough; eauto)) as [(k & st2 & E1 & E2 & E3)|(st1 & er & E1 & E2)]; [left|right; eauto].
    exists (S k), st2. split; [auto|]. split; [eapply runs_step; eauto|lia].
Qed.
Lemma loop_runs e o dim fuel : forall st st', loop fuel e o dim st = Ok st' -> exists k, runs e o dim k st st'.
Proof.
  induction fuel as [|fuel IH]; intros st st' H; [discriminate|]. cbn [loop] in H. destruct (iteration e o dim st) as [[conv st1]|] eqn:EI; cbn [bind] in H; [|discriminate]. destruct conv.
  - injection H as <-. exists 1%nat. constructor; auto.
  - destruct (IH _ _ H) as (k & R). exists (S k). eapply runs_step; eauto.
Qed.

(** ** max_iter <= 0 returns the input mesh and samples *)
Theorem C81_zero : forall fuel e o U S V F dim h min_h, (max_iter o <= 0)%Z -> Forall (fun u => List.length u = dim) U ->
  reach_for_the_spheres (Datatypes.S fuel) e o (Some U) S V F dim h min_h = Ok (V, F, U).
Proof.
  intros fuel e o U S0 V F dim h mh L D. unfold reach_for_the_spheres, start. replace (forallb _ U) with true.
  2:{ symmetry. apply forallb_forall. intros u I. apply Nat.eqb_eq. apply (proj1 (Forall_forall _ _) D u I). }
  cbn [negb bind loop]. unfold iteration. cbn [its]. destruct (Z.leb_spec (max_iter o) (Z.of_nat 0)); [|lia]. reflexivity.
Qed.
