(** C91: the first point cloud of reach_for_the_arcs. *)
From Coq Require Import Reals List Arith Bool ZArith Lra Lia Permutation Sorted.
From Verif Require Import Vec ArcsModel ArcsProofs ArcsTreeProofs.
Import ListNotations.
Open Scope R_scope.

(** * Specification *)
(** an oriented point tangent to sample i of the distance data U, S: on its sphere, no deeper than tol in the spheres js, with a unit normal along which the sample lies at its signed distance *)
Definition tangent (D : space) (U : nat -> pt D) (S : nat -> R) (tol : R) (js : list nat) (e : pt D * pt D * nat) : Prop :=
  let '(p, nrm, i) := e in
  pnorm D (psub D p (U i)) = Rabs (S i) /\ (forall j, In j js -> j <> i -> Rabs (S j) - tol <= pnorm D (psub D p (U j)))
  /\ pnorm D nrm = 1 /\ (epsilon < Rabs (S i) -> padd D p (pscal D (S i) nrm) = U i).
Definition distinct (D : space) (n : nat) (U : nat -> pt D) : Prop := forall i j, (i < n)%nat -> (j < n)%nat -> U i = U j -> i = j.
Definition below (clamp : option R) (a : R) : Prop := match clamp with None => True | Some c => a < c end.
Definition permutes (f : list nat -> list nat) : Prop := forall l, Permutation (f l) l.
Definition known (D : space) : Prop := D = E2 \/ D = E3.

Lemma known_laws D : known D -> laws D. Proof. intros [->| ->]; [apply laws2|apply laws3]. Qed.

(** ** The sphere tree can be built for every non-empty set of spheres, and a query with k >= 1 and a tolerance up to the one of the tree returns at most k spheres, all of them containing the point, and all such spheres if it returns fewer than k *)
Theorem C91_query D tol sph indices : known D -> sph <> [] -> length indices = length sph ->
  exists t, init D tol sph = Some t /\ forall p k tq ignore old, (1 <= k)%Z -> tq <= tol ->
    exists out, get_spheres_containing D sph indices t p k tq ignore old = Some out /\ (Z.of_nat (length out) <= k)%Z
      /\ (forall j, In j out -> j <> ignore /\ exists i c r, nth_error indices i = Some j /\ nth_error sph i = Some (c, r) /\ pnorm D (psub D p c) < r + tq)
      /\ ((Z.of_nat (length out) < k)%Z -> forall i j c r, nth_error indices i = Some j -> nth_error sph i = Some (c, r) -> j <> ignore -> pnorm D (psub D p c) < r + tq -> In j out).
Proof.
  intros KD NE LI. pose proof (known_laws D KD) as L. destruct (init_ok D tol sph NE) as (t & E & P & C). exists t. split; [auto|]. intros p k tq ignore old K T.
  destruct (bfs_ok D L tol sph indices p (Z.to_nat k) tq ignore ltac:(lia) T (count t) [t] []) as (out & EB & B1 & B2 & B3); [cbn; lia|cbn; lia|auto|].
  cbn [app] in *. assert (LV : forall i, In i (flat_map leaves [t]) <-> (i < length sph)%nat).
  { intros i. cbn [flat_map]. rewrite app_nil_r. split; [intros I; apply (Permutation_in _ P), in_seq in I; lia|intros LT; apply (Permutation_in _ (Permutation_sym P)), in_seq; lia]. }
  exists out. unfold get_spheres_containing. replace (k <? 1)%Z with false by (symmetry; apply Z.ltb_ge; lia). split; [auto|]. split; [lia|]. split.
  - intros j Ij. destruct (B2 j Ij) as (i & Ii & (H1 & H2) & EJ). apply LV in Ii. split; [congruence|]. destruct (nth_error sph i) as [(c, r)|] eqn:ES; [|apply nth_error_None in ES; lia]. rewrite (nth_error_nth _ _ _ ES) in H2. cbn [fst snd] in H2.
    exists i, c, r. split; [rewrite <- EJ; apply nth_error_nth'; lia|]. split; [auto|lra].
  - intros LT i j c r EI ES NI H. rewrite <- (nth_error_nth _ _ 0%nat EI). apply B3; [lia|apply LV; apply nth_error_Some; congruence|]. split; [rewrite (nth_error_nth _ _ _ EI); auto|rewrite (nth_error_nth _ _ _ ES); cbn [fst snd]; lra].
Qed.

Section Search.
  Variables (D : space) (KD : known D).
  Let L : laws D := known_laws D KD.
  Variable srt : list nat -> list nat.
  Hypothesis SP : permutes srt.
  Variables (n : nat) (U : nat -> pt D) (S : nat -> R) (batch : list nat) (nls lsi : Z) (tol : R) (clamp : option R).
  Hypotheses (DI : distinct D n U) (NB : batch <> []) (BN : forall j, In j batch -> (j < n)%nat) (TP : 0 <= tol).
  Variable tree : node.
  Hypothesis TR : init D tol (spheres D U S batch) = Some tree.
  Definition inside (p : pt D) (t : R) (i j : nat) : Prop := In j batch /\ j <> i /\ pnorm D (psub D p (U j)) < Rabs (S j) + t.
  Lemma query p k t i w : (1 <= k)%Z -> t <= tol -> exists out, hits D U S batch tree p k t i w = Some out /\ (forall j, In j out -> inside p t i j) /\ ((Z.of_nat (length out) < k)%Z -> forall j, inside p t i j -> In j out).
  Proof.
    intros K T. destruct (C91_query D tol (spheres D U S batch) batch KD) as (t' & E & Q); [unfold spheres; destruct batch; [congruence|discriminate]|unfold spheres; rewrite map_length; auto|]. rewrite TR in E. injection E as <-.
    destruct (Q p k t i w K T) as (out & EQ & B1 & B2 & B3). exists out. split; [exact EQ|].
    assert (SN : forall m j, nth_error batch m = Some j -> nth_error (spheres D U S batch) m = Some (U j, Rabs (S j))) by (intros m j Em; unfold spheres; rewrite nth_error_map, Em; reflexivity).
    split.
    - intros j Ij. destruct (B2 j Ij) as (NI & m & c & r & Em & Es & H). rewrite (SN m j Em) in Es. injection Es as <- <-. split; [eapply nth_error_In; eauto|auto].
    - intros LT j (I1 & I2 & I3). apply In_nth_error in I1. destruct I1 as (m & Em). eapply B3; eauto.
  Qed.
  (** the working vector is overwritten before it is read *)
  Lemma hits_old p k t i w w' : (1 <= k)%Z -> hits D U S batch tree p k t i w = hits D U S batch tree p k t i w'.
  Proof. intros K. unfold hits, get_spheres_containing. replace (k <? 1)%Z with false by (symmetry; apply Z.ltb_ge; lia). reflexivity. Qed.
  Lemma search_old k i p w w' : search D srt U S batch nls tol tree k i p w = search D srt U S batch nls tol tree k i p w'.
  Proof. destruct k; cbn [search]; rewrite (hits_old p 1 (- tol) i w w') by lia; reflexivity. Qed.
  Lemma hits_inside p k t i w out : (forall j, In j w -> In j batch /\ j <> i) -> t <= tol -> hits D U S batch tree p k t i w = Some out -> forall j, In j out -> In j batch /\ j <> i.
  Proof.
    intros HW T E j Ij. destruct (Z.ltb_spec k 1) as [K|K].
    - unfold hits, get_spheres_containing in E. replace (k <? 1)%Z with true in E by (symmetry; apply Z.ltb_lt; lia). injection E as <-. auto.
    - destruct (query p k t i w K T) as (o & EO & B1 & _). rewrite EO in E. injection E as <-. destruct (B1 j Ij) as (A & B & _). auto.
  Qed.
  Lemma hits_some p k t i w : t <= tol -> exists out, hits D U S batch tree p k t i w = Some out.
  Proof. intros T. destruct (Z.ltb_spec k 1) as [K|K]; [unfold hits, get_spheres_containing; replace (k <? 1)%Z with true by (symmetry; apply Z.ltb_lt; lia); eauto|destruct (query p k t i w K T) as (o & EO & _); eauto]. Qed.
  Lemma free_now p i w : hits D U S batch tree p 1 (- tol) i w = Some [] <-> (forall j, In j batch -> j <> i -> Rabs (S j) - tol <= pnorm D (psub D p (U j))).
  Proof.
    destruct (query p 1 (- tol) i w ltac:(lia) ltac:(lra)) as (out & E & B1 & B2). rewrite E. split.
    - intros [= ->] j Ij NJ. destruct (Rle_lt_dec (Rabs (S j) - tol) (pnorm D (psub D p (U j)))) as [|LT]; [auto|]. exfalso. apply (B2 eq_refl j). split; [auto|split; [auto|lra]].
    - intros H. destruct out as [|j out]; [auto|]. exfalso. destruct (B1 j (or_introl eq_refl)) as (I1 & I2 & I3). specialize (H j I1 I2). lra.
  Qed.
  Lemma search_ok : forall k i p w, (i < n)%nat -> exists w' q b, search D srt U S batch nls tol tree k i p w = Some (w', (q, b))
    /\ (pnorm D (psub D p (U i)) = Rabs (S i) -> pnorm D (psub D q (U i)) = Rabs (S i))
    /\ (b = true <-> forall j, In j batch -> j <> i -> Rabs (S j) - tol <= pnorm D (psub D q (U j)))
    /\ ((forall j, In j batch -> j <> i -> Rabs (S j) - tol <= pnorm D (psub D p (U j))) -> q = p /\ b = true).
  Proof.
    induction k as [|k IH]; intros i p w Ii; cbn [search]; pose proof (free_now p i w) as FN; destruct (hits_some p 1 (- tol) i w ltac:(lra)) as (o & EO); rewrite EO in *; (destruct o as [|x o]; [eexists; exists p, true; split; [reflexivity|]; split; [auto|]; split; [split; [intros _; apply FN; auto|auto]|auto]|]).
    - eexists. exists p, false. split; [reflexivity|]. split; [auto|]. split; [split; [discriminate|intros H; apply FN in H; discriminate]|intros H; apply FN in H; discriminate].
    - assert (WI : forall j, In j (x :: o) -> In j batch /\ j <> i) by (intros j Ij; destruct (query p 1 (- tol) i w ltac:(lia) ltac:(lra)) as (o' & EO' & B1 & _); rewrite EO in EO'; injection EO' as <-; destruct (B1 j Ij) as (A & B & _); auto).
      destruct (hits_some p (n_search batch nls) tol i (x :: o) ltac:(lra)) as (w2 & E2). rewrite E2. pose proof (hits_inside _ _ _ _ _ _ WI (Rle_refl tol) E2) as W2.
      destruct (IH i (resolve D p (U i) (Rabs (S i)) (map (fun j => (U j, Rabs (S j))) (srt w2))) (srt w2) Ii) as (w' & q & b & E & A & B & C). cbv zeta. rewrite E. exists w', q, b. split; [auto|]. split; [|split; [auto|intros H; apply FN in H; discriminate]].
      intros NP. apply A. apply (resolve_on D L); [apply Rabs_pos|auto|]. intros d s Id. apply in_map_iff in Id. destruct Id as (j & [= <- <-] & Ij). apply (Permutation_in _ (SP w2)) in Ij. destruct (W2 j Ij) as (I1 & I2). intros EU. apply I2. apply DI; auto.
  Qed.
  Lemma local_ok i p w : (i < n)%nat -> exists w' q b, local_search D srt U S batch nls lsi tol tree i p w = Some (w', (q, b))
    /\ (pnorm D (psub D p (U i)) = Rabs (S i) -> pnorm D (psub D q (U i)) = Rabs (S i))
    /\ (b = true -> forall j, In j batch -> j <> i -> Rabs (S j) - tol <= pnorm D (psub D q (U j)))
    /\ ((0 <= lsi)%Z -> (forall j, In j batch -> j <> i -> Rabs (S j) - tol <= pnorm D (psub D p (U j))) -> q = p /\ b = true)
    /\ forall w2, exists w3, local_search D srt U S batch nls lsi tol tree i p w2 = Some (w3, (q, b)).
  Proof.
    intros Ii. unfold local_search. destruct (Z.ltb_spec lsi 0).
    - exists w, p, false. split; [auto|]. split; [auto|]. split; [discriminate|]. split; [lia|eauto].
    - destruct (search_ok (Z.to_nat lsi) i p w Ii) as (w' & q & b & E & A & B & C). exists w', q, b. split; [auto|]. split; [auto|]. split; [apply B|]. split; [auto|]. intros w2. exists w'. rewrite (search_old _ _ _ w2 w). auto.
  Qed.
  Lemma direction_unit v : pnorm D (direction D v) = 1.
  Proof.
    unfold direction. destruct (lt_b epsilon (pnorm D v)) eqn:E; [|apply (norm_axis D L)]. apply lt_b_true in E. assert (0 < epsilon) by (unfold epsilon; lra). rewrite (norm_scal D L), Rabs_pos_eq by (left; apply Rinv_0_lt_compat; lra). field. lra.
  Qed.
  Lemma entry_ok p i : pnorm D (psub D p (U i)) = Rabs (S i) -> (forall j, In j batch -> j <> i -> Rabs (S j) - tol <= pnorm D (psub D p (U j))) -> tangent D U S tol batch (entry D U S p i).
  Proof.
    intros NP FR. unfold entry, tangent. cbv zeta. set (N := direction D (psub D p (U i))). assert (NU : pnorm D N = 1) by apply direction_unit. split; [auto|]. split; [auto|]. split.
    - destruct (lt_b (S i) 0); [auto|]. rewrite (norm_scal D L), NU, (Rabs_left (-1)) by lra. ring.
    - intros EP. assert (NE : N = pscal D (/ Rabs (S i)) (psub D p (U i))) by (unfold N, direction; rewrite NP; rewrite (proj2 (lt_b_true _ _) EP); auto). assert (0 < epsilon) by (unfold epsilon; lra).
      assert (Q : pscal D (S i) (if lt_b (S i) 0 then N else pscal D (-1) N) = pscal D (-1) (psub D p (U i))); [|rewrite Q; apply (back D L)].
      destruct (lt_b (S i) 0) eqn:LB; [apply lt_b_true in LB; rewrite Rabs_left in * by lra|apply lt_b_false in LB; rewrite Rabs_pos_eq in * by lra; rewrite (scal_scal D L)]; rewrite NE, (scal_scal D L); f_equal; field; lra.
  Qed.
  Variable nearest : pt D -> pt D.
  Definition start (i : nat) : pt D := padd D (U i) (pscal D (Rabs (S i)) (direction D (psub D (nearest (U i)) (U i)))).
  Lemma start_on i : pnorm D (psub D (start i) (U i)) = Rabs (S i).
  Proof. unfold start. rewrite (add_sub D L), (norm_scal D L), direction_unit, Rabs_Rabsolu. ring. Qed.
  (** what sphere i gives, whatever thread runs it and when *)
  Definition outcome (i : nat) : option (pt D * bool) := match loop_f D srt U S batch nls lsi tol clamp tree nearest i [] with Some (_, r) => r | None => None end.
  Lemma loop_f_out i w : (i < n)%nat -> exists w', loop_f D srt U S batch nls lsi tol clamp tree nearest i w = Some (w', outcome i).
  Proof.
    intros Ii. unfold outcome, loop_f. destruct (clamped S clamp i); [eauto|]. cbv zeta. fold (start i). destruct (local_ok i (start i) [] Ii) as (w0 & q & b & E & _ & _ & _ & H). rewrite E. destruct (H w) as (w3 & ->). eauto.
  Qed.
  Lemma outcome_none i : (i < n)%nat -> (outcome i = None <-> ~ below clamp (Rabs (S i))).
  Proof.
    intros Ii. unfold outcome, loop_f, clamped, below. destruct clamp as [c|].
    - destruct (le_b c (Rabs (S i))) eqn:E; [apply le_b_true in E; split; [intros _; lra|auto]|]. apply le_b_false in E. cbv zeta. fold (start i). destruct (local_ok i (start i) [] Ii) as (w0 & q & b & -> & _). split; [discriminate|intros N; exfalso; apply N; auto].
    - cbv zeta. fold (start i). destruct (local_ok i (start i) [] Ii) as (w0 & q & b & -> & _). split; [discriminate|tauto].
  Qed.
  Lemma outcome_ok i q b : (i < n)%nat -> outcome i = Some (q, b) -> pnorm D (psub D q (U i)) = Rabs (S i) /\ (b = true -> forall j, In j batch -> j <> i -> Rabs (S j) - tol <= pnorm D (psub D q (U j)))
    /\ ((0 <= lsi)%Z -> (forall j, In j batch -> j <> i -> Rabs (S j) - tol <= pnorm D (psub D (start i) (U j))) -> q = start i /\ b = true).
  Proof.
    intros Ii. unfold outcome, loop_f. destruct (clamped S clamp i); [discriminate|]. cbv zeta. fold (start i). destruct (local_ok i (start i) [] Ii) as (w0 & q0 & b0 & -> & A & B & C & _). intros [= -> ->]. split; [apply A, start_on|auto].
  Qed.
  Lemma run_tasks sh : forall tasks st, (forall t, In t tasks -> (sh (fst t) < n)%nat) -> exists st', fold_left (loop_step D srt U S batch nls lsi tol clamp tree nearest sh) tasks (Some st) = Some st'
    /\ forall i, (In i (map (fun t => sh (fst t)) tasks) -> points D st' i = match outcome i with Some (p, _) => Some p | None => points D st i end /\ feasible D st' i = match outcome i with Some (_, b) => b | None => false end)
               /\ (~ In i (map (fun t => sh (fst t)) tasks) -> points D st' i = points D st i /\ feasible D st' i = feasible D st i).
  Proof.
    induction tasks as [|(a, th) tasks IH]; intros st HT; [exists st; split; [auto|]; intros i; split; [intros []|auto]|]. cbn [fold_left loop_step fst snd]. cbv zeta.
    destruct (loop_f_out (sh a) (work D st th) (HT (a, th) (or_introl eq_refl))) as (w & ->).
    set (st1 := match outcome (sh a) with None => _ | Some (p, b) => _ end).
    assert (exists s1, st1 = Some s1 /\ (points D s1 (sh a) = match outcome (sh a) with Some (p, _) => Some p | None => points D st (sh a) end) /\ feasible D s1 (sh a) = match outcome (sh a) with Some (_, b) => b | None => false end /\ forall i, i <> sh a -> points D s1 i = points D st i /\ feasible D s1 i = feasible D st i) as (s1 & -> & A1 & A2 & A3).
    { unfold st1. destruct (outcome (sh a)) as [(p, b)|]; eexists; (split; [reflexivity|]); cbn [points feasible]; unfold upd; rewrite Nat.eqb_refl; (split; [auto|]); (split; [auto|]); intros i NI; destruct (Nat.eqb_spec i (sh a)); [congruence|auto|congruence|auto]. }
    destruct (IH s1 ltac:(intros; apply HT; right; auto)) as (st' & E & H). exists st'. split; [exact E|]. intros i. destruct (H i) as (H1 & H2). cbn [map fst]. destruct (in_dec Nat.eq_dec i (map (fun t => sh (fst t)) tasks)) as [I|NI].
    - split; [|intros N; exfalso; apply N; right; auto]. intros _. destruct (H1 I) as (P1 & P2). rewrite P1, P2. split; [|auto]. destruct (outcome i) as [(p, b)|] eqn:EO; [auto|]. destruct (Nat.eq_dec i (sh a)) as [->|NE]; [rewrite A1, EO; auto|apply A3; auto].
    - destruct (H2 NI) as (P1 & P2). split; [intros [<-|I]; [rewrite P1, P2; auto|contradiction]|]. intros N. rewrite P1, P2. apply A3. intros ->. apply N. left. auto.
  Qed.
  Definition the_cloud : list (pt D * pt D * nat) := flat_map (fun i => match outcome i with Some (p, true) => [entry D U S p i] | _ => [] end) (seq 0 n).
  Lemma flat_map_ext_in' {A B} (f g : A -> list B) l : (forall x, In x l -> f x = g x) -> flat_map f l = flat_map g l.
  Proof. induction l as [|x l IH]; intros H; [auto|]. cbn [flat_map]. rewrite H by (left; auto). rewrite IH; [auto|]. intros; apply H; right; auto. Qed.
  Lemma lmf_cloud sh schedule : Permutation (map sh (seq 0 n)) (seq 0 n) -> Permutation (map fst schedule) (seq 0 n) ->
    locally_make_feasible D srt n U S batch nls lsi tol clamp tree nearest sh schedule = Some the_cloud.
  Proof.
    intros PS PT. unfold locally_make_feasible.
    assert (SN : forall t, In t schedule -> (sh (fst t) < n)%nat).
    { intros t It. assert (I : In (sh (fst t)) (map sh (seq 0 n))) by (apply in_map, (Permutation_in _ PT), in_map; auto). apply (Permutation_in _ PS), in_seq in I. lia. }
    destruct (run_tasks sh schedule {| points := fun _ => None; feasible := fun _ => false; work := fun _ => [] |} SN) as (st & E & H). rewrite E. f_equal. apply flat_map_ext_in'. intros i Ii.
    assert (IC : In i (map (fun t => sh (fst t)) schedule)).
    { rewrite <- (map_map fst sh). apply (Permutation_in _ (Permutation_map sh (Permutation_sym PT))). apply (Permutation_in _ (Permutation_sym PS)). auto. }
    destruct (proj1 (H i) IC) as (-> & ->). destruct (outcome i) as [(p, [|])|]; reflexivity.
  Qed.
  Lemma sorted_cloud : StronglySorted lt (map snd the_cloud).
  Proof.
    unfold the_cloud. generalize 0%nat. generalize n. induction n0 as [|m IH]; intros s; [constructor|]. cbn [seq flat_map].
    assert (T : Forall (lt s) (map snd (flat_map (fun i => match outcome i with Some (p, true) => [entry D U S p i] | _ => [] end) (seq (Datatypes.S s) m)))).
    { apply Forall_forall. intros j Ij. apply in_map_iff in Ij. destruct Ij as (e & <- & Ie). apply in_flat_map in Ie. destruct Ie as (i & Ii & Ie). apply in_seq in Ii. destruct (outcome i) as [(p, [|])|]; [|destruct Ie|destruct Ie]. destruct Ie as [<-|[]]. cbn. lia. }
    specialize (IH (Datatypes.S s)). destruct (outcome s) as [(p, [|])|]; [|auto|auto]. cbn [app map]. constructor; [auto|exact T].
  Qed.
  Lemma cloud_tangent e : In e the_cloud -> (snd e < n)%nat /\ below clamp (Rabs (S (snd e))) /\ tangent D U S tol batch e.
  Proof.
    intros Ie. apply in_flat_map in Ie. destruct Ie as (i & Ii & Ie). apply in_seq in Ii. destruct (outcome i) as [(p, [|])|] eqn:EO; [|destruct Ie|destruct Ie]. destruct Ie as [<-|[]]. cbn [snd entry]. split; [lia|].
    destruct (outcome_ok i p true ltac:(lia) EO) as (A & B & _). split; [|apply entry_ok; auto]. destruct clamp as [c|] eqn:EC; [|cbn; auto]. cbn. destruct (Rlt_le_dec (Rabs (S i)) c) as [|GE]; [auto|]. exfalso. assert (outcome i = None) by (apply outcome_none; [lia|rewrite EC; cbn; lra]). congruence.
  Qed.
  Lemma cloud_complete i : (i < n)%nat -> (0 <= lsi)%Z -> below clamp (Rabs (S i)) -> (forall j, In j batch -> j <> i -> Rabs (S j) - tol <= pnorm D (psub D (start i) (U j))) -> exists nrm, In (start i, nrm, i) the_cloud.
  Proof.
    intros Ii LI BC FR. destruct (outcome i) as [(q, b)|] eqn:EO; [|exfalso; apply (outcome_none i Ii) in EO; auto]. destruct (outcome_ok i q b Ii EO) as (_ & _ & C). destruct (C LI FR) as (-> & ->).
    eexists. apply in_flat_map. exists i. split; [apply in_seq; lia|]. rewrite EO. left. reflexivity.
  Qed.
End Search.

(** ** locally_make_feasible: for every order of the iterations and every assignment to threads the cloud exists, its points are tangent to their spheres and outside the other spheres of the batch, at most one per sphere, in the order of the spheres; spheres at or above the clamp give no point, and a sphere below it whose first candidate is free gives that candidate. *)
Theorem C91_cloud D srt n U S batch nls lsi tol clamp nearest : known D -> permutes srt -> distinct D n U -> batch <> [] -> (forall j, In j batch -> (j < n)%nat) -> 0 <= tol ->
  exists tree cloud, init D tol (spheres D U S batch) = Some tree
    /\ (forall shuffled schedule, Permutation (map shuffled (seq 0 n)) (seq 0 n) -> Permutation (map fst schedule) (seq 0 n) -> locally_make_feasible D srt n U S batch nls lsi tol clamp tree nearest shuffled schedule = Some cloud)
    /\ StronglySorted lt (map snd cloud)
    /\ (forall e, In e cloud -> (snd e < n)%nat /\ below clamp (Rabs (S (snd e))) /\ tangent D U S tol batch e)
    /\ (forall i, (i < n)%nat -> (0 <= lsi)%Z -> below clamp (Rabs (S i)) ->
         let p := padd D (U i) (pscal D (Rabs (S i)) (direction D (psub D (nearest (U i)) (U i)))) in
         (forall j, In j batch -> j <> i -> Rabs (S j) - tol <= pnorm D (psub D p (U j))) -> exists nrm, In (p, nrm, i) cloud).
Proof.
  intros KD SP DI NB BN TP. destruct (init_ok D tol (spheres D U S batch)) as (tree & TR & _); [unfold spheres; destruct batch; [congruence|discriminate]|].
  exists tree, (the_cloud D srt n U S batch nls lsi tol clamp tree nearest). split; [auto|]. split; [intros; apply lmf_cloud; auto|]. split; [apply sorted_cloud|]. split; [intros; eapply cloud_tangent; eauto|]. intros i Ii LI BC p FR. eapply cloud_complete; eauto.
Qed.
(** ** The collision resolution in the plane returns its input, or a point of the circle that is free of all other discs but one, and lies on that one's circle inside the unit square, or, if the two circles do not meet, on the line of centres *)
Theorem C91_resolve p c r ds : 0 <= r -> norm2 (sub2 p c) = r -> (forall d s, In (d, s) ds -> d <> c /\ 0 <= s) -> let q := resolve_2d p c r ds in
  q = p \/ (norm2 (sub2 q c) = r /\ exists i d s, nth_error ds i = Some (d, s) /\ (forall k d' s', k <> i -> nth_error ds k = Some (d', s') -> s' * s' < dot2 (sub2 q d') (sub2 q d') + epsilon)
     /\ ((norm2 (sub2 q d) = s /\ 0 <= fst q <= 1 /\ 0 <= snd q <= 1)
        \/ ((forall x, norm2 (sub2 x c) = r -> norm2 (sub2 x d) <> s) /\ sub2 q c = scal2 (r / norm2 (sub2 d c)) (sub2 d c)))).
Proof.
  intros R NP ND q. assert (ON : norm2 (sub2 q c) = r) by (apply resolve_2d_on; auto; intros d s I; apply (ND d s I)). unfold q, resolve_2d in *. set (try := fun i : nat => _) in *. destruct (first_some try (seq 0 (length ds))) as [x|] eqn:E; [|auto]. right. split; [exact ON|].
  apply first_some_in in E. destruct E as (i & Ii & E). apply in_seq in Ii. unfold try in E. destruct (nth i ds ((0, 0), 0)) as (d, s) eqn:EN. assert (NE : nth_error ds i = Some (d, s)) by (rewrite <- EN; apply nth_error_nth'; lia).
  destruct (ND d s (nth_error_In _ _ NE)) as (DC & S0). exists i, d, s. split; [auto|].
  assert (CF : collision sub2 dot2 ds x [i] = false -> forall k d' s', k <> i -> nth_error ds k = Some (d', s') -> s' * s' < dot2 (sub2 x d') (sub2 x d') + epsilon).
  { intros C k d' s' NK EK. destruct (Rlt_le_dec (s' * s') (dot2 (sub2 x d') (sub2 x d') + epsilon)) as [|LE]; [auto|]. exfalso. assert (C' : collision sub2 dot2 ds x [i] = true); [|congruence]. unfold collision. apply existsb_exists. exists (k, (d', s')). split.
    - assert (LK : (k < length ds)%nat) by (apply nth_error_Some; congruence). apply nth_error_In with (n := k). clear -EK LK. assert (G : forall m, nth_error (combine (seq m (length ds)) ds) k = Some ((m + k)%nat, (d', s'))); [|apply (G 0%nat)]. revert k EK LK. induction ds as [|y ds IH]; intros k EK LK m; [cbn in LK; lia|]. destruct k as [|k]; cbn [length seq combine nth_error] in *; [injection EK as ->; do 2 f_equal; lia|]. rewrite IH by (auto; lia). do 2 f_equal. lia.
    - cbn [existsb]. destruct (Nat.eqb_spec k i); [congruence|]. cbn [orb negb andb]. apply le_b_true. auto. }
  destruct (circle_circle_intersect c r d s) as [(p1, p2)|] eqn:EC.
  - apply pick_in in E. destruct E as (Q & OK). apply andb_true_iff in OK. destruct OK as (IB & NC). apply negb_true_iff in NC. split; [exact (CF NC)|]. left. destruct (circle_on _ _ _ _ _ _ R DC EC x Q) as (_ & O2). split; [apply norm2_is; auto|].
    unfold in_bounds, row2 in IB. cbn [forallb] in IB. rewrite !andb_true_iff, !negb_true_iff, !orb_false_iff, !lt_b_false in IB. lra.
  - destruct (collision sub2 dot2 ds (add2 c (scal2 r (unit2 (sub2 d c)))) [i]) eqn:CL; [discriminate|]. injection E as <-. split; [exact (CF CL)|]. right. split.
    + intros y Y1 Y2. unfold circle_circle_intersect in EC. set (D := norm2 (sub2 c d)) in *. set (a := _ / (2 * D)) in EC. destruct (lt_b (r * r - a * a) 0) eqn:LB; [|discriminate]. apply lt_b_true in LB.
      assert (DD : D * D = dot2 (sub2 d c) (sub2 d c)) by (unfold D; rewrite norm2_sq; unfold dot2, sub2; cbn [fst snd]; ring). pose proof (diff2 _ _ DC) as DP. assert (0 < D) by (assert (0 <= D) by apply norm2_pos; nra).
      assert (YY : dot2 (sub2 y c) (sub2 y c) = r * r) by (rewrite <- norm2_sq, Y1; auto). assert (YD : dot2 (sub2 y d) (sub2 y d) = s * s) by (rewrite <- norm2_sq, Y2; auto).
      set (u := sub2 y c) in *. set (v := sub2 d c) in *. assert (UV : dot2 u v = a * D).
      { assert (2 * dot2 u v = r * r + D * D - s * s) by (rewrite <- YY, DD, <- YD; unfold u, v, dot2, sub2; cbn [fst snd]; ring). unfold a. apply Rmult_eq_reg_l with 2; [|lra]. rewrite H0. field. lra. }
      assert (CS : dot2 u v * dot2 u v <= dot2 u u * dot2 v v) by (unfold dot2; pose proof (Rle_0_sqr (fst u * snd v - snd u * fst v)); unfold Rsqr in *; lra). rewrite UV, YY, <- DD in CS. nra.
    + destruct (unit2_ok (sub2 d c) (diff2 _ _ DC)) as (_ & ->). unfold sub2, add2, scal2. cbn [fst snd]. apply vec2_eq; cbn [fst snd]; unfold Rdiv; ring.
Qed.

(** two samples in the plane, one outside and one inside a shape; sphere 0 keeps its first candidate whatever the schedule *)
Definition U2 (i : nat) : pt E2 := match i with O => (0, 0) | _ => (1, 0) end.
Definition S2 (i : nat) : R := match i with O => / 4 | _ => - / 2 end.
Theorem C91_example : exists tree cloud, init E2 0.0001 (spheres E2 U2 S2 [1%nat; 0%nat]) = Some tree
  /\ locally_make_feasible E2 (fun l => l) 2 U2 S2 [1%nat; 0%nat] 3 20 0.0001 None tree (fun _ => (0, 1)) (fun i => (1 - i)%nat) [(1%nat, 7%nat); (0%nat, 3%nat)] = Some cloud
  /\ (exists nrm, In ((0, / 4) : pt E2, nrm, 0%nat) cloud) /\ forall e, In e cloud -> tangent E2 U2 S2 0.0001 [1%nat; 0%nat] e.
Proof.
  destruct (C91_cloud E2 (fun l => l) 2 U2 S2 [1%nat; 0%nat] 3 20 0.0001 None (fun _ => (0, 1))) as (tree & cloud & E & H1 & _ & H2 & H3).
  - left; auto. - intros l; auto.
  - intros [|[|i]] [|[|j]] A B; cbn; intros Q; try lia; injection Q as Q; lra.
  - discriminate. - intros j [<-|[<-|[]]]; lia. - lra.
  - exists tree, cloud. split; [auto|]. split; [apply H1; [cbn; apply perm_swap|cbn; apply perm_swap]|]. split; [|intros e Ie; apply H2; auto].
    assert (SQ : forall x, 0 <= x -> sqrt (x * x) = x) by (intros; apply sqrt_square; auto).
    assert (DI : direction E2 (psub E2 (0, 1) (U2 0)) = (0, 1)).
    { unfold direction. assert (Q : pnorm E2 (psub E2 (0, 1) (U2 0)) = 1) by (unfold pnorm; cbn [pdot psub E2]; apply norm2_is; [lra|unfold dot2, sub2, U2; cbn [fst snd]; ring]). rewrite Q. replace (lt_b epsilon 1) with true by (symmetry; apply lt_b_true; unfold epsilon; lra). cbn [pscal psub E2]. unfold scal2, sub2, U2. cbn [fst snd]. apply vec2_eq; cbn [fst snd]; field. }
    assert (ST : padd E2 (U2 0) (pscal E2 (Rabs (S2 0)) (direction E2 (psub E2 (0, 1) (U2 0)))) = (0, / 4)).
    { rewrite DI. cbn [padd pscal E2 S2 U2]. rewrite Rabs_pos_eq by lra. unfold add2, scal2. cbn [fst snd]. apply vec2_eq; cbn [fst snd]; field. }
    destruct (H3 0%nat) as (nrm & I); [lia|lia|cbn; auto| |exists nrm; rewrite <- ST; exact I].
    rewrite ST. intros j [<-|[<-|[]]] NJ; [|congruence]. cbn [S2 U2 psub E2]. rewrite Rabs_left by lra. unfold pnorm. cbn [pdot E2]. apply Rle_trans with 1; [lra|]. rewrite <- (SQ 1) at 1 by lra. apply sqrt_le_1_alt. unfold dot2, sub2. cbn [fst snd]. lra.
Qed.
