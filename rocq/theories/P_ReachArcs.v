(** C93: the point cloud and the mesh returned by reach_for_the_arcs. *)
From Coq Require Import Reals List Arith Bool ZArith Lra Lia Permutation Sorted FunctionalExtensionality.
From Verif Require Import Vec ArcsModel ArcsProofs ArcsTreeProofs P_Arcs P_Arcs2 ReachArcsModel.
Import ListNotations.
Open Scope R_scope.

(** * Specification *)
Definition frames (fr : frame) : Prop := fr = F2 \/ fr = F3.
(** the longest side of the bounding box of the samples *)
Definition longest_side (D : space) (n : nat) (U : nat -> pt D) (s : R) : Prop :=
  (exists i j a, (i < n)%nat /\ (j < n)%nat /\ (a < dim D)%nat /\ s = nth a (coords D (U i)) 0 - nth a (coords D (U j)) 0)
  /\ forall i j a, (i < n)%nat -> (j < n)%nat -> (a < dim D)%nat -> nth a (coords D (U i)) 0 - nth a (coords D (U j)) 0 <= s.
(** what numpy's generator, std::shuffle, std::sort and the threads may do: batches hold sample numbers and are not empty, everything else is a permutation *)
Definition batches (n : nat) (draw perm : list nat) : Prop := draw <> [] /\ (forall j, In j draw -> (j < n)%nat) /\ Permutation perm (seq 0 n).
Definition search_ok {fr} (e : search_env fr) (n : nat) : Prop :=
  batches n (s_draw fr e) (s_perm fr e) /\ permutes (s_sort fr e) /\ Permutation (map (s_order fr e) (seq 0 n)) (seq 0 n) /\ Permutation (map fst (s_sched fr e)) (seq 0 n).
Definition tune_env_ok {fr} (e : tune_env fr) (n : nat) : Prop :=
  batches n (t_draw fr e) (t_perm fr e) /\ permutes (t_sort fr e) /\ permutes (t_sort2 fr e) /\ Permutation (map (t_order fr e) (seq 0 n)) (seq 0 n) /\ Permutation (map fst (t_sched fr e)) (seq 0 n)
  /\ (forall t, In t (t_sched fr e) -> (snd t < t_threads fr e)%nat) /\ forall m, Permutation (map fst (t_sched2 fr e m)) (seq 0 m).
(** oriented point (p, nrm) belongs to sample i *)
Definition belongs (D : space) (U : nat -> pt D) (S : nat -> R) (side : R) (clamp : option R) (p nrm : pt D) (i : nat) : Prop :=
  pnorm D (psub D p (U i)) = Rabs (S i) /\ pnorm D nrm = 1 /\ (epsilon * side < Rabs (S i) -> padd D p (pscal D (S i) nrm) = U i) /\ below clamp (Rabs (S i)).
Definition outside_of (D : space) (U : nat -> pt D) (S : nat -> R) (slack : R) (p : pt D) (j : nat) : Prop := Rabs (S j) - slack <= pnorm D (psub D p (U j)).

(** the corner of the bounding box with the least coordinates *)
Definition lowest (D : space) (n : nat) (U : nat -> pt D) (lo : pt D) : Prop :=
  forall a, (a < dim D)%nat -> (exists i, (i < n)%nat /\ nth a (coords D lo) 0 = nth a (coords D (U i)) 0) /\ forall i, (i < n)%nat -> nth a (coords D lo) 0 <= nth a (coords D (U i)) 0.
(** the samples and the data in the unit box, where the method works *)
Definition unitize (D : space) (side : R) (lo p : pt D) : pt D := pscal D (/ side) (psub D p lo).
(** batches with all samples *)
Definition whole (batch_size : Z) (n : nat) : Prop := (batch_size <= 0)%Z \/ (Z.of_nat n <= batch_size)%Z.
Definition same_sign (x y : R) : Prop := x < 0 <-> y < 0.

(** * Laws of the two dimensions *)
Lemma frames_known fr : frames fr -> known (sp fr). Proof. intros [->| ->]; [left|right]; reflexivity. Qed.
Lemma coords_len D v : known D -> length (coords D v) = dim D. Proof. intros [->| ->]; reflexivity. Qed.
Lemma coords_sub D u v a : known D -> nth a (coords D (psub D u v)) 0 = nth a (coords D u) 0 - nth a (coords D v) 0.
Proof. intros [->| ->]; cbn [coords psub E2 E3]; unfold row2, row3, sub2, sub3, X, Y, Zc; destruct a as [|[|[|a]]]; cbn [nth fst snd]; try destruct a; lra. Qed.
Lemma coords_scal D k v a : known D -> nth a (coords D (pscal D k v)) 0 = k * nth a (coords D v) 0.
Proof. intros [->| ->]; cbn [coords pscal E2 E3]; unfold row2, row3, scal2, scal3, X, Y, Zc; destruct a as [|[|[|a]]]; cbn [nth fst snd]; try destruct a; lra. Qed.
Lemma coords_add D u v a : known D -> nth a (coords D (padd D u v)) 0 = nth a (coords D u) 0 + nth a (coords D v) 0.
Proof. intros [->| ->]; cbn [coords padd E2 E3]; unfold row2, row3, add2, add3, X, Y, Zc; destruct a as [|[|[|a]]]; cbn [nth fst snd]; try destruct a; lra. Qed.
Lemma coords_ext D u v : known D -> (forall a, (a < dim D)%nat -> nth a (coords D u) 0 = nth a (coords D v) 0) -> u = v.
Proof.
  intros [->| ->] H; cbn [coords dim E2 E3 pt] in *.
  - pose proof (H 0%nat ltac:(lia)). pose proof (H 1%nat ltac:(lia)). unfold row2 in *. cbn [nth] in *. destruct u, v. cbn [fst snd] in *. congruence.
  - pose proof (H 0%nat ltac:(lia)). pose proof (H 1%nat ltac:(lia)). pose proof (H 2%nat ltac:(lia)). unfold row3 in *. cbn [nth] in *. apply vec3_eq; auto.
Qed.
Lemma coords_in D v x : known D -> In x (coords D v) <-> exists a, (a < dim D)%nat /\ x = nth a (coords D v) 0.
Proof.
  intros KD. split.
  - intros I. apply (In_nth _ _ 0) in I. destruct I as (a & L & <-). rewrite coords_len in L by auto. eauto.
  - intros (a & L & ->). apply nth_In. rewrite coords_len; auto.
Qed.
Ltac by_coords KD := apply (coords_ext _ _ _ KD); intros ? _; repeat first [rewrite coords_sub by exact KD|rewrite coords_add by exact KD|rewrite coords_scal by exact KD].
Lemma minl_in l : l <> [] -> In (minl l) l.
Proof. destruct l as [|x l]; [congruence|]. intros _. cbn [minl]. revert x. induction l as [|y l IH]; intros x; [left; auto|]. cbn [fold_left]. destruct (IH (Rmin x y)) as [E|I]; [|right; right; auto]. rewrite <- E. unfold Rmin. destruct (Rle_dec x y); [left; auto|right; left; auto]. Qed.
Lemma maxl_in l : l <> [] -> In (maxl l) l.
Proof. destruct l as [|x l]; [congruence|]. intros _. cbn [maxl]. revert x. induction l as [|y l IH]; intros x; [left; auto|]. cbn [fold_left]. destruct (IH (Rmax x y)) as [E|I]; [|right; right; auto]. rewrite <- E. unfold Rmax. destruct (Rle_dec x y); [right; left; auto|left; auto]. Qed.
Lemma low_nth fr n U a : frames fr -> (a < dim (sp fr))%nat -> nth a (coords (sp fr) (low fr n U)) 0 = minl (map (fun i => nth a (coords (sp fr) (U i)) 0) (seq 0 n)).
Proof. intros [->| ->] L; cbn [sp low F2 F3 dim E2 E3 coords] in *; unfold low2, low3, row2, row3, X, Y, Zc; destruct a as [|[|[|a]]]; try lia; reflexivity. Qed.
Lemma low_le fr n U a i : frames fr -> (a < dim (sp fr))%nat -> (i < n)%nat -> nth a (coords (sp fr) (low fr n U)) 0 <= nth a (coords (sp fr) (U i)) 0.
Proof. intros KF LA LI. rewrite low_nth by auto. apply minl_le. apply in_map_iff. exists i. split; [auto|apply in_seq; lia]. Qed.
Lemma low_at fr n U a : frames fr -> (a < dim (sp fr))%nat -> (0 < n)%nat -> exists i, (i < n)%nat /\ nth a (coords (sp fr) (low fr n U)) 0 = nth a (coords (sp fr) (U i)) 0.
Proof. intros KF LA LN. rewrite low_nth by auto. pose proof (minl_in (map (fun i => nth a (coords (sp fr) (U i)) 0) (seq 0 n))) as M. destruct n as [|n]; [lia|]. specialize (M ltac:(discriminate)). apply in_map_iff in M. destruct M as (i & E & Ii). apply in_seq in Ii. exists i. split; [lia|auto]. Qed.

Section Norm.
  Variables (fr : frame) (KF : frames fr).
  Notation D := (sp fr).
  Let KD : known D := frames_known fr KF.
  Variables (n : nat) (U0 : nat -> pt D).
  Hypothesis N2 : (2 <= n)%nat.
  Hypothesis DI : distinct D n U0.
  Definition scale : R := maxl (flat_map (fun i => coords D (psub D (U0 i) (low fr n U0))) (seq 0 n)).
  Definition unitU (i : nat) : pt D := pscal D (/ scale) (psub D (U0 i) (low fr n U0)).
  Lemma all_in x : In x (flat_map (fun i => coords D (psub D (U0 i) (low fr n U0))) (seq 0 n)) <-> exists i a, (i < n)%nat /\ (a < dim D)%nat /\ x = nth a (coords D (U0 i)) 0 - nth a (coords D (low fr n U0)) 0.
  Proof.
    rewrite in_flat_map. split.
    - intros (i & Ii & I). apply in_seq in Ii. apply (coords_in D _ _ KD) in I. destruct I as (a & L & ->). exists i, a. rewrite coords_sub by exact KD. split; [lia|auto].
    - intros (i & a & Li & La & ->). exists i. split; [apply in_seq; lia|]. apply (coords_in D _ _ KD). exists a. rewrite coords_sub by exact KD. auto.
  Qed.
  Lemma scale_side : longest_side D n U0 scale.
  Proof.
    clear DI.
    assert (D0 : (0 < dim D)%nat) by (destruct KF as [->| ->]; cbn; lia). assert (BD : forall i j a, (i < n)%nat -> (j < n)%nat -> (a < dim D)%nat -> nth a (coords D (U0 i)) 0 - nth a (coords D (U0 j)) 0 <= scale).
    { intros i j a Li Lj La. apply Rle_trans with (nth a (coords D (U0 i)) 0 - nth a (coords D (low fr n U0)) 0); [pose proof (low_le fr n U0 a j KF La Lj); lra|]. apply maxl_ge. apply all_in. exists i, a. auto. }
    split; [|exact BD]. assert (NE : flat_map (fun i => coords D (psub D (U0 i) (low fr n U0))) (seq 0 n) <> []).
    { intros E. assert (I : In (nth 0 (coords D (U0 0%nat)) 0 - nth 0 (coords D (low fr n U0)) 0) []) by (rewrite <- E; apply all_in; exists 0%nat, 0%nat; repeat split; auto; lia). destruct I. }
    pose proof (maxl_in _ NE) as M. fold scale in M. apply all_in in M. destruct M as (i & a & Li & La & E). destruct (low_at fr n U0 a KF La ltac:(lia)) as (j & Lj & EJ). exists i, j, a. rewrite EJ in E. auto.
  Qed.
  Lemma scale_pos : 0 < scale.
  Proof.
    destruct (Rlt_le_dec 0 scale) as [|LE]; [auto|]. exfalso. assert (E : U0 0%nat = U0 1%nat); [|apply DI in E; lia]. apply (coords_ext D _ _ KD). intros a La. pose proof (proj2 scale_side 0%nat 1%nat a ltac:(lia) ltac:(lia) La). pose proof (proj2 scale_side 1%nat 0%nat a ltac:(lia) ltac:(lia) La). lra.
  Qed.
  Lemma unit_range i a : (i < n)%nat -> (a < dim D)%nat -> 0 <= nth a (coords D (unitU i)) 0 <= 1.
  Proof.
    intros Li La. unfold unitU. rewrite coords_scal, coords_sub by exact KD. pose proof scale_pos as SP. pose proof (low_le fr n U0 a i KF La Li). assert (nth a (coords D (U0 i)) 0 - nth a (coords D (low fr n U0)) 0 <= scale) by (apply maxl_ge, all_in; exists i, a; auto).
    split; [apply Rmult_le_pos; [left; apply Rinv_0_lt_compat; auto|lra]|]. apply Rmult_le_reg_l with scale; [auto|]. rewrite <- Rmult_assoc, Rinv_r by lra. lra.
  Qed.
  Definition goback (p : pt D) : pt D := padd D (pscal D scale p) (low fr n U0).
  Lemma goback_unit i : goback (unitU i) = U0 i.
  Proof. pose proof scale_pos. unfold goback, unitU. by_coords KD. field. lra. Qed.
  Lemma goback_norm p i : pnorm D (psub D (goback p) (U0 i)) = scale * pnorm D (psub D p (unitU i)).
  Proof.
    pose proof scale_pos. rewrite <- (Rabs_pos_eq scale) at 1 by lra. rewrite <- (norm_scal D (known_laws D KD)). f_equal. unfold goback, unitU. by_coords KD. field. lra.
  Qed.
  Lemma goback_step p k nrm : padd D (goback p) (pscal D (scale * k) nrm) = goback (padd D p (pscal D k nrm)).
  Proof. unfold goback. by_coords KD. ring. Qed.
  Lemma unit_distinct : distinct D n unitU.
  Proof. intros i j Li Lj E. apply DI; auto. rewrite <- (goback_unit i), <- (goback_unit j), E. auto. Qed.
  Lemma in_unit_sub idx : (forall k, In k idx -> (k < n)%nat) -> in_unit fr (length idx) (fun k => unitU (nth k idx 0%nat)) = true.
  Proof.
    intros H. unfold in_unit. apply forallb_forall. intros k Ik. apply in_seq in Ik. apply forallb_forall. intros x Ix. apply (coords_in D _ _ KD) in Ix. destruct Ix as (a & La & ->).
    pose proof (unit_range (nth k idx 0%nat) a (H _ (nth_In idx 0%nat (proj2 Ik))) La). apply andb_true_iff. split; apply le_b_true; lra.
  Qed.


  Variable S0 : nat -> R.
  Variable clamp0 : option R.
  Definition unitS (i : nat) : R := S0 i / scale.
  Definition unitC : option R := match clamp0 with None => None | Some c => Some (c / scale) end.
  Lemma unitS_neg i : unitS i < 0 <-> S0 i < 0.
  Proof.
    pose proof scale_pos as SP. assert (E : S0 i = unitS i * scale) by (unfold unitS; field; lra). split; intros H; [rewrite E; nra|]. destruct (Rlt_le_dec (unitS i) 0); [auto|]. exfalso. rewrite E in H. nra.
  Qed.
  Lemma unitS_abs i : scale * Rabs (unitS i) = Rabs (S0 i).
  Proof. pose proof scale_pos as SP. rewrite <- (Rabs_pos_eq scale) at 1 by lra. rewrite <- Rabs_mult. f_equal. unfold unitS. field. lra. Qed.
  Lemma unit_below i : below unitC (Rabs (unitS i)) <-> below clamp0 (Rabs (S0 i)).
  Proof.
    pose proof scale_pos as SP. unfold below, unitC. destruct clamp0 as [c|]; [|tauto]. rewrite <- (unitS_abs i). split; intros H.
    - apply (Rmult_lt_compat_l scale) in H; [|auto]. replace (scale * (c / scale)) with c in H by (field; lra). auto.
    - apply Rmult_lt_reg_l with scale; [auto|]. replace (scale * (c / scale)) with c by (field; lra). auto.
  Qed.
  (** an oriented point of the unit box that is right for the spheres related to its own *)
  Variable tol : R.
  Hypothesis TP : 0 < tol.
  Definition good (J : nat -> nat -> Prop) (e : oriented fr) : Prop :=
    let '(p, nrm, i) := e in (i < n)%nat /\ below unitC (Rabs (unitS i)) /\ pnorm D (psub D p (unitU i)) = Rabs (unitS i) /\ pnorm D nrm = 1
      /\ (epsilon < Rabs (unitS i) -> padd D p (pscal D (unitS i) nrm) = unitU i) /\ forall j, (j < n)%nat -> J i j -> j <> i -> Rabs (unitS j) - tol <= pnorm D (psub D p (unitU j)).
  Lemma good_back J p nrm i : good J (p, nrm, i) -> belongs D U0 S0 scale clamp0 (goback p) nrm i /\ forall j, (j < n)%nat -> J i j -> j <> i -> outside_of D U0 S0 (tol * scale) (goback p) j.
  Proof.
    pose proof scale_pos as SP. intros (Li & BC & NP & NU & ST & OUT). split.
    - split; [rewrite goback_norm, NP; apply unitS_abs|]. split; [auto|]. split; [|apply unit_below; auto].
      intros EP. replace (S0 i) with (scale * unitS i) by (unfold unitS; field; lra). rewrite goback_step, ST, goback_unit; auto. apply Rmult_lt_reg_l with scale; [auto|]. rewrite unitS_abs. lra.
    - intros j Lj Jj NJ. unfold outside_of. rewrite goback_norm, <- (unitS_abs j). specialize (OUT j Lj Jj NJ). apply (Rmult_le_compat_l scale) in OUT; lra.
  Qed.
  Variables (bs mpps nls lsi : Z) (lst : R).
  Lemma batch_ok m draw perm : batches m draw perm -> (0 < m)%nat -> batch_of bs m draw perm <> [] /\ (forall j, In j (batch_of bs m draw perm) -> (j < m)%nat) /\ (whole bs m -> forall j, (j < m)%nat -> In j (batch_of bs m draw perm)).
  Proof.
    intros (B1 & B2 & B3) M0. unfold batch_of. destruct ((0 <? bs)%Z && (bs <? Z.of_nat m)%Z) eqn:E.
    - split; [auto|]. split; [auto|]. apply andb_true_iff in E. destruct E as (E1 & E2). apply Z.ltb_lt in E1, E2. intros [W|W]; lia.
    - split; [intros EQ; rewrite EQ in B3; apply Permutation_length in B3; rewrite seq_length in B3; cbn in B3; lia|]. split; [intros j Ij; apply (Permutation_in _ B3), in_seq in Ij; lia|]. intros _ j Lj. apply (Permutation_in _ (Permutation_sym B3)), in_seq. lia.
  Qed.
  (** ** one of the two searches *)
  Lemma part_ok e idx : NoDup idx -> (forall k, In k idx -> (k < n)%nat) -> idx <> [] -> search_ok e (length idx) ->
    exists c, sdf_to_point_cloud fr bs nls lsi tol e (length idx) (fun k => unitU (nth k idx 0%nat)) (fun k => unitS (nth k idx 0%nat)) unitC = Some c
      /\ (forall x, In x (map (fun x => (fst x, nth (snd x) idx 0%nat)) c) -> In (snd x) idx /\ good (fun i j => whole bs n /\ In j idx) x)
      /\ (outside fr e <> [] -> (0 <= lsi)%Z -> forall i, In i idx -> below unitC (Rabs (unitS i)) -> let p := padd D (unitU i) (pscal D (Rabs (unitS i)) (direction D (psub D (s_nearest fr e (unitU i)) (unitU i)))) in
             (forall j, In j idx -> j <> i -> Rabs (unitS j) - tol <= pnorm D (psub D p (unitU j))) -> exists nrm, In (p, nrm, i) (map (fun x => (fst x, nth (snd x) idx 0%nat)) c)).
  Proof.
    intros ND LI NE (OB & OS & OO & OC). assert (M0 : (0 < length idx)%nat) by (destruct idx; [congruence|cbn; lia]). destruct (batch_ok _ _ _ OB M0) as (B1 & B2 & B3). unfold sdf_to_point_cloud. rewrite in_unit_sub by auto. cbn [negb].
    destruct (outside fr e) as [|o os] eqn:EO; [exists []; split; [auto|]; split; [intros x []|congruence]|].
    set (U' := fun k => unitU (nth k idx 0%nat)). set (S' := fun k => unitS (nth k idx 0%nat)). set (batch := batch_of bs (length idx) _ _) in *.
    assert (DI' : distinct D (length idx) U') by (intros i j Ii Ij E; apply unit_distinct in E; [|apply LI, nth_In; auto|apply LI, nth_In; auto]; apply (proj1 (NoDup_nth idx 0%nat) ND); auto).
    destruct (C91_cloud D (s_sort fr e) (length idx) U' S' batch nls lsi tol unitC (s_nearest fr e) KD OS DI' B1 B2 (Rlt_le _ _ TP)) as (tree & c & TR & RUN & _ & TAN & COMP). rewrite TR, RUN by auto. exists c. split; [auto|]. split.
    - intros x Ix. apply in_map_iff in Ix. destruct Ix as (((p, nrm), k) & <- & Ix). destruct (TAN _ Ix) as (Lk & BC & T1 & T2 & T3 & T4). cbn [fst snd] in *. split; [apply nth_In; auto|]. split; [apply LI, nth_In; auto|]. split; [exact BC|]. split; [exact T1|]. split; [exact T3|]. split; [exact T4|].
      intros j Lj (W & Ij) NJ. destruct (In_nth _ _ 0%nat Ij) as (q & Lq & Eq). assert (WQ : whole bs (length idx)). { destruct W as [W|W]; [left; auto|right]. assert (length idx <= n)%nat; [|lia]. rewrite <- (seq_length n 0). apply NoDup_incl_length; [auto|]. intros k' Ik'. apply in_seq. specialize (LI _ Ik'). lia. }
      specialize (T2 q (B3 WQ q Lq)). unfold U', S' in T2. rewrite Eq in T2. apply T2. intros ->. apply NJ. auto.
    - intros _ LS i Ii BC FR. destruct (In_nth _ _ 0%nat Ii) as (k & Lk & Ek). destruct (COMP k Lk LS) as (nrm & I).
      + unfold S'. rewrite Ek. auto.
      + unfold U', S'. rewrite Ek. intros j Ij NJ. apply FR; [apply nth_In; auto|]. intros E. apply NJ. apply (proj1 (NoDup_nth idx 0%nat) ND); auto. rewrite E, Ek. auto.
      + exists nrm. apply in_map_iff. exists (padd D (U' k) (pscal D (Rabs (S' k)) (direction D (psub D (s_nearest fr e (U' k)) (U' k)))), nrm, k). split; [|exact I]. cbn [fst snd]. unfold U', S'. rewrite Ek. reflexivity.
  Qed.
  (** ** fine tuning *)
  Variable face : Type.
  Variable mesher : list (pt D * pt D) -> list (pt D) * list face.
  Variable env : nat -> list (oriented fr) -> tune_env fr.
  Hypothesis EOK : forall it c, tune_env_ok (env it c) n.
  Hypothesis EAF : forall it c, (forall x, In x c -> on_sphere D n unitU unitS (fst (fst x), snd x)) -> antipode_free D unitU unitS (t_wind fr (env it c)) (map (fun x => (fst (fst x), snd x)) c) (t_proj fr (env it c)) (t_proj_cloud fr (env it c)).
  Lemma good_on J c : (forall x, In x c -> good J x) -> forall x, In x c -> on_sphere D n unitU unitS (fst (fst x), snd x).
  Proof. intros H ((p, nrm), i) I. destruct (H _ I) as (A & _ & B & _). split; auto. Qed.
  Lemma fine_ok J : forall k it c, (forall x, In x c -> good J x) -> exists c', fine_tune fr bs mpps nls lsi lst tol face mesher k it env n unitU unitS unitC c = Some c'
    /\ ((c' = c /\ (k = 0%nat \/ (length c < 2)%nat \/ fst (mesher (pts_of fr c)) = [])) \/ forall x, In x c' -> good (fun _ _ => whole bs n) x).
  Proof.
    intros k. revert J. induction k as [|k IH]; intros J it c HC; [exists c; cbn; auto|]. cbn [fine_tune]. destruct (Nat.ltb_spec (length c) 2) as [LT|GE]; [exists c; auto 6|].
    destruct (fst (mesher (pts_of fr c))) as [|v V] eqn:EM; [exists c; auto 6|]. destruct (EOK it c) as (OB & O1 & O2 & O3 & O4 & O5 & O6). set (e := env it c) in *. destruct (batch_ok _ _ _ OB ltac:(lia)) as (B1 & B2 & B3). set (batch := batch_of bs n _ _) in *.
    destruct (init_ok D tol (spheres D unitU unitS batch)) as (tree & TR & _); [unfold spheres; destruct batch; [congruence|discriminate]|]. rewrite TR. cbv zeta. set (cloud := map (fun x : pt D * pt D * nat => (fst (fst x), snd x)) c).
    assert (CO : forall a, In a cloud -> on_sphere D n unitU unitS a) by (intros a Ia; apply in_map_iff in Ia; destruct Ia as (x & <- & Ix); apply (good_on J c HC x Ix)).
    pose proof (free_is_antipode_free D unitU unitS (t_wind fr e) cloud (t_proj fr e) (t_proj_cloud fr e) KD (EAF it c (good_on J c HC))) as NA.
    destruct (move_all_ok D KD n unitU unitS batch tol B1 B2 (Rlt_le _ _ TP) tree TR cloud CO (t_dsq fr e) (t_proj fr e) (t_wind fr e) (fun _ => 0) (t_proj_cloud fr e) (t_sort2 fr e) O2 mpps lst NA TP (t_order fr e) (t_threads fr e) (t_sched fr e) O3 O4 O5) as (pts & EMV & PM). rewrite EMV.
    destruct (tune_ok D KD (t_sort fr e) O1 n unitU unitS batch nls lsi tol unitC unit_distinct B1 B2 (Rlt_le _ _ TP) tree TR cloud CO (t_dsq fr e) (t_proj fr e) (t_wind fr e) (fun _ => 0) (t_proj_cloud fr e) (t_sort2 fr e) O2 mpps lst NA TP (t_order fr e) (t_threads fr e) (t_sched fr e) O3 O4 O5 (t_sched2 fr e (length pts))) as (c1 & EC1 & PC1); [rewrite <- (Permutation_length PM); apply O6|]. rewrite EC1.
    assert (G1 : forall x, In x c1 -> good (fun _ _ => whole bs n) x).
    { intros ((p, nrm), i) Ix. apply (Permutation_in _ PC1) in Ix. destruct (tuned_tangent D KD (t_sort fr e) O1 n unitU unitS batch nls lsi tol unitC unit_distinct B1 B2 (Rlt_le _ _ TP) tree TR cloud CO (t_dsq fr e) (t_proj fr e) (t_wind fr e) (fun _ => 0) (t_proj_cloud fr e) (t_sort2 fr e) O2 mpps lst NA TP _ Ix) as (Li & BC & T1 & T2 & T3 & T4). cbn [snd] in *.
      split; [auto|]. split; [auto|]. split; [auto|]. split; [auto|]. split; [auto|]. intros j Lj W NJ. apply T2; auto. }
    destruct (IH _ (Datatypes.S it) c1 G1) as (c' & E & H). exists c'. split; [exact E|]. right. destruct H as [(-> & _)|H]; auto.
  Qed.
End Norm.

(** * The driver *)
(** the searches and iterations meet their contracts *)
Definition searches_ok {fr} (e : search_env fr) (n : nat) (sign : nat -> Prop) : Prop :=
  forall idx, NoDup idx -> (forall i, In i idx <-> (i < n)%nat /\ sign i) -> idx <> [] -> search_ok e (length idx).
Definition tunes_ok {fr} (env : nat -> list (oriented fr) -> tune_env fr) (n : nat) (U : nat -> pt (sp fr)) (S : nat -> R) : Prop :=
  forall it c, tune_env_ok (env it c) n /\ ((forall x, In x c -> on_sphere (sp fr) n U S (fst (fst x), snd x)) ->
    antipode_free (sp fr) U S (t_wind fr (env it c)) (map (fun x => (fst (fst x), snd x)) c) (t_proj fr (env it c)) (t_proj_cloud fr (env it c))).
Lemma side_scale fr n U s : frames fr -> (2 <= n)%nat -> longest_side (sp fr) n U s -> s = scale fr n U.
Proof.
  intros KF N2 ((i & j & a & Li & Lj & La & ->) & H). pose proof (scale_side fr KF n U N2) as ((i' & j' & a' & Li' & Lj' & La' & E) & H'). specialize (H i' j' a' Li' Lj' La'). specialize (H' i j a Li Lj La). lra.
Qed.
Lemma lowest_low fr n U lo : frames fr -> (0 < n)%nat -> lowest (sp fr) n U lo -> lo = low fr n U.
Proof.
  intros KF N0 H. apply (coords_ext _ _ _ (frames_known fr KF)). intros a La. destruct (H a La) as ((i & Li & E) & B). destruct (low_at fr n U a KF La N0) as (j & Lj & EJ). specialize (B j Lj). pose proof (low_le fr n U a i KF La Li). lra.
Qed.
Section Run.
  Variables (fr : frame) (KF : frames fr).
  Notation D := (sp fr).
  Let KD : known D := frames_known fr KF.
  Variables (n : nat) (U : nat -> pt D) (S : nat -> R) (clamp : option R).
  Hypotheses (N2 : (2 <= n)%nat) (DI : distinct D n U).
  Variables (iters bs mpps nls lsi : Z) (lst tol : R).
  Hypothesis TP : 0 < tol.
  Notation U' := (unitU fr n U).
  Notation S' := (unitS fr n U S).
  Notation C' := (unitC fr n U clamp).
  Definition side_of (neg : bool) : list nat := filter (fun i => if neg then lt_b (S' i) 0 else negb (lt_b (S' i) 0)) (seq 0 n).
  Lemma side_of_in neg i : In i (side_of neg) <-> (i < n)%nat /\ (if neg then S i < 0 else ~ S i < 0).
  Proof.
    unfold side_of. rewrite filter_In, in_seq. assert (E : lt_b (S' i) 0 = true <-> S i < 0) by (rewrite lt_b_true; apply (unitS_neg fr KF n U N2 DI S i)). destruct neg; [rewrite E; split; intros (A & B); split; auto; lia|]. rewrite negb_true_iff. split; intros (A & B); split; try lia; [intros Q; apply E in Q; congruence|destruct (lt_b (S' i) 0); [exfalso; apply B, E; auto|auto]].
  Qed.
  Definition part (e : search_env fr) (idx : list nat) : option (option (list (oriented fr))) :=
    match idx with
    | [] => Some None
    | _ => match sdf_to_point_cloud fr bs nls lsi tol e (length idx) (fun k => U' (nth k idx 0%nat)) (fun k => S' (nth k idx 0%nat)) C' with
           | None => None | Some c => Some (Some (map (fun x => (fst x, nth (snd x) idx 0%nat)) c)) end
    end.
  Definition all_of (o : option (list (oriented fr))) : list (oriented fr) := match o with Some c => c | None => [] end.
  Definition start_of (e : search_env fr) (i : nat) : pt D := padd D (U' i) (pscal D (Rabs (S' i)) (direction D (psub D (s_nearest fr e (U' i)) (U' i)))).
  Lemma part_run (e : search_env fr) (neg : bool) : searches_ok e n (fun i : nat => if neg then S i < 0 else ~ S i < 0) ->
    exists o, part e (side_of neg) = Some o /\ (forall x, In x (all_of o) -> good fr n U S clamp tol (fun i j => whole bs n /\ same_sign (S j) (S i)) x)
      /\ (outside fr e <> [] -> (0 <= lsi)%Z -> forall i, In i (side_of neg) -> below C' (Rabs (S' i)) -> (forall j, (j < n)%nat -> same_sign (S j) (S i) -> j <> i -> Rabs (S' j) - tol <= pnorm D (psub D (start_of e i) (U' j))) -> exists nrm, In (start_of e i, nrm, i) (all_of o)).
  Proof.
    intros SO. pose proof (side_of_in neg) as SI. assert (ND : NoDup (side_of neg)) by (apply NoDup_filter, seq_NoDup). unfold part. set (idx := side_of neg) in *. clearbody idx.
    assert (SS : forall i j, In i idx -> (j < n)%nat -> In j idx <-> same_sign (S j) (S i)).
    { intros i j Ii Lj. apply SI in Ii. rewrite SI. unfold same_sign. destruct neg; tauto. }
    destruct idx as [|i0 r] eqn:EI; [exists None; split; [auto|]; split; [intros x []|intros _ _ i []]|]. rewrite <- EI in *. assert (NE : idx <> []) by (rewrite EI; discriminate). clear EI.
    destruct (part_ok fr KF n U N2 DI S clamp tol TP bs nls lsi e idx ND ltac:(intros k Ik; apply SI; auto) NE (SO idx ND SI NE)) as (c & -> & G & F). exists (Some (map (fun x => (fst x, nth (snd x) idx 0%nat)) c)). split; [reflexivity|]. cbn [all_of]. split.
    - intros x Ix. destruct (G x Ix) as (Is & GG). destruct x as ((p, nrm), i). cbn [snd] in Is. destruct GG as (A1 & A2 & A3 & A4 & A5 & A6). split; [auto|]. split; [auto|]. split; [auto|]. split; [auto|]. split; [auto|]. intros j Lj (W & SG) NJ. apply A6; auto. split; [auto|]. apply (SS i j); auto.
    - intros OE LS i Ii BC FR. apply F; auto. intros j Ij NJ. apply FR; auto; [apply SI; auto|apply (SS i j); auto; apply SI; auto].
  Qed.
  Variable face : Type.
  Variable mesher : list (pt D * pt D) -> list (pt D) * list face.
  Variable env : nat -> list (oriented fr) -> tune_env fr.
  Variables epos eneg : search_env fr.
  (** the end of the function, from the first cloud on *)
  Definition finish (cloud : option (list (oriented fr))) : option (result fr face) :=
    match cloud with
    | None => Some (Build_result fr face ([]) ([]) (None))
    | Some [] => Some (Build_result fr face ([]) ([]) (Some []))
    | Some c =>
        if (mpps <? 1)%Z then None else
        match fine_tune fr bs mpps nls lsi lst tol face mesher (Z.to_nat iters) 0 env n U' S' C' c with
        | None => None
        | Some c' =>
            let '(V, F) := if Nat.ltb (length c') 2 then ([], []) else mesher (pts_of fr c') in
            let PN := Some (map (fun q => (goback fr n U (fst q), snd q)) (pts_of fr c')) in
            match V with [] => Some (Build_result fr face ([]) (F) (PN)) | _ => Some (Build_result fr face (map (goback fr n U) V) (F) (PN)) end
        end
    end.
  Notation run := (reach_for_the_arcs fr iters bs mpps nls lsi lst tol face mesher epos eneg env n U S clamp).
  Lemma run_is : (0 < n)%nat -> scale fr n U <> 0 -> run = match part epos (side_of false) with None => None | Some cp => match part eneg (side_of true) with None => None | Some cn =>
      finish (match cp with None => cn | Some [] => cn | Some c => match cn with None => cp | Some [] => cp | Some c' => Some (c ++ c') end end) end end.
  Proof.
    clear DI TP N2. intros N0 S0. unfold reach_for_the_arcs. cbv zeta. destruct (Nat.eqb_spec n 0); [lia|]. replace (eq_b _ 0) with false; [reflexivity|]. symmetry. destruct (eq_b _ 0) eqn:E; [|auto]. apply eq_b_true in E. contradiction.
  Qed.
  Hypotheses (PM : (1 <= mpps)%Z) (TO : tunes_ok env n U' S').
  Lemma finish_ok J o : (forall x, In x (all_of o) -> good fr n U S clamp tol J x) -> exists out, finish o = Some out
    /\ (forall ps p nrm, oPN fr face out = Some ps -> In (p, nrm) ps -> exists q i, p = goback fr n U q /\ (good fr n U S clamp tol J (q, nrm, i) \/ good fr n U S clamp tol (fun _ _ => whole bs n) (q, nrm, i))
          /\ ((1 <= iters)%Z -> oV fr face out <> [] -> good fr n U S clamp tol (fun _ _ => whole bs n) (q, nrm, i)))
    /\ ((iters <= 0)%Z -> all_of o <> [] -> exists ps, oPN fr face out = Some ps /\ forall q nrm i, In (q, nrm, i) (all_of o) -> In (goback fr n U q, nrm) ps).
  Proof.
    intros G. unfold finish. destruct o as [[|x0 c0]|]; [eexists; split; [reflexivity|]; split; [intros ps p nrm [= <-] []|cbn; congruence]| |eexists; split; [reflexivity|]; split; [discriminate|cbn; congruence]].
    replace (mpps <? 1)%Z with false by (symmetry; apply Z.ltb_ge; auto). cbn [all_of] in *. set (c := x0 :: c0) in *.
    destruct (fine_ok fr KF n U N2 DI S clamp tol TP bs mpps nls lsi lst face mesher env ltac:(intros it c'; apply TO) ltac:(intros it c'; apply TO) J (Z.to_nat iters) 0%nat c G) as (c' & EF & H). rewrite EF.
    set (vf := if Nat.ltb (length c') 2 then ([], []) else mesher (pts_of fr c')). destruct vf as (V, F) eqn:EV.
    assert (IC : forall p nrm, In (p, nrm) (map (fun q => (goback fr n U (fst q), snd q)) (pts_of fr c')) -> exists q i, p = goback fr n U q /\ In (q, nrm, i) c').
    { intros p nrm I. apply in_map_iff in I. destruct I as ((q, m) & [= <- <-] & I). apply in_map_iff in I. destruct I as (((q', m'), i) & [= <- <-] & I). eauto. }
    assert (GO : forall out, oPN fr face out = Some (map (fun q => (goback fr n U (fst q), snd q)) (pts_of fr c')) -> (oV fr face out <> [] -> V <> []) ->
      (forall ps p nrm, oPN fr face out = Some ps -> In (p, nrm) ps -> exists q i, p = goback fr n U q /\ (good fr n U S clamp tol J (q, nrm, i) \/ good fr n U S clamp tol (fun _ _ => whole bs n) (q, nrm, i))
          /\ ((1 <= iters)%Z -> oV fr face out <> [] -> good fr n U S clamp tol (fun _ _ => whole bs n) (q, nrm, i)))
      /\ ((iters <= 0)%Z -> c <> [] -> exists ps, oPN fr face out = Some ps /\ forall q nrm i, In (q, nrm, i) c -> In (goback fr n U q, nrm) ps)).
    { intros out -> VV. split.
      - intros ps p nrm [= <-] I. destruct (IC p nrm I) as (q & i & -> & Iq). exists q, i. split; [auto|]. split; [destruct H as [(-> & _)|H]; auto|]. intros I1 NV. destruct H as [(-> & H)|H]; [|auto]. exfalso. apply (VV NV). unfold vf in EV. destruct H as [H|[H|H]]; [lia| |].
        + apply Nat.ltb_lt in H. rewrite H in EV. congruence.
        + destruct (Nat.ltb (length c) 2); [congruence|]. rewrite EV in H. auto.
      - intros IZ _. eexists. split; [reflexivity|]. replace (Z.to_nat iters) with 0%nat in EF by lia. cbn [fine_tune] in EF. injection EF as <-. intros q nrm i Iq. apply in_map_iff. exists (q, nrm). split; [auto|]. apply in_map_iff. exists (q, nrm, i). auto. }
    destruct V as [|v V]; eexists; (split; [reflexivity|]); apply GO; [reflexivity|cbn; congruence|reflexivity|intros _; discriminate].
  Qed.
  Hypotheses (SP : searches_ok epos n (fun i : nat => ~ S i < 0)) (SN : searches_ok eneg n (fun i : nat => S i < 0)).
  Lemma run_ok : exists out, run = Some out
    /\ (forall ps p nrm, oPN fr face out = Some ps -> In (p, nrm) ps -> exists i, (i < n)%nat /\ belongs D U S (scale fr n U) clamp p nrm i
          /\ (whole bs n -> forall j, (j < n)%nat -> j <> i -> same_sign (S j) (S i) \/ ((1 <= iters)%Z /\ oV fr face out <> []) -> outside_of D U S (tol * scale fr n U) p j))
    /\ ((iters <= 0)%Z -> (0 <= lsi)%Z -> forall (neg : bool) i, let e := if neg then eneg else epos in In i (side_of neg) -> outside fr e <> [] -> below C' (Rabs (S' i)) ->
          (forall j, (j < n)%nat -> same_sign (S j) (S i) -> j <> i -> Rabs (S' j) - tol <= pnorm D (psub D (start_of e i) (U' j))) -> exists ps nrm, oPN fr face out = Some ps /\ In (goback fr n U (start_of e i), nrm) ps).
  Proof.
    rewrite run_is by (try lia; pose proof (scale_pos fr KF n U N2 DI); lra). destruct (part_run epos false SP) as (cp & -> & G1 & F1). destruct (part_run eneg true SN) as (cn & -> & G2 & F2). set (o := match cp with None => cn | _ => _ end).
    assert (AO : all_of o = all_of cp ++ all_of cn) by (unfold o; destruct cp as [[|x c]|]; cbn [all_of app]; auto; destruct cn as [[|y d]|]; cbn [all_of]; rewrite ?app_nil_r; auto).
    destruct (finish_ok (fun i j => whole bs n /\ same_sign (S j) (S i)) o) as (out & EO & H1 & H2); [intros x Ix; rewrite AO in Ix; apply in_app_iff in Ix; destruct Ix; auto|]. exists out. split; [auto|]. split.
    - intros ps p nrm EP I. destruct (H1 ps p nrm EP I) as (q & i & -> & GG & GA). exists i. split; [destruct GG as [GG|GG]; apply GG|]. split; [destruct GG as [GG|GG]; apply (good_back fr KF n U N2 DI S clamp tol _ _ _ _ GG)|].
      intros W j Lj NJ [SG|(I1 & NV)].
      + destruct GG as [GG|GG]; apply (good_back fr KF n U N2 DI S clamp tol _ _ _ _ GG); auto.
      + specialize (GA I1 NV). apply (good_back fr KF n U N2 DI S clamp tol _ _ _ _ GA); auto.
    - intros IZ LS neg i e Ii OE BC FR. assert (exists nrm, In (start_of e i, nrm, i) (all_of o)) as (nrm & I).
      { rewrite AO. unfold e in *. destruct neg; [destruct (F2 OE LS i Ii BC FR) as (nrm & I)|destruct (F1 OE LS i Ii BC FR) as (nrm & I)]; exists nrm; apply in_app_iff; auto. }
      destruct (H2 IZ) as (ps & EP & IN); [intros Q; rewrite Q in I; destruct I|]. exists ps, nrm. split; [auto|]. apply (IN _ _ i I).
  Qed.
End Run.

(** ** With distinct samples, a positive tolerance and searches and reconstructions that do as they say, reach_for_the_arcs returns, and every returned point lies on the sphere of a sample below the clamp, with a unit normal along which that sample is at its signed distance. If no batches are drawn, it is outside the spheres of all other samples of the same sign up to tol times the size of the data, and outside all other spheres if the cloud was fine-tuned and a mesh is returned. *)
Theorem C93_points fr iters bs mpps nls lsi lst tol face mesher epos eneg env n U S clamp side lo :
  frames fr -> (2 <= n)%nat -> distinct (sp fr) n U -> longest_side (sp fr) n U side -> lowest (sp fr) n U lo -> 0 < tol -> (1 <= mpps)%Z ->
  searches_ok epos n (fun i : nat => ~ S i < 0) -> searches_ok eneg n (fun i : nat => S i < 0) -> tunes_ok env n (fun i => unitize (sp fr) side lo (U i)) (fun i => S i / side) ->
  exists out, reach_for_the_arcs fr iters bs mpps nls lsi lst tol face mesher epos eneg env n U S clamp = Some out
    /\ forall ps p nrm, oPN fr face out = Some ps -> In (p, nrm) ps -> exists i, (i < n)%nat /\ belongs (sp fr) U S side clamp p nrm i
         /\ (whole bs n -> forall j, (j < n)%nat -> j <> i -> same_sign (S j) (S i) \/ ((1 <= iters)%Z /\ oV fr face out <> []) -> outside_of (sp fr) U S (tol * side) p j).
Proof.
  intros KF N2 DI LS LO TP PM SP SN TO. apply side_scale in LS; auto. apply lowest_low in LO; auto; [|lia]. subst side lo.
  destruct (run_ok fr KF n U S clamp N2 DI iters bs mpps nls lsi lst tol TP face mesher env epos eneg PM TO SP SN) as (out & E & H & _). exists out. auto.
Qed.
(** ** A sample is not missed without reason: without fine tuning, a sample below the clamp whose first candidate - its sphere's point towards the closest outside point of its sign - is free of the other spheres of its sign gives that candidate *)
Theorem C93_found fr iters bs mpps nls lsi lst tol face mesher epos eneg env n U S clamp side lo i e :
  frames fr -> (2 <= n)%nat -> distinct (sp fr) n U -> longest_side (sp fr) n U side -> lowest (sp fr) n U lo -> 0 < tol -> (1 <= mpps)%Z ->
  searches_ok epos n (fun i : nat => ~ S i < 0) -> searches_ok eneg n (fun i : nat => S i < 0) -> tunes_ok env n (fun i => unitize (sp fr) side lo (U i)) (fun i => S i / side) ->
  (iters <= 0)%Z -> (0 <= lsi)%Z -> (i < n)%nat -> (S i < 0 /\ e = eneg \/ ~ S i < 0 /\ e = epos) -> outside fr e <> [] -> below clamp (Rabs (S i)) ->
  let u := unitize (sp fr) side lo (U i) in let p := padd (sp fr) (U i) (pscal (sp fr) (Rabs (S i)) (direction (sp fr) (psub (sp fr) (s_nearest fr e u) u))) in
  (forall j, (j < n)%nat -> same_sign (S j) (S i) -> j <> i -> outside_of (sp fr) U S (tol * side) p j) ->
  exists out ps nrm, reach_for_the_arcs fr iters bs mpps nls lsi lst tol face mesher epos eneg env n U S clamp = Some out /\ oPN fr face out = Some ps /\ In (p, nrm) ps.
Proof.
  intros KF N2 DI LS LO TP PM SP SN TO IZ LI Li SE OE BC u p FR. apply side_scale in LS; auto. apply lowest_low in LO; auto; [|lia]. subst side lo. pose proof (frames_known fr KF) as KD. pose proof (scale_pos fr KF n U N2 DI) as SC.
  destruct (run_ok fr KF n U S clamp N2 DI iters bs mpps nls lsi lst tol TP face mesher env epos eneg PM TO SP SN) as (out & E & _ & F). set (neg := if Rlt_dec (S i) 0 then true else false).
  assert (EE : e = if neg then eneg else epos) by (unfold neg; destruct (Rlt_dec (S i) 0), SE as [(A & B)|(A & B)]; tauto). assert (PE : p = goback fr n U (start_of fr n U S e i)).
  { unfold p, start_of. fold (unitU fr n U i). set (d := direction _ _). rewrite <- (unitS_abs fr KF n U N2 DI S i). rewrite <- (goback_unit fr KF n U N2 DI i) at 1. apply goback_step; auto. }
  destruct (F IZ LI neg i) as (ps & nrm & EP & I).
  - apply side_of_in; auto. split; [auto|]. unfold neg. destruct (Rlt_dec (S i) 0); auto.
  - rewrite <- EE. auto.
  - apply unit_below; auto.
  - rewrite <- EE. intros j Lj SG NJ. specialize (FR j Lj SG NJ). unfold outside_of in FR. rewrite PE, goback_norm, <- (unitS_abs fr KF n U N2 DI S j) in FR by auto. apply Rmult_le_reg_l with (scale fr n U); [auto|]. lra.
  - exists out, ps, nrm. rewrite <- EE, <- PE in I. auto.
Qed.

(** ** The mesh is the one reconstructed from the returned oriented points in the unit box, moved back and with the faces unchanged; there is none for fewer than two points *)
Theorem C93_mesh fr iters bs mpps nls lsi lst tol face mesher epos eneg env n U S clamp side lo out :
  frames fr -> (2 <= n)%nat -> longest_side (sp fr) n U side -> lowest (sp fr) n U lo ->
  reach_for_the_arcs fr iters bs mpps nls lsi lst tol face mesher epos eneg env n U S clamp = Some out ->
  match oPN fr face out with
  | None => oV fr face out = [] /\ oF fr face out = []
  | Some ps => ((length ps < 2)%nat -> oV fr face out = [] /\ oF fr face out = [])
      /\ ((2 <= length ps)%nat -> let '(V, F) := mesher (map (fun q => (unitize (sp fr) side lo (fst q), snd q)) ps) in
           oV fr face out = map (fun v => padd (sp fr) (pscal (sp fr) side v) lo) V /\ oF fr face out = F)
  end.
Proof.
  intros KF N2 LS LO E. apply side_scale in LS; auto. apply lowest_low in LO; auto; [|lia]. subst side lo. pose proof (frames_known fr KF) as KD. assert (SC : scale fr n U <> 0).
  { intros Z. unfold reach_for_the_arcs in E. cbv zeta in E. fold (scale fr n U) in E. rewrite Z in E. replace (eq_b 0 0) with true in E by (symmetry; apply eq_b_true; auto). rewrite orb_true_r in E. discriminate. }
  rewrite run_is in E by (auto; lia). destruct (part _ _ _ _ _ _ _ _ _ epos _) as [cp|]; [|discriminate]. destruct (part _ _ _ _ _ _ _ _ _ eneg _) as [cn|]; [|discriminate]. set (o := match cp with None => cn | _ => _ end) in E. clearbody o.
  unfold finish in E. destruct o as [[|x0 c0]|]; [injection E as <-; cbn; split; [auto|lia]| |injection E as <-; cbn; auto]. destruct (mpps <? 1)%Z; [discriminate|]. destruct (fine_tune _ _ _ _ _ _ _ _ _ _ _ _ _ _ _ _ _) as [c|]; [|discriminate].
  set (ps := map (fun q => (goback fr n U (fst q), snd q)) (pts_of fr c)) in E. assert (LP : length ps = length c) by (unfold ps, pts_of; rewrite !map_length; auto).
  assert (BK : map (fun q => (unitize (sp fr) (scale fr n U) (low fr n U) (fst q), snd q)) ps = pts_of fr c).
  { unfold ps. rewrite map_map. rewrite <- (map_id (pts_of fr c)) at 2. apply map_ext. intros (p, nrm). cbn [fst snd]. f_equal. unfold unitize, goback. by_coords KD. field. auto. }
  destruct (Nat.ltb_spec (length c) 2) as [LT|GE].
  - injection E as <-. cbn [oPN oV oF]. split; [auto|lia].
  - destruct (mesher (pts_of fr c)) as (V, F) eqn:EM. assert (Q : oPN fr face out = Some ps /\ oV fr face out = map (goback fr n U) V /\ oF fr face out = F) by (destruct V; injection E as <-; auto). destruct Q as (-> & -> & ->). split; [lia|]. intros _. rewrite BK, EM. auto.
Qed.

(** ** Scaling and moving the samples together with the distances and the clamp scales and moves the result *)
Definition similar (D : space) (a : R) (b p : pt D) : pt D := padd D (pscal D a p) b.
Lemma maxl_scal a l : 0 < a -> maxl (map (Rmult a) l) = a * maxl l.
Proof.
  intros A. destruct l as [|x l]; cbn [map maxl]; [ring|]. revert x. induction l as [|y l IH]; intros x; cbn [map fold_left]; [auto|]. rewrite <- IH. f_equal. rewrite RmaxRmult; [auto|lra].
Qed.
Section Similar.
  Variables (fr : frame) (KF : frames fr).
  Notation D := (sp fr).
  Let KD : known D := frames_known fr KF.
  Variables (n : nat) (U : nat -> pt D) (a : R) (b : pt D).
  Hypotheses (N0 : (0 < n)%nat) (A0 : 0 < a).
  Notation UU := (fun i => similar D a b (U i)).
  Lemma low_similar : low fr n UU = similar D a b (low fr n U).
  Proof.
    symmetry. apply lowest_low; auto. intros x Lx. assert (Q : forall p, nth x (coords D (similar D a b p)) 0 = a * nth x (coords D p) 0 + nth x (coords D b) 0) by (intros p; unfold similar; rewrite coords_add, coords_scal by exact KD; auto). split.
    - destruct (low_at fr n U x KF Lx N0) as (i & Li & E). exists i. split; [auto|]. rewrite !Q, E. auto.
    - intros i Li. rewrite !Q. pose proof (low_le fr n U x i KF Lx Li). nra.
  Qed.
  Lemma diff_similar p q : psub D (similar D a b p) (similar D a b q) = pscal D a (psub D p q).
  Proof. unfold similar. by_coords KD. ring. Qed.
  Lemma scale_similar : scale fr n UU = a * scale fr n U.
  Proof.
    unfold scale. rewrite <- maxl_scal by auto. f_equal. rewrite low_similar. induction (seq 0 n) as [|i l IH]; [auto|]. cbn [flat_map map]. rewrite map_app, <- IH. f_equal. rewrite diff_similar. clear -KF. destruct KF as [->| ->]; reflexivity.
  Qed.
  Hypothesis SC : scale fr n U <> 0.
  Lemma unitU_similar : unitU fr n UU = unitU fr n U.
  Proof. apply functional_extensionality. intros i. unfold unitU. rewrite scale_similar, low_similar, diff_similar. by_coords KD. field. lra. Qed.
  Lemma unitS_similar S : unitS fr n UU (fun i => a * S i) = unitS fr n U S.
  Proof. apply functional_extensionality. intros i. unfold unitS. rewrite scale_similar. field. lra. Qed.
  Lemma unitC_similar clamp : unitC fr n UU (option_map (Rmult a) clamp) = unitC fr n U clamp.
  Proof. unfold unitC. destruct clamp as [c|]; [|auto]. cbn [option_map]. rewrite scale_similar. f_equal. field. lra. Qed.
  Lemma goback_similar : goback fr n UU = (fun p => similar D a b (goback fr n U p)).
  Proof. apply functional_extensionality. intros p. unfold goback. rewrite scale_similar, low_similar. unfold similar. by_coords KD. ring. Qed.
End Similar.
Definition similar_result (fr : frame) (face : Type) (a : R) (b : pt (sp fr)) (r : result fr face) : result fr face :=
  Build_result fr face (map (similar (sp fr) a b) (oV fr face r)) (oF fr face r) (option_map (map (fun q => (similar (sp fr) a b (fst q), snd q))) (oPN fr face r)).
Theorem C93_equivariant fr iters bs mpps nls lsi lst tol face mesher epos eneg env n U S clamp a b : frames fr -> 0 < a ->
  reach_for_the_arcs fr iters bs mpps nls lsi lst tol face mesher epos eneg env n (fun i => similar (sp fr) a b (U i)) (fun i => a * S i) (option_map (Rmult a) clamp)
  = option_map (similar_result fr face a b) (reach_for_the_arcs fr iters bs mpps nls lsi lst tol face mesher epos eneg env n U S clamp).
Proof.
  intros KF A0. destruct (Nat.eq_dec n 0) as [->|N0]; [reflexivity|]. assert (N1 : (0 < n)%nat) by lia. pose proof (scale_similar fr KF n U a b N1 A0) as SS.
  destruct (Req_dec (scale fr n U) 0) as [Z|NZ].
  { assert (G : forall U S clamp, scale fr n U = 0 -> reach_for_the_arcs fr iters bs mpps nls lsi lst tol face mesher epos eneg env n U S clamp = None); [|rewrite !G; auto; rewrite SS, Z; ring].
    clear. intros U S clamp Z. unfold reach_for_the_arcs. cbv zeta. fold (scale fr n U). rewrite Z. replace (eq_b 0 0) with true by (symmetry; apply eq_b_true; auto). rewrite orb_true_r. auto. }
  rewrite !run_is by (auto; try lia; rewrite SS; nra). unfold part, side_of, finish. rewrite unitU_similar, unitS_similar, unitC_similar, goback_similar by auto.
  set (cp := match filter _ _ with [] => _ | _ => _ end). set (cn := match filter _ _ with [] => _ | _ => _ end). destruct cp as [cp|]; [|auto]. destruct cn as [cn|]; [|auto]. set (o := match cp with None => cn | _ => _ end). clearbody o.
  destruct o as [[|x0 c0]|]; auto. destruct (mpps <? 1)%Z; [auto|]. destruct (fine_tune _ _ _ _ _ _ _ _ _ _ _ _ _ _ _ _ _) as [c|]; [|auto]. destruct (if Nat.ltb (length c) 2 then _ else _) as (V, F).
  destruct V as [|v V]; cbn [option_map]; unfold similar_result; cbn [oV oF oPN option_map map]; rewrite ?map_map; reflexivity.
Qed.

(** ** With all samples in one place the function fails *)
Theorem C93_single fr iters bs mpps nls lsi lst tol face mesher epos eneg env n U S clamp : frames fr -> (forall i, (i < n)%nat -> U i = U 0%nat) ->
  reach_for_the_arcs fr iters bs mpps nls lsi lst tol face mesher epos eneg env n U S clamp = None.
Proof.
  intros KF H. destruct (Nat.eq_dec n 0) as [->|N0]; [reflexivity|]. assert (Z : scale fr n U = 0).
  { unfold scale. set (l := flat_map _ _). assert (AZ : forall x, In x l -> x = 0).
    { intros x Ix. apply in_flat_map in Ix. destruct Ix as (i & Ii & Ix). apply in_seq in Ii. pose proof (frames_known fr KF) as KD. apply (coords_in _ _ _ KD) in Ix. destruct Ix as (q & Lq & ->). rewrite coords_sub by exact KD. destruct (low_at fr n U q KF Lq ltac:(lia)) as (j & Lj & ->). rewrite (H i), (H j) by lia. ring. }
    destruct l as [|x l'] eqn:El; [auto|]. rewrite <- El in *. apply AZ, maxl_in. rewrite El. discriminate. }
  unfold reach_for_the_arcs. cbv zeta. fold (scale fr n U). rewrite Z. replace (eq_b 0 0) with true by (symmetry; apply eq_b_true; auto). rewrite orb_true_r. auto.
Qed.

(** the two samples of [C91_example] *)
Definition search1 : search_env F2 := Build_search_env F2 [(0, 1)] (fun _ => (0, 1)) [0%nat] [0%nat] (fun l => l) (fun i => i) [(0%nat, 5%nat)].
Definition tune1 : tune_env F2 := Build_tune_env F2 [1%nat] [1%nat; 0%nat] (fun l => l) (fun l => l) (fun i => (1 - i)%nat) 3 [(1%nat, 2%nat); (0%nat, 1%nat)] (fun m => map (fun k => (k, k)) (seq 0 m))
  (fun _ => 4) (fun _ => (2, 0)) (fun _ => 0) (fun _ => (0, 2)).
Theorem C93_example : forall mesher,
  (exists out ps nrm, reach_for_the_arcs F2 0 (-1) 3 3 20 0.01 0.0001 (nat * nat) mesher search1 search1 (fun _ _ => tune1) 2 U2 S2 None = Some out /\ oPN F2 _ out = Some ps /\ In (((0, / 4) : pt E2), nrm) ps)
  /\ exists out, reach_for_the_arcs F2 3 (-1) 3 3 20 0.01 0.0001 (nat * nat) mesher search1 search1 (fun _ _ => tune1) 2 U2 S2 None = Some out
     /\ forall ps p nrm, oPN F2 _ out = Some ps -> In (p, nrm) ps -> exists i, (i < 2)%nat /\ belongs E2 U2 S2 1 None p nrm i /\ (oV F2 _ out <> [] -> forall j, (j < 2)%nat -> j <> i -> outside_of E2 U2 S2 (0.0001 * 1) p j).
Proof.
  intros mesher. assert (KF : frames F2) by (left; auto). assert (DI : distinct E2 2 U2) by (intros [|[|i]] [|[|j]] A B; cbn; intros Q; try lia; injection Q as Q; lra).
  assert (LS : longest_side E2 2 U2 1).
  { split; [exists 1%nat, 0%nat, 0%nat; repeat split; try (cbn; lia); cbn; ring|]. intros [|[|i]] [|[|j]] [|[|x]] A B C; cbn in *; try lia; lra. }
  assert (LO : lowest E2 2 U2 (0, 0)). { intros [|[|x]] C; cbn in C; try lia; (split; [exists 0%nat; split; [lia|auto]|intros [|[|i]] L; cbn; try lia; lra]). }
  assert (ON : forall sign k, (k < 2)%nat -> (forall i, (i < 2)%nat -> (sign i <-> i = k)) -> searches_ok search1 2 sign).
  { intros sign k Lk Hk idx ND HI NE. assert (P : Permutation idx [k]). { apply NoDup_Permutation; [auto|repeat constructor; auto|]. intros i. rewrite HI. split; [intros (L & Si); apply Hk in Si; auto; left; auto|intros [<-|[]]; split; [auto|apply Hk; auto]]. }
    rewrite (Permutation_length P). cbn [length]. repeat split; cbn; auto; [discriminate|intros j [<-|[]]; lia|intros l; auto]. }
  assert (SP : searches_ok search1 2 (fun i : nat => ~ S2 i < 0)) by (apply (ON _ 0%nat); [lia|]; intros [|[|i]] L; cbn; try lia; split; intros; try lra; try lia; auto).
  assert (SN : searches_ok search1 2 (fun i : nat => S2 i < 0)) by (apply (ON _ 1%nat); [lia|]; intros [|[|i]] L; cbn; try lia; split; intros; try lra; try lia; auto).
  assert (TO : forall U S, @tunes_ok F2 (fun _ _ => tune1) 2 U S).
  { intros U S it c. split; [|intros _ Q; exfalso; assert (D3 : dim E2 = dim E3) by (cbn [sp F2] in Q; rewrite Q; auto); discriminate]. split; [split; [discriminate|split; [intros j [<-|[]]; lia|cbn; apply perm_swap]]|]. split; [intros l; auto|]. split; [intros l; auto|]. split; [cbn; apply perm_swap|]. split; [cbn; apply perm_swap|]. split; [intros t [<-|[<-|[]]]; cbn; lia|]. intros m. cbn [t_sched2 tune1]. rewrite map_map. cbn. rewrite map_id. auto. }
  split.
  - destruct (C93_found F2 0 (-1) 3 3 20 0.01 0.0001 (nat * nat) mesher search1 search1 (fun _ _ => tune1) 2 U2 S2 None 1 (0, 0) 0%nat search1 KF ltac:(lia) DI LS LO ltac:(lra) ltac:(lia) SP SN (TO _ _) ltac:(lia) ltac:(lia) ltac:(lia)) as (out & ps & nrm & E1 & E2' & I).
    + right. cbn. split; [lra|auto]. + discriminate. + cbn. auto.
    + intros [|[|j]] Lj SG NJ; try lia. exfalso. unfold same_sign in SG. cbn in SG. lra.
    + exists out, ps, nrm. split; [auto|]. split; [auto|].
      match type of I with In (?p, _) _ => assert (EP : p = (0, / 4)) end; [|rewrite EP in I; exact I].
      cbn [s_nearest search1 sp F2]. assert (EU : unitize E2 1 (0, 0) (U2 0) = (0, 0)) by (unfold unitize; cbn [pscal psub E2]; unfold scal2, sub2, U2; cbn [fst snd]; apply vec2_eq; cbn [fst snd]; field). rewrite EU.
      assert (DR : direction E2 (psub E2 (0, 1) (0, 0)) = (0, 1)).
      { unfold direction. assert (Q : pnorm E2 (psub E2 (0, 1) (0, 0)) = 1) by (unfold pnorm; cbn [pdot psub E2]; apply norm2_is; [lra|unfold dot2, sub2; cbn [fst snd]; ring]). rewrite Q. replace (lt_b epsilon 1) with true by (symmetry; apply lt_b_true; unfold epsilon; lra). cbn [pscal psub E2]. unfold scal2, sub2. cbn [fst snd]. apply vec2_eq; cbn [fst snd]; field. }
      rewrite DR. cbn [padd pscal E2 S2 U2]. rewrite Rabs_pos_eq by lra. unfold add2, scal2. cbn [fst snd]. apply vec2_eq; cbn [fst snd]; field.
  - destruct (C93_points F2 3 (-1) 3 3 20 0.01 0.0001 (nat * nat) mesher search1 search1 (fun _ _ => tune1) 2 U2 S2 None 1 (0, 0) KF ltac:(lia) DI LS LO ltac:(lra) ltac:(lia) SP SN (TO _ _)) as (out & E & H).
    exists out. split; [auto|]. intros ps p nrm EP I. destruct (H ps p nrm EP I) as (i & Li & B & O). exists i. split; [auto|]. split; [auto|]. intros NV j Lj NJ. apply O; auto; [left; lia|right; split; [lia|auto]].
Qed.
