(** Applying the operators of QuadOpsModel to a vector of leaf values. *)
From Coq Require Import List Arith ZArith Reals Bool Lia Lra.
From Verif Require Import PyExn LoopsModel QuadModel QuadSpec QuadProofs Quad2Proofs Quad3Proofs Quad6Proofs QuadOpsModel Quad9Proofs.
Import ListNotations.

(** ** triplets *)
Notation trip := (nat * Z * R)%type.
Definition app_tr (tr : list trip) (i : nat) (U : nat -> R) : R :=
  fold_right (fun e s => ((if Nat.eqb (fst (fst e)) i then snd e * U (Z.to_nat (snd (fst e))) else 0) + s)%R) 0%R tr.
Lemma app_tr_cons e tr i U : app_tr (e :: tr) i U = ((if Nat.eqb (fst (fst e)) i then snd e * U (Z.to_nat (snd (fst e))) else 0) + app_tr tr i U)%R.
Proof. reflexivity. Qed.
Lemma app_tr_app a b i U : app_tr (a ++ b) i U = (app_tr a i U + app_tr b i U)%R.
Proof. induction a as [|e a IH]; cbn [app]; [change (app_tr [] i U) with 0%R; lra|]. rewrite !app_tr_cons, IH. lra. Qed.
Lemma rsum_add f g n : rsum (fun j => (f j + g j)%R) n = (rsum f n + rsum g n)%R.
Proof. unfold rsum. induction (seq 0 n) as [|x l IH]; cbn [fold_right]; [lra|]. rewrite IH. lra. Qed.
Lemma rsum_scale a f n : rsum (fun j => (a * f j)%R) n = (a * rsum f n)%R.
Proof. unfold rsum. induction (seq 0 n) as [|x l IH]; cbn [fold_right]; [lra|]. rewrite IH. lra. Qed.
Lemma rsum_ext f g n : (forall j, (j < n)%nat -> f j = g j) -> rsum f n = rsum g n.
Proof.
  intro H. unfold rsum. assert (forall j, In j (seq 0 n) -> f j = g j) as H' by (intros j Hj; apply in_seq in Hj; apply H; lia).
  revert H'. induction (seq 0 n) as [|x l IH]; intro H'; cbn [fold_right]; [reflexivity|]. rewrite H' by (left; auto). rewrite IH; [reflexivity|]. intros; apply H'; right; auto.
Qed.
Lemma rsum_zero f n : (forall j, (j < n)%nat -> f j = 0%R) -> rsum f n = 0%R.
Proof. intro H. rewrite (rsum_ext f (fun _ => 0%R)) by auto. unfold rsum. induction (seq 0 n); cbn [fold_right]; lra. Qed.
Lemma rsum_one f n i : (i < n)%nat -> (forall j, (j < n)%nat -> j <> i -> f j = 0%R) -> rsum f n = f i.
Proof.
  intros Hi H. unfold rsum. assert (In i (seq 0 n)) as A by (apply in_seq; lia). assert (forall j, In j (seq 0 n) -> j <> i -> f j = 0%R) as B by (intros j Hj; apply in_seq in Hj; apply H; lia).
  pose proof (seq_NoDup n 0) as ND. revert A B ND. induction (seq 0 n) as [|x l IH]; intros A B ND; [destruct A|]. cbn [fold_right]. inversion_clear ND as [|? ? Nx NDl].
  destruct (Nat.eq_dec x i) as [->|N].
  - assert (fold_right (fun j s => (f j + s)%R) 0%R l = 0%R) as ->; [|lra]. assert (forall j, In j l -> f j = 0%R) as B' by (intros j Hj; apply B; [right; exact Hj|intros ->; auto]).
    clear -B'. induction l as [|y l IH]; [reflexivity|]. cbn [fold_right]. rewrite B' by (left; auto). rewrite IH by (intros; apply B'; right; auto). lra.
  - rewrite IH, B; auto; [lra|left; auto|destruct A; [congruence|auto]|intros; apply B; auto; right; auto].
Qed.
Lemma rsum_sum_at tr i U n : (forall e, In e tr -> exists j, (j < n)%nat /\ snd (fst e) = Z.of_nat j) -> rsum (fun j => (sum_at tr i j * U j)%R) n = app_tr tr i U.
Proof.
  induction tr as [|e tr IH]; intro H.
  - apply rsum_zero. intros. cbn. lra.
  - destruct (H e ltac:(left; auto)) as (j0 & Hj0 & E). cbn [app_tr fold_right]. fold (app_tr tr i U). rewrite <- IH by (intros; apply H; right; auto).
    rewrite (rsum_ext _ (fun j => ((if Nat.eqb (fst (fst e)) i && (snd (fst e) =? Z.of_nat j)%Z then snd e else 0) * U j + sum_at tr i j * U j)%R)) by (intros; cbn [sum_at fold_right]; unfold sum_at; lra).
    rewrite rsum_add. f_equal. rewrite (rsum_one _ n j0) by (auto; intros j Hj N; rewrite E; replace (Z.of_nat j0 =? Z.of_nat j)%Z with false by (symmetry; apply Z.eqb_neq; lia); rewrite andb_false_r; lra).
    rewrite E, Z.eqb_refl, Nat2Z.id, andb_true_r. destruct (Nat.eqb _ i); lra.
Qed.
(** only the rows of the owner contribute *)
Lemma app_other (own : nat -> nat) r tr U : (forall e, In e tr -> own (fst (fst e)) <> own r) -> app_tr tr r U = 0%R.
Proof.
  induction tr as [|e tr IH]; intro H; [reflexivity|]. cbn [app_tr fold_right]. fold (app_tr tr r U). rewrite IH by (intros; apply H; right; auto).
  destruct (Nat.eqb_spec (fst (fst e)) r) as [E|]; [|lra]. destruct (H e ltac:(left; auto)). rewrite E. reflexivity.
Qed.
Lemma mapE_combine (own : nat -> nat) (f : nat * nat -> res (list trip)) : forall l b,
  (forall k c, nth_error l k = Some c -> exists es, f ((b + k)%nat, c) = Ok es /\ forall e, In e es -> own (fst (fst e)) = (b + k)%nat) ->
  exists rows, mapE f (combine (seq b (length l)) l) = Ok rows /\
    (forall e, In e (concat rows) -> exists k c es, nth_error l k = Some c /\ f ((b + k)%nat, c) = Ok es /\ In e es) /\
    forall k c es r U, nth_error l k = Some c -> f ((b + k)%nat, c) = Ok es -> own r = (b + k)%nat -> app_tr (concat rows) r U = app_tr es r U.
Proof.
  induction l as [|c0 l IH]; intros b H.
  - exists []. split; [reflexivity|]. split; [intros e []|]. intros k c es r U E. destruct k; discriminate.
  - destruct (H 0%nat c0 eq_refl) as (es0 & E0 & O0). replace (b + 0)%nat with b in * by lia.
    destruct (IH (S b)) as (rows & Er & In_r & Ap_r).
    { intros k c Hk. destruct (H (S k) c Hk) as (es & E & O). exists es. replace (S b + k)%nat with (b + S k)%nat by lia. auto. }
    exists (es0 :: rows). cbn [length seq combine mapE]. rewrite E0. cbn [bind]. rewrite Er. cbn [bind]. split; [reflexivity|]. split.
    + cbn [concat]. intros e He. apply in_app_or in He as [He|He].
      * exists 0%nat, c0, es0. replace (b + 0)%nat with b by lia. auto.
      * destruct (In_r e He) as (k & c & es & A & B & C). exists (S k), c, es. replace (b + S k)%nat with (S b + k)%nat by lia. auto.
    + intros k c es r U Hk E Ow. cbn [concat]. rewrite app_tr_app. destruct k as [|k].
      * cbn in Hk. injection Hk as <-. replace (b + 0)%nat with b in * by lia. rewrite E0 in E. injection E as <-.
        rewrite (app_other own r (concat rows) U); [lra|]. intros e He. destruct (In_r e He) as (k & c & es & A & B & C).
        destruct (H (S k) c A) as (es' & E' & O'). replace (S b + k)%nat with (b + S k)%nat in B by lia. rewrite B in E'. injection E' as <-. rewrite (O' e C). lia.
      * cbn in Hk. rewrite (app_other own r es0 U) by (intros e He; rewrite (O0 e He); lia).
        rewrite Rplus_0_l. apply (Ap_r k c); auto; [replace (S b + k)%nat with (b + S k)%nat by lia; auto|lia].
Qed.

(** ** leaves *)
Lemma filter_rank p : forall n m, (m < n)%nat -> p m = true -> nth_error (filter p (seq 0 n)) (length (filter p (seq 0 m))) = Some m.
Proof.
  intros n m Hm Pm. replace n with (m + S (n - m - 1))%nat by lia. rewrite seq_app, filter_app. cbn [seq filter Nat.add]. rewrite Pm.
  rewrite nth_error_app2 by lia. rewrite Nat.sub_diag. reflexivity.
Qed.
(** ** the values *)
Notation stn := (option (R * list (nat * R))).
Definition hv (u : nat -> R) (x : stn) : option (R * R) :=
  match x with None => None | Some (h, l) => Some (h, fold_right (fun mw s => (snd mw * u (fst mw) + s)%R) 0%R l) end.

(** in a tree with more than one cell every leaf has a neighbour along every axis *)
Lemma axis_neighbour dim lo w0 T X (I : inv dim lo w0 T X) c k : (1 < qn T)%nat -> leaf dim T c -> (k < dim)%nat -> exists m s, (m < qn T)%nat /\ qA T c m = code k s.
Proof.
  intros Hn L Hk. pose proof (proj1 L) as Hc.
  assert (0 < c)%nat as H0.
  { destruct c; [|lia]. apply (leaf_iff _ _ _ _ _ I) in L; auto. destruct (i_par _ _ _ _ _ I 1%nat ltac:(lia)) as (p & n0 & q & K & Hq & E). pose proof (k_lt _ _ _ _ _ K). assert (p = 0)%nat by lia. subst p.
    rewrite (k_row _ _ _ _ _ K) in L. destruct (krow_not_leaf _ _ L). }
  destruct (i_par _ _ _ _ _ I c ltac:(lia)) as (p & n0 & q & K & Hq & ->).
  assert (forall s : bool, (if s then 2 * (X (n0 + q)%nat k + 1) < pw (depth T (n0 + q)%nat) else 0 < X (n0 + q)%nat k)%Z -> exists m s, (m < qn T)%nat /\ qA T (n0 + q) m = code k s) as N.
  { intros s H. destruct (neighbour_exists _ _ _ _ _ I (n0 + q) k s Hc Hk H) as (m & Hm & _ & _ & A). eauto. }
  destruct (Z.lt_ge_cases 0 (X (n0 + q)%nat k)) as [A|A]; [apply (N false A)|]. apply (N true).
  destruct (i_rng _ _ _ _ _ I (n0 + q)%nat Hc) as [_ R]. specialize (R k Hk). rewrite (k_dep _ _ _ _ _ K q Hq). pose proof (k_lt _ _ _ _ _ K). destruct (i_rng _ _ _ _ _ I p ltac:(lia)) as [R' _].
  assert (4 <= pw (S (depth T p)))%Z; [|lia]. destruct (depth T p) as [|d]; [lia|]. rewrite !pw_S. pose proof (pw_pos d). lia.
Qed.

Section ops.
Context (lo : nat -> R) (w0 : R) (T : qtree) (X : nat -> nat -> Z).
Hypothesis I : inv 2 lo w0 T X.
Hypothesis Hw : (0 < w0)%R.
Notation D := (depth T).
Lemma leaves_iff m : In m (leaves T) <-> leaf 2 T m.
Proof using I. unfold leaves. rewrite filter_In, (is_leaf_iff _ _ _ _ _ I), in_seq. split; [tauto|]. intro L. split; [|exact L]. destruct L. lia. Qed.
Lemma c2c_ok m : leaf 2 T m -> exists j, (j < length (leaves T))%nat /\ c2c T m = Z.of_nat j /\ nth_error (leaves T) j = Some m.
Proof using I.
  intro L. pose proof (proj1 L) as Hm. apply (is_leaf_iff _ _ _ _ _ I) in L. exists (length (filter (is_leaf T) (seq 0 m))).
  pose proof (filter_rank (is_leaf T) (qn T) m Hm L) as E. split; [|split; [|exact E]].
  - apply nth_error_Some. unfold leaves. congruence.
  - unfold c2c. rewrite L. reflexivity.
Qed.
Lemma width_pos m : (m < qn T)%nat -> (0 < width T m)%R.
Proof using I Hw. intro H. rewrite (width_eq _ _ _ _ _ I m H). apply Rdiv_lt_0_compat; [lra|]. apply IZR_lt. pose proof (pw_pos (D m)). lia. Qed.
Lemma stencil_len c k s x : leaf 2 T c -> stencil T c k s x -> x = None \/ exists h l, x = Some (h, l) /\ (0 < h)%R.
Proof using I Hw.
  intros [Hc _] S. pose proof (width_pos c Hc). destruct S as [|m [Hm _]|a b _ [Hb _]]; [left; reflexivity| |]; right; do 2 eexists; (split; [reflexivity|]); [pose proof (width_pos m Hm)|pose proof (width_pos b Hb)]; lra.
Qed.
Lemma stencil_cells c k s x m w : stencil T c k s x -> In (m, w) (cells_of x) -> leaf 2 T m /\ qA T c m = code k s.
Proof. intro S. destruct S as [|m' L A|a b La Lb _ Aa Ab]; cbn; [intros []|intros [E|[]]; injection E as <- <-; auto|intros [E|[E|[]]]; injection E as <- <-; auto]. Qed.

Definition U (u : nat -> R) (j : nat) : R := u (nth j (leaves T) 0%nat).
Lemma U_c2c u m : leaf 2 T m -> U u (Z.to_nat (c2c T m)) = u m.
Proof using I. intro L. destruct (c2c_ok m L) as (j & _ & -> & E). rewrite Nat2Z.id. unfold U. rewrite (nth_error_nth _ _ _ E). reflexivity. Qed.

(** *** Laplacian *)
Definition contrib (uc : R) (x : option (R * R)) (ho : R) : R :=
  match x with None => 0%R | Some (h, v) => (v - uc) / (h * (h + (if isz ho then h else ho)))%R end.
Definition lap_val (x : stn) (lopp : R) (w : R) : R := (- w / (len_of x * (len_of x + (if isz lopp then len_of x else lopp))))%R.
Lemma isz_pos h : (0 < h)%R -> isz h = false.
Proof. intro. unfold isz. destruct (Req_EM_T h 0); [lra|reflexivity]. Qed.
Lemma isz_0 : isz 0 = true.
Proof. unfold isz. destruct (Req_EM_T 0 0); [reflexivity|lra]. Qed.
Lemma lap_entries_ok i c k s x ho : leaf 2 T c -> stencil T c k s x -> (0 <= ho)%R ->
  lap_entries T i x ho = Ok (map (fun mw => (i, c2c T (fst mw), lap_val x ho (snd mw))) (cells_of x)).
Proof using I Hw.
  intros Lc S Ho. unfold lap_entries. apply mapE_ok. intros [m w] Hm. destruct (stencil_len c k s x Lc S) as [->|(h & l & -> & Hh)]; [destruct Hm|].
  cbn [len_of fst snd]. unfold rdiv. rewrite isz_pos; [reflexivity|]. destruct (isz ho); nra.
Qed.
Lemma len_nonneg c k s x : leaf 2 T c -> stencil T c k s x -> (0 <= len_of x)%R.
Proof using I Hw. intros L S. destruct (stencil_len c k s x L S) as [->|(h & l & -> & Hh)]; cbn; lra. Qed.
Lemma app_map i (g : nat * R -> R) l u : (forall mw, In mw l -> leaf 2 T (fst mw)) ->
  app_tr (map (fun mw => (i, c2c T (fst mw), g mw)) l) i (U u) = fold_right (fun mw s => (g mw * u (fst mw) + s)%R) 0%R l.
Proof using I.
  induction l as [|mw l IH]; intro H; [reflexivity|]. cbn [map app_tr fold_right fst snd]. fold (app_tr (map (fun mw => (i, c2c T (fst mw), g mw)) l) i (U u)).
  rewrite IH by (intros; apply H; right; auto). rewrite Nat.eqb_refl, U_c2c by (apply H; left; auto). reflexivity.
Qed.
(** the weights sum to one: the diagonal correction is the same combination of 1 *)
Lemma lap_side i c k s x ho u : leaf 2 T c -> stencil T c k s x ->
  (-2 * app_tr (map (fun mw => (i, c2c T (fst mw), lap_val x ho (snd mw))) (cells_of x)) i (fun j => U u j - u c) = 2 * contrib (u c) (hv u x) ho)%R.
Proof using I Hw.
  intros Lc S. change (fun j => (U u j - u c)%R) with (U (fun m => (u m - u c)%R)). rewrite (app_map i (fun mw => lap_val x ho (snd mw)) (cells_of x) (fun m => (u m - u c)%R)).
  2:{ intros [m w] H. apply (stencil_cells _ _ _ _ _ _ S H). }
  unfold contrib, hv, lap_val. destruct S as [|m|a b]; cbn [cells_of len_of fold_right fst snd]; unfold Rdiv; replace 0.5%R with (/ 2)%R by lra; lra.
Qed.
Lemma lap_row_ok i c : graded_tree 2 T -> leaf 2 T c -> exists x1 x2 x3 x4 es,
  stencil T c 0 false x1 /\ stencil T c 0 true x2 /\ stencil T c 1 false x3 /\ stencil T c 1 true x4 /\
  lap_row 2 T (i, c) = Ok es /\ (forall e, In e es -> fst (fst e) = i /\ exists m, leaf 2 T m /\ m <> c /\ snd (fst e) = c2c T m) /\
  forall u, (-2 * app_tr es i (fun j => U u j - u c) = 2 * contrib (u c) (hv u x1) (len_of x2) + 2 * contrib (u c) (hv u x2) (len_of x1) + 2 * contrib (u c) (hv u x3) (len_of x4) + 2 * contrib (u c) (hv u x4) (len_of x3))%R.
Proof using I Hw.
  intros G L. destruct (dir_nb_ok _ _ _ _ I Hw c 0 false G L ltac:(lia)) as (x1 & E1 & S1). destruct (dir_nb_ok _ _ _ _ I Hw c 0 true G L ltac:(lia)) as (x2 & E2 & S2).
  destruct (dir_nb_ok _ _ _ _ I Hw c 1 false G L ltac:(lia)) as (x3 & E3 & S3). destruct (dir_nb_ok _ _ _ _ I Hw c 1 true G L ltac:(lia)) as (x4 & E4 & S4).
  exists x1, x2, x3, x4. eexists. split; [exact S1|]. split; [exact S2|]. split; [exact S3|]. split; [exact S4|].
  change (code 0 false) with 1%Z in E1. change (code 0 true) with 2%Z in E2. change (code 1 false) with 3%Z in E3. change (code 1 true) with 4%Z in E4.
  pose proof (len_nonneg _ _ _ _ L S1). pose proof (len_nonneg _ _ _ _ L S2). pose proof (len_nonneg _ _ _ _ L S3). pose proof (len_nonneg _ _ _ _ L S4).
  split; [|split].
  - unfold lap_row. rewrite E1, E2, E3, E4. cbn [bind Nat.eqb]. rewrite (lap_entries_ok i c 0 false x1 (len_of x2)), (lap_entries_ok i c 0 true x2 (len_of x1)), (lap_entries_ok i c 1 false x3 (len_of x4)), (lap_entries_ok i c 1 true x4 (len_of x3)) by auto. cbn [bind]. reflexivity.
  - assert (forall k s x ho e, stencil T c k s x -> In e (map (fun mw => (i, c2c T (fst mw), lap_val x ho (snd mw))) (cells_of x)) -> fst (fst e) = i /\ exists m, leaf 2 T m /\ m <> c /\ snd (fst e) = c2c T m) as One.
    { intros k s x ho e S He. apply in_map_iff in He as ([m w] & <- & Hm). destruct (stencil_cells _ _ _ _ _ _ S Hm) as [Lm A]. split; [reflexivity|]. exists m. split; [exact Lm|]. split; [|reflexivity].
      intros ->. destruct (Nat.lt_ge_cases k 2) as [Hk|Hk].
      - apply (i_adj _ _ _ _ _ I) in A; [|apply L|apply L|exact Hk]. unfold dirg, touchg, abut in A. pose proof (pw_pos (D c)). destruct s; destruct A as [A _]; nia.
      - destruct (i_codes _ _ _ _ _ I c c (proj1 L) (proj1 L)) as [Z0|(k' & s' & Hk' & C)]; [rewrite Z0 in A; symmetry in A; revert A; apply code_pos|]. rewrite C in A. apply code_inj in A. lia. }
    intros e He. rewrite !in_app_iff in He. destruct He as [He|[He|[He|He]]]; [exact (One _ _ _ _ _ S1 He)|exact (One _ _ _ _ _ S2 He)|exact (One _ _ _ _ _ S3 He)|exact (One _ _ _ _ _ S4 He)].
  - intro u. rewrite !app_tr_app. rewrite <- !(lap_side i c _ _ _ _ u L S1), <- !(lap_side i c _ _ _ _ u L S2), <- !(lap_side i c _ _ _ _ u L S3), <- !(lap_side i c _ _ _ _ u L S4). lra.
Qed.

(** *** gradient *)
Definition gval (uc : R) (x : option (R * R)) : R := match x with None => uc | Some (_, v) => v end.
Lemma grad_entries_ok row i c k s x sg den : leaf 2 T c -> nth_error (leaves T) i = Some c -> stencil T c k s x -> (0 < den)%R ->
  exists es, grad_entries T row i x sg den = Ok es /\ (forall e, In e es -> fst (fst e) = row /\ exists m, leaf 2 T m /\ snd (fst e) = c2c T m) /\
    forall u, app_tr es row (U u) = (sg * gval (u c) (hv u x) / den)%R.
Proof using I Hw.
  intros Lc Hi S Hd.
  assert (c2c T c = Z.of_nat i) as Ei.
  { destruct (c2c_ok c Lc) as (j & Hj & E & Ej). rewrite E. f_equal. apply (proj1 (NoDup_nth_error (leaves T))); [unfold leaves; apply NoDup_filter, seq_NoDup|exact Hj|congruence]. }
  set (cl := cells_of x ++ (if isz (len_of x) then [(c, 1.0%R)] else [])).
  assert (map (fun mw => (c2c T (fst mw), snd mw)) (cells_of x) ++ (if isz (len_of x) then [(Z.of_nat i, 1.0%R)] else []) = map (fun mw => (c2c T (fst mw), snd mw)) cl) as Ecl.
  { unfold cl. rewrite map_app. f_equal. destruct (isz (len_of x)); [cbn; rewrite Ei; reflexivity|reflexivity]. }
  assert (forall mw, In mw cl -> leaf 2 T (fst mw)) as Hcl.
  { intros [m w] H. unfold cl in H. apply in_app_or in H as [H|H]; [apply (stencil_cells _ _ _ _ _ _ S H)|]. destruct (isz (len_of x)); [destruct H as [H|[]]; injection H as <- _; exact Lc|destruct H]. }
  exists (map (fun mw => (row, c2c T (fst mw), (sg * snd mw / den)%R)) cl). split; [|split].
  - unfold grad_entries. cbv zeta. rewrite Ecl. clear -Hd. induction cl as [|mw l IH]; [reflexivity|]. cbn [map mapE fst snd]. unfold rdiv at 1. rewrite isz_pos by auto. cbn [bind]. rewrite IH. reflexivity.
  - intros e He. apply in_map_iff in He as (mw & <- & Hm). split; [reflexivity|]. exists (fst mw). split; [apply Hcl, Hm|reflexivity].
  - intro u. rewrite (app_map row (fun mw => (sg * snd mw / den)%R) cl u Hcl). unfold cl.
    destruct (stencil_len c k s x Lc S) as [->|(h & l & -> & Hh)].
    + cbn [cells_of len_of app hv gval]. rewrite isz_0. cbn [fold_right fst snd]. replace 1.0%R with 1%R by lra. lra.
    + cbn [cells_of len_of hv gval]. rewrite (isz_pos h Hh), app_nil_r. clear. induction l as [|mw l IH]; cbn [fold_right]; [unfold Rdiv; lra|]. rewrite IH. unfold Rdiv. lra.
Qed.
Lemma axis_len c k x x' : (1 < qn T)%nat -> leaf 2 T c -> (k < 2)%nat -> stencil T c k false x -> stencil T c k true x' -> (0 < len_of x + len_of x')%R.
Proof using I Hw.
  intros Hn L Hk S S'. destruct (axis_neighbour _ _ _ _ _ I c k Hn L Hk) as (m & s & Hm & A).
  destruct (stencil_len _ _ _ _ L S) as [->|(h & l & -> & Hh)], (stencil_len _ _ _ _ L S') as [->|(h' & l' & -> & Hh')]; cbn [len_of]; try lra. exfalso.
  inversion_clear S as [N| |]. inversion_clear S' as [N'| |]. destruct s; [apply (N' m)|apply (N m)]; auto.
Qed.
Lemma grad_row_ok i c : graded_tree 2 T -> (1 < qn T)%nat -> leaf 2 T c -> nth_error (leaves T) i = Some c -> exists x1 x2 x3 x4 es,
  stencil T c 0 false x1 /\ stencil T c 0 true x2 /\ stencil T c 1 false x3 /\ stencil T c 1 true x4 /\
  (0 < len_of x1 + len_of x2)%R /\ (0 < len_of x3 + len_of x4)%R /\
  grad_row T (length (leaves T)) (i, c) = Ok es /\ (forall e, In e es -> (fst (fst e) = i \/ fst (fst e) = length (leaves T) + i)%nat /\ exists m, leaf 2 T m /\ snd (fst e) = c2c T m) /\
  forall u, app_tr es i (U u) = ((gval (u c) (hv u x2) - gval (u c) (hv u x1)) / (len_of x1 + len_of x2))%R /\
    app_tr es (length (leaves T) + i) (U u) = ((gval (u c) (hv u x4) - gval (u c) (hv u x3)) / (len_of x3 + len_of x4))%R.
Proof using I Hw.
  intros G Hn L Hi. destruct (dir_nb_ok _ _ _ _ I Hw c 0 false G L ltac:(lia)) as (x1 & E1 & S1). destruct (dir_nb_ok _ _ _ _ I Hw c 0 true G L ltac:(lia)) as (x2 & E2 & S2).
  destruct (dir_nb_ok _ _ _ _ I Hw c 1 false G L ltac:(lia)) as (x3 & E3 & S3). destruct (dir_nb_ok _ _ _ _ I Hw c 1 true G L ltac:(lia)) as (x4 & E4 & S4).
  change (code 0 false) with 1%Z in E1. change (code 0 true) with 2%Z in E2. change (code 1 false) with 3%Z in E3. change (code 1 true) with 4%Z in E4.
  pose proof (axis_len c 0 x1 x2 Hn L ltac:(lia) S1 S2) as D1. pose proof (axis_len c 1 x3 x4 Hn L ltac:(lia) S3 S4) as D2. set (nc := length (leaves T)) in *.
  destruct (grad_entries_ok i i c 0 false x1 (-1) (len_of x1 + len_of x2) L Hi S1 D1) as (e1 & Q1 & O1 & A1). destruct (grad_entries_ok i i c 0 true x2 1 (len_of x1 + len_of x2) L Hi S2 D1) as (e2 & Q2 & O2 & A2).
  destruct (grad_entries_ok (nc + i) i c 1 false x3 (-1) (len_of x3 + len_of x4) L Hi S3 D2) as (e3 & Q3 & O3 & A3). destruct (grad_entries_ok (nc + i) i c 1 true x4 1 (len_of x3 + len_of x4) L Hi S4 D2) as (e4 & Q4 & O4 & A4).
  assert (i < nc)%nat as Hic by (apply nth_error_Some; unfold nc in *; congruence).
  exists x1, x2, x3, x4, (e1 ++ e2 ++ e3 ++ e4). split; [exact S1|]. split; [exact S2|]. split; [exact S3|]. split; [exact S4|]. split; [exact D1|]. split; [exact D2|]. split; [|split].
  - unfold grad_row. rewrite E1, E2, E3, E4. cbn [bind]. rewrite Q1, Q2, Q3, Q4. reflexivity.
  - intros e He. rewrite !in_app_iff in He. destruct He as [He|[He|[He|He]]]; [destruct (O1 e He)|destruct (O2 e He)|destruct (O3 e He)|destruct (O4 e He)]; auto.
  - assert (forall r es r' u, (forall e, In e es -> fst (fst e) = r /\ exists m, leaf 2 T m /\ snd (fst e) = c2c T m) -> r <> r' -> app_tr es r' (U u) = 0%R) as Ze.
    { intros r es r' u O N. apply (app_other (fun x => x)). intros e He. destruct (O e He) as [-> _]. exact N. }
    intro u. rewrite !app_tr_app. split.
    + rewrite A1, A2, (Ze (nc + i)%nat e3), (Ze (nc + i)%nat e4) by (auto; lia). unfold Rdiv. lra.
    + rewrite A3, A4, (Ze i e1), (Ze i e2) by (auto; lia). unfold Rdiv. lra.
Qed.
End ops.
