(** lemmas for C78: the two kernel matrices built by the code are the full kernel matrices *)
From Coq Require Import Reals Lra Lia ZArith List Bool Psatz Permutation.
From Verif Require Import NumpyModel NumpyProofs PyExn Vec MatModel MatProofs SubdivModel MatFunModel P_MatFun GridMeshModel GridMeshProofs GridNbModel GridNbProofs FdModel FdProofs
  KernelModel KernelSpec KernelProofs P_Kernel EigModel SolveModel LoopSubProofs BiharmProofs Biharm2Proofs Subdiv3Proofs CutProofs PsrModel PsrSpec PsrNbProofs PsrProofs.
Import ListNotations.
Open Scope R_scope.

Lemma nth_node c h idx d : (d < length idx)%nat -> length c = length idx -> length h = length idx -> nth d (node c h idx) 0 = nth d c 0 + IZR (nth d idx 0%Z) * nth d h 0.
Proof. revert c h d. induction idx as [|i idx IH]; intros [|a c] [|e h] [|d]; cbn; intros; try lia; auto. apply IH; lia. Qed.
Lemma nth_zsub a b d : (d < length a)%nat -> length a = length b -> nth d (zsub a b) 0%Z = (nth d a 0 - nth d b 0)%Z.
Proof. revert b d. induction a as [|x a IH]; intros [|y b] [|d]; cbn; intros; try lia; auto. unfold zsub, zipw in IH. apply IH; lia. Qed.
Lemma not_small b n o : length o = n -> ~ small_box b n o -> exists d, (d < n)%nat /\ (nth d o 0 < - b \/ b < nth d o 0)%Z.
Proof.
  intros <-. induction o as [|k o IH]; intros H; [exfalso; apply H; split; auto|].
  destruct (Z_lt_ge_dec k (- b)); [exists 0%nat; cbn; lia|]. destruct (Z_lt_ge_dec b k); [exists 0%nat; cbn; lia|].
  destruct IH as (d & D & B). { intros [_ F]. apply H. split; auto. constructor; auto. lia. } exists (S d). cbn. split; [lia|exact B].
Qed.
Lemma small_dec b n o : {small_box b n o} + {~ small_box b n o}.
Proof.
  unfold small_box. destruct (Nat.eq_dec (length o) n); [|right; tauto]. destruct (Forall_dec (fun k => (- b <= k <= b)%Z)) with (l := o); [|left; tauto|right; tauto].
  intros k. destruct (Z_le_dec (- b) k), (Z_le_dec k b); [left|right|right|right]; lia.
Qed.
Lemma far_zero s h c idx p d : 0 < s -> length c = length idx -> length h = length idx -> length p = length idx -> (d < length idx)%nat ->
  2 * s <= Rabs (nth d p 0 - (nth d c 0 + IZR (nth d idx 0%Z) * nth d h 0)) -> spline_kernel s p (node c h idx) = 0.
Proof.
  intros SP L1 L2 L3 D H. apply (kernel_zero s p (node c h idx) d); auto; [lia|rewrite node_length; auto|]. rewrite nth_node by auto. exact H.
Qed.

(** ** k1 *)
Section K1.
  Variables (gs : list Z) (h c : list R) (s : R).
  Hypotheses (NB : nb_ok gs) (G5 : Forall (fun g => (5 <= g)%Z) gs) (Lh : length h = length gs) (Lc : length c = length gs)
    (SP : 0 < s) (Es : 3 / 2 * lmin h = s) (Hne : gs <> []).
  Let verts := grid_pts (axes gs h c).
  Let N := zprod gs.
  Lemma Gpos : Forall (fun g => (0 < g)%Z) gs.
  Proof. eapply Forall_impl; [|exact G5]. cbn. lia. Qed.
  Lemma Npos : (0 < N)%Z.
  Proof. unfold N. clear - G5. induction G5 as [|g l Hg G IH]; cbn [zprod fold_right]; [lia|]. apply Z.mul_pos_pos; [lia|exact (IH G)]. Qed.
  Lemma vert_ok idx : on_grid gs idx -> nth (Z.to_nat (ravelF gs idx)) verts [] = node c h idx.
  Proof. intros I. apply nth_error_nth. apply grid_pts_nth; auto. Qed.
  Lemma center_ok o : small_box 2 (length gs) o -> on_grid gs (map (fun _ => 2%Z) gs) /\ on_grid gs (zadd (map (fun _ => 2%Z) gs) o).
  Proof.
    intros [L F]. revert o L F. clear - G5. induction G5 as [|g l Hg G IH]; intros [|k o] L F; try discriminate; unfold zadd, zipw in *; cbn [map combine fst snd]; [split; constructor|]. inversion F; subst. cbn in L. destruct (IH G o) as [A B]; auto.
    split; constructor; auto; lia.
  Qed.
  Lemma zero_small : small_box 2 (length gs) (map (fun _ => 0%Z) gs).
  Proof. split; [apply map_length|]. apply Forall_forall. intros x I. apply in_map_iff in I as (g & <- & _). lia. Qed.
  Lemma inner_row (r : Z -> Z) v i j : (0 <= i < N)%Z -> 
    sumf (fun t : trip => if (trow t =? i)%Z && (tcol t =? j)%Z then tval t else 0) (map (fun k => if (r k <? 0)%Z then (k, 0%Z, 0) else (k, r k, v)) (zseq N))
    = if (r i <? 0)%Z then 0 else if (r i =? j)%Z then v else 0.
  Proof.
    intros Hi. rewrite sumf_map. rewrite (sumf_ext _ (fun k => if (k =? i)%Z then (if (r k <? 0)%Z then 0 else if (r k =? j)%Z then v else 0) else 0)).
    - apply (sumf_unique (fun k => (k =? i)%Z) (fun k => if (r k <? 0)%Z then 0 else if (r k =? j)%Z then v else 0)); [apply NoDup_zseq|apply in_zseq; auto|apply Z.eqb_refl|].
      intros x _ E. apply Z.eqb_eq in E. auto.
    - intros k _. destruct (r k <? 0)%Z; unfold trow, tcol, tval; cbn [fst snd]; destruct (k =? i)%Z; cbn [andb]; auto. destruct (0 =? j)%Z; auto.
  Qed.
  Lemma k1_ok : exists k1, build_k1 gs h verts = Ok k1 /\ forall idx idx', on_grid gs idx -> on_grid gs idx' ->
    entry k1 (ravelF gs idx) (ravelF gs idx') = spline_kernel s (node c h idx) (node c h idx').
  Proof.
    destruct NB as (os & ND & Ios & F). set (rows := nb_rows gs) in *. unfold build_k1. fold rows. fold N.
    assert (Hv : exists v, find (fun k => forallb (fun r => (0 <=? r k)%Z) rows) (zseq N) = Some v).
    { destruct (find _ (zseq N)) as [v|] eqn:E; eauto. exfalso. set (cc := map (fun _ => 2%Z) gs). destruct (center_ok _ zero_small) as [Cc _]. fold cc in Cc.
      assert (I : In (ravelF gs cc) (zseq N)) by (apply in_zseq, ravel_bound; auto). apply (find_none _ _ E) in I. apply Bool.not_true_iff_false in I. apply I. apply forallb_forall. intros r Ir.
      clear - F Ir Ios G5 Cc. assert (B : forall o, In o os -> small_box 2 (length gs) o) by (intros; apply Ios; auto). clear Ios. induction F as [|r' o rows' os' Hr F IH]; [destruct Ir|].
      destruct Ir as [->|Ir]; [|apply IH; auto; intros; apply B; right; auto]. destruct (center_ok o) as [_ Co]; [apply B; left; auto|]. destruct (Hr cc Cc) as [[Q1 ->]|[Q _]]; [|contradiction].
      apply Z.leb_le. apply ravel_bound; auto. }
    destruct Hv as (v & Ev). rewrite Ev. cbn [bind]. apply find_some in Ev as [Iv Fv]. apply in_zseq in Iv. destruct (ravel_unravel_ex gs v Gpos Iv) as (iv & Giv & ->). rewrite forallb_forall in Fv.
    assert (EV : combine rows (map (fun r : Z -> Z => kern_row h (nth (Z.to_nat (ravelF gs iv)) verts []) (nth (Z.to_nat (r (ravelF gs iv))) verts [])) rows) = combine rows (map (koff s h) os)).
    { f_equal. rewrite vert_ok by auto. assert (B : forall o, In o os -> length o = length gs) by (intros o I; apply Ios in I; apply I). clear Ios ND. clearbody rows.
      induction F as [|r o rows' os' Hr F IH]; auto. cbn [map]. f_equal; [|apply IH; [intros; apply Fv; right; auto|intros; apply B; right; auto]].
      pose proof (Fv r (or_introl eq_refl)) as Hp. apply Z.leb_le in Hp. pose proof (on_grid_len _ _ Giv) as Lv. pose proof (B o (or_introl eq_refl)) as Lo. destruct (Hr iv Giv) as [[Q1 Q2]|[_ Q2]]; [|lia]. rewrite Q2, vert_ok by auto.
      rewrite (kern_spec h s) by (auto; rewrite !node_length; auto; rewrite ?zadd_length; lia). apply kernel_offset; lia. }
    rewrite EV. clear EV. rewrite csr_ok.
    2:{ intros t It. apply in_flat_map in It as ([r w] & Ir & It). apply in_map_iff in It as (k & <- & Ik). apply in_zseq in Ik. cbn [fst snd]. apply in_combine_l in Ir.
      destruct (Z.ltb_spec (r k) 0); unfold trow, tcol; cbn [fst snd]; [pose proof Npos; lia|]. split; auto. split; auto.
      destruct (ravel_unravel_ex gs k Gpos Ik) as (ik & Gik & ->). clear - F Ir Gik. induction F as [|r' o rows' os' Hr F IH]; [destruct Ir|]. destruct Ir as [->|Ir]; auto.
      destruct (Hr ik Gik) as [[Q1 ->]|[_ Q]]; [apply ravel_bound; auto|]. rewrite Q in *. pose proof (ravel_bound gs ik Gik). unfold N. lia. }
    eexists. split; [reflexivity|]. intros idx idx' Gi Gj.
    pose proof (on_grid_len _ _ Gi) as Li. pose proof (on_grid_len _ _ Gj) as Lj.
    unfold entry. rewrite sumf_flat_map. rewrite (sumf_ext _ (fun rv : (Z -> Z) * R => if (fst rv (ravelF gs idx) <? 0)%Z then 0 else if (fst rv (ravelF gs idx) =? ravelF gs idx')%Z then snd rv else 0)).
    2:{ intros [r w] _. cbn [fst snd]. apply inner_row. apply ravel_bound; auto. }
    set (dec := list_eq_dec Z.eq_dec).
    assert (E : forall rows os, Forall2 (fun (r : Z -> Z) o => forall idx, on_grid gs idx -> (on_grid gs (zadd idx o) /\ r (ravelF gs idx) = ravelF gs (zadd idx o)) \/ (~ on_grid gs (zadd idx o) /\ r (ravelF gs idx) = -1)%Z) rows os ->
      sumf (fun rv : (Z -> Z) * R => if (fst rv (ravelF gs idx) <? 0)%Z then 0 else if (fst rv (ravelF gs idx) =? ravelF gs idx')%Z then snd rv else 0) (combine rows (map (koff s h) os))
      = sumf (fun o => if (if dec (zadd idx o) idx' then true else false) then koff s h o else 0) os).
    { clear - Gi Gj. induction 1 as [|r o rows os Hr F IH]; cbn [map combine sumf fst snd]; auto. rewrite IH. f_equal. destruct (Hr idx Gi) as [[Q1 ->]|[Q1 ->]].
      - pose proof (ravel_bound _ _ Q1). destruct (Z.ltb_spec (ravelF gs (zadd idx o)) 0); [lia|]. destruct (Z.eqb_spec (ravelF gs (zadd idx o)) (ravelF gs idx')) as [E|E]; destruct (dec (zadd idx o) idx') as [E'|E']; auto.
        + exfalso. apply E'. eapply ravel_inj; eauto.
        + exfalso. apply E. congruence.
      - cbn [Z.ltb Z.compare]. destruct (dec (zadd idx o) idx') as [E'|E']; auto. congruence. }
    rewrite (E _ _ F). clear E. destruct (small_dec 2 (length gs) (zsub idx' idx)) as [SB|SB].
    - rewrite (sumf_unique (fun o => if dec (zadd idx o) idx' then true else false) (koff s h) os (zsub idx' idx)); auto.
      + rewrite <- (kernel_offset s h c idx) by (rewrite ?zsub_length; lia). rewrite zadd_zsub by lia. auto.
      + apply Ios. auto.
      + rewrite zadd_zsub by lia. destruct (dec idx' idx'); congruence.
      + intros o Io Eo. destruct (dec (zadd idx o) idx') as [E'|]; [|discriminate]. apply Ios in Io as [Lo _]. apply (zadd_inj idx); [lia|rewrite zsub_length; lia|]. rewrite zadd_zsub by lia. auto.
    - rewrite sumf_zero.
      + destruct (not_small 2 (length gs) (zsub idx' idx) ltac:(rewrite zsub_length; lia) SB) as (d & D & B). rewrite nth_zsub in B by lia. symmetry. apply (far_zero s h c idx' (node c h idx) d); auto; try lia; [rewrite node_length; lia|].
        rewrite nth_node by lia. replace (nth d c 0 + IZR (nth d idx 0%Z) * nth d h 0 - (nth d c 0 + IZR (nth d idx' 0%Z) * nth d h 0)) with (IZR (nth d idx 0%Z - nth d idx' 0%Z) * nth d h 0) by (rewrite minus_IZR; ring).
        assert (Hd : lmin h <= nth d h 0) by (apply lmin_le, nth_In; lia). assert (0 < lmin h) by lra. rewrite Rabs_mult, (Rabs_right (nth d h 0)) by lra.
        assert (A : 3 <= Rabs (IZR (nth d idx 0%Z - nth d idx' 0%Z))) by (rewrite <- abs_IZR; apply IZR_le; lia). nra.
      + intros o Io. destruct (dec (zadd idx o) idx') as [E'|]; auto. exfalso. apply SB. apply Ios in Io. replace (zsub idx' idx) with o; auto. apply (zadd_inj idx); [destruct Io; lia|rewrite zsub_length; lia|]. rewrite zadd_zsub by lia. auto.
  Qed.
End K1.
(** 3D: the construction succeeds *)
Lemma k1_runs3 g0 g1 g2 h verts : (5 <= g0)%Z -> (5 <= g1)%Z -> (5 <= g2)%Z -> exists k1, build_k1 [g0; g1; g2] h verts = Ok k1.
Proof.
  intros H0 H1 H2. unfold build_k1. set (rows := nb_rows [g0; g1; g2]). change (zprod [g0; g1; g2]) with (g0 * (g1 * (g2 * 1)))%Z. replace (g0 * (g1 * (g2 * 1)))%Z with (g0 * g1 * g2)%Z by ring.
  assert (P : (0 < g0 * g1)%Z) by nia.
  destruct (find _ _) as [v|] eqn:E.
  - cbn [bind]. rewrite csr_ok; [eexists; reflexivity|]. intros t It. apply in_flat_map in It as ([r w] & Ir & It). apply in_map_iff in It as (k & <- & Ik). apply in_zseq in Ik. apply in_combine_l in Ir. cbn [fst snd].
    destruct (nb3_weak g0 g1 g2 r H0 H1 H2 Ir) as [W _]. destruct (Z.ltb_spec (r k) 0); unfold trow, tcol; cbn [fst snd]; [nia|]. destruct (W k); lia.
  - exfalso. assert (I : In (2 + g0 * (2 + g1 * 2))%Z (zseq (g0 * g1 * g2))). { apply in_zseq. assert (0 <= 2 + g1 * 2 < g1 * g2)%Z by nia. nia. }
    apply (find_none _ _ E) in I. apply Bool.not_true_iff_false in I. apply I. apply forallb_forall. intros r Ir. destruct (nb3_weak g0 g1 g2 r H0 H1 H2 Ir) as [_ W]. apply Z.leb_le. exact W.
Qed.

(** ** k2 *)
Fixpoint in_cells_of (gs : list Z) (h c p : list R) : Prop :=
  match gs, h, c, p with
  | [], [], [], [] => True
  | g :: gs, e :: h, a :: c, x :: p => (a <= x < a + IZR g * e) /\ in_cells_of gs h c p
  | _, _, _, _ => False
  end.
Lemma in_cells_len gs : forall h c p, in_cells_of gs h c p -> length h = length gs /\ length c = length gs /\ length p = length gs.
Proof. induction gs as [|g gs IH]; intros [|? h] [|? c] [|? p]; cbn; try tauto. intros [_ H]. apply IH in H. lia. Qed.
Definition cidx (h c p : list R) : list Z := zipw (fun a b => flo (a / b)) (zipw Rminus p c) h.
Lemma cell_ok gs : forall h c p, Forall (fun e => 0 < e) h -> in_cells_of gs h c p -> on_grid gs (cidx h c p) /\
  (forall d, (d < length gs)%nat -> nth d c 0 + IZR (nth d (cidx h c p) 0%Z) * nth d h 0 <= nth d p 0 < nth d c 0 + (IZR (nth d (cidx h c p) 0%Z) + 1) * nth d h 0).
Proof.
  induction gs as [|g gs IH]; intros [|e h] [|a c] [|x p]; cbn [in_cells_of]; try tauto; intros P H.
  - split; [constructor|cbn; lia].
  - destruct H as [B H]. inversion P as [|? ? Pe P']; subst. destruct (IH h c p P' H) as [G C]. unfold cidx, zipw in *. cbn [combine map fst snd].
    pose proof (flo_spec ((x - a) / e)) as [F1 F2]. set (k := flo ((x - a) / e)) in *.
    assert (M1 : IZR k * e <= x - a). { apply (Rmult_le_compat_r e) in F1; [|lra]. unfold Rdiv in F1. rewrite Rmult_assoc, Rinv_l in F1 by lra. lra. }
    assert (M2 : x - a < (IZR k + 1) * e). { apply (Rmult_lt_compat_r e) in F2; [|lra]. unfold Rdiv in F2. rewrite Rmult_assoc, Rinv_l in F2 by lra. lra. }
    split.
    + constructor; auto. split.
      * apply Z.lt_succ_r. apply lt_IZR. rewrite succ_IZR. apply (Rmult_lt_reg_r e); auto. lra.
      * apply lt_IZR. apply (Rmult_lt_reg_r e); auto. lra.
    + intros [|d] D; cbn in *; [lra|]. apply C. lia.
Qed.
Lemma cell_of_ok gs h c p : Forall (fun e => 0 < e) h -> in_cells_of gs h c p -> cell_of gs h c p = Ok (ravelF gs (cidx h c p)).
Proof.
  intros P H. destruct (cell_ok gs h c p P H) as [G _]. unfold cell_of. fold (cidx h c p). replace (forallb _ _) with true; auto. symmetry. apply forallb_forall. intros [g i] I. cbn [fst snd].
  clear - G I. induction G as [|g' i' gs idx Hi G IH]; [destruct I|]. destruct I as [E|I]; auto. injection E as <- <-. unfold inrange. apply andb_true_intro. rewrite Z.leb_le, Z.ltb_lt. lia.
Qed.
Fixpoint boxes (n : nat) : list (list Z) := match n with O => [[]] | S n => flat_map (fun a => map (fun t => a :: t) (boxes n)) around end.
Lemma in_around k : In k around <-> (-3 <= k <= 3)%Z.
Proof. unfold around. rewrite in_map_iff. split; [intros (x & <- & I); apply in_zseq in I; lia|]. intros. exists (k + 3)%Z. split; [lia|]. apply in_zseq. lia. Qed.
Lemma boxes_in n o : In o (boxes n) <-> small_box 3 n o.
Proof.
  revert o. induction n as [|n IH]; intros o; cbn [boxes].
  - cbn. unfold small_box. split; [intros [ <- | [] ]; split; auto|]. intros [L _]. destruct o; auto; discriminate.
  - rewrite in_flat_map. split.
    + intros (a & Ia & I). apply in_map_iff in I as (t & <- & I). apply IH in I as [L F]. apply in_around in Ia. split; [cbn; lia|constructor; auto].
    + intros [L F]. destruct o as [|a t]; [discriminate|]. inversion F; subst. exists a. split; [apply in_around; auto|]. apply in_map, IH. split; auto.
Qed.
Lemma boxes_nodup n : NoDup (boxes n).
Proof.
  induction n as [|n IH]; cbn [boxes]; [repeat constructor; auto|].
  assert (N : NoDup around) by (unfold around; cbn; repeat constructor; cbn; lia). induction N as [|a l Na N IH2]; cbn; [constructor|].
  apply SubdivProofs.NoDup_app_iff. split; [|split; auto].
  - apply NoDup_map_inj; auto. intros x y _ _ E. congruence.
  - intros x I1 I2. apply in_map_iff in I1 as (t & <- & _). apply in_flat_map in I2 as (b & Ib & I2). apply in_map_iff in I2 as (t' & E & _). congruence.
Qed.
Definition inner7 (gs : list Z) : Prop := forall d, (S d < length gs)%nat -> (7 <= nth d gs 0)%Z.
Lemma ravel_inj7 gs : forall o o', inner7 gs -> small_box 3 (length gs) o -> small_box 3 (length gs) o' -> Forall (fun g => (0 < g)%Z) gs -> ravelF gs o = ravelF gs o' -> o = o'.
Proof.
  induction gs as [|g gs IH]; intros [|a o] [|b o'] I7 [L F] [L' F'] P E; try discriminate; auto. cbn in E, L, L'. inversion F; subst. inversion F'; subst. inversion P; subst.
  destruct gs as [|g' gs].
  - destruct o, o'; try discriminate. cbn in E. f_equal. lia.
  - pose proof (I7 0%nat ltac:(cbn; lia)) as H7. cbn in H7. assert (EE : ravelF (g' :: gs) o = ravelF (g' :: gs) o') by nia.
    f_equal; [rewrite EE in E; lia|]. apply IH; auto; try (split; auto; cbn in *; lia). intros d D. apply (I7 (S d)). cbn in *. lia.
Qed.
Lemma flat_map_map2 {A B C} (f : B -> C) (g : A -> list B) l : map f (flat_map g l) = flat_map (fun a => map f (g a)) l.
Proof. induction l; cbn; auto. rewrite map_app, IHl. auto. Qed.
Lemma flat_map_flat_map {A B C} (f : B -> list C) (g : A -> list B) l : flat_map f (flat_map g l) = flat_map (fun a => flat_map f (g a)) l.
Proof. induction l; cbn; auto. rewrite flat_map_app, IHl. auto. Qed.
Lemma flat_map_map_l {A B C} (f : B -> list C) (g : A -> B) l : flat_map f (map g l) = flat_map (fun a => f (g a)) l.
Proof. induction l; cbn; auto. rewrite IHl. auto. Qed.
Lemma flat_offsets_ok gs : length gs = 2%nat \/ length gs = 3%nat -> flat_offsets gs = map (ravelF gs) (boxes (length gs)).
Proof.
  assert (E1 : boxes 1 = map (fun b => [b]) around) by reflexivity. assert (E2 : boxes 2 = flat_map (fun a => map (fun b => [a; b]) around) around) by reflexivity.
  assert (E3 : boxes 3 = flat_map (fun a => map (fun t => a :: t) (flat_map (fun a => map (fun b => [a; b]) around) around)) around) by reflexivity.
  intros [L|L]; rewrite L.
  - destruct gs as [|g0 [|g1 [|]]]; try discriminate. unfold flat_offsets. cbn [length Nat.sub seq fold_left firstn Nat.add zprod fold_right]. rewrite E2, flat_map_map2. apply flat_map_ext. intros a. rewrite map_map. apply map_ext. intros b. cbn [ravelF]. ring.
  - destruct gs as [|g0 [|g1 [|g2 [|]]]]; try discriminate. unfold flat_offsets. cbn [length Nat.sub seq fold_left firstn Nat.add zprod fold_right]. rewrite E3, flat_map_map2.
    rewrite flat_map_flat_map. apply flat_map_ext. intros a. rewrite flat_map_map_l, map_map, flat_map_map2. apply flat_map_ext. intros b. rewrite map_map. apply map_ext. intros x. cbn [ravelF]. ring.
Qed.
Lemma mapX_ok {A B} (f : A -> res B) (g : A -> B) l : (forall x, In x l -> f x = Ok (g x)) -> mapX f l = Ok (map g l).
Proof. induction l as [|a l IH]; intros H; cbn; auto. rewrite H by (left; auto). cbn [bind]. rewrite IH by (intros; apply H; right; auto). auto. Qed.
Lemma mapX_err {A B} (f : A -> res B) l x e : In x l -> f x = Err e -> (forall y e', In y l -> f y = Err e' -> e' = e) -> mapX f l = Err e.
Proof.
  intros I E U. induction l as [|a l IH]; [destruct I|]. cbn. destruct (f a) as [b|e'] eqn:Ea; cbn [bind].
  - destruct I as [->|I]; [congruence|]. rewrite IH; auto. intros; apply (U y); auto. right; auto.
  - f_equal. apply (U a); auto. left; auto.
Qed.

Lemma nth_error_combine_fst {A B} (l : list A) : forall (l' : list B) k a b, nth_error (combine l l') k = Some (a, b) -> nth_error l k = Some a.
Proof. induction l as [|x l IH]; intros [|y l'] [|k] a b; cbn; try discriminate; [congruence|]. apply IH. Qed.
Lemma ravel_add gs : forall a b, length a = length gs -> length b = length gs -> ravelF gs (zadd a b) = (ravelF gs a + ravelF gs b)%Z.
Proof. induction gs as [|g gs IH]; intros [|x a] [|y b]; cbn; intros; try lia. unfold zadd, zipw in IH. rewrite IH by lia. lia. Qed.
Lemma seq_at n k : (k < n)%nat -> nth_error (seq 0 n) k = Some k.
Proof. intros. apply nth_error_seq. auto. Qed.
Lemma lin_idx_at n k a : nth_error (lin_idx n) k = Some a -> (k < n)%nat /\ a = Z.of_nat k.
Proof. unfold lin_idx. rewrite nth_error_map. destruct (nth_error (seq 0 n) k) eqn:E; [|discriminate]. apply nth_error_seq in E as [L ->]. cbn. intros H. injection H as <-. auto. Qed.
Section K2.
  Variables (P : list (list R)) (gs : list Z) (h c : list R) (s : R).
  Hypotheses (Lg : length gs = 2%nat \/ length gs = 3%nat) (I7 : inner7 gs) (Gp : Forall (fun g => (0 < g)%Z) gs) (Hp : Forall (fun e => 0 < e) h)
    (PC : forall p, In p P -> in_cells_of gs h c p) (SP : 0 < s) (Es : 3 / 2 * lmin h = s) (Lh : length h = length gs) (Lc : length c = length gs).
  Let verts := grid_pts (axes gs h c).
  Let N := zprod gs.
  Lemma k2_ok : exists k2, build_k2 P gs h c verts = Ok k2 /\ forall i p idx, nth_error P i = Some p -> on_grid gs idx ->
    entry k2 (Z.of_nat i) (ravelF gs idx) = spline_kernel s p (node c h idx).
  Proof.
    unfold build_k2. rewrite (mapX_ok _ (fun p => ravelF gs (cidx h c p))) by (intros p I; apply cell_of_ok; auto). cbn [bind]. fold N.
    set (IJ := filter _ _).
    assert (Hic : forall i r, In (i, r) (combine (lin_idx (length P)) (map (fun p => ravelF gs (cidx h c p)) P)) <-> exists k p, i = Z.of_nat k /\ nth_error P k = Some p /\ r = ravelF gs (cidx h c p)).
    { intros i r. rewrite In_combine. unfold lin_idx. split.
      - intros (k & E1 & E2). rewrite nth_error_map in E1. rewrite nth_error_map in E2. destruct (nth_error P k) as [p|] eqn:Ep; [|discriminate]. cbn in E2. injection E2 as <-.
        assert (k < length P)%nat by (apply nth_error_Some; congruence). rewrite seq_at in E1 by auto. cbn in E1. injection E1 as <-. exists k, p. auto.
      - intros (k & p & -> & Ep & ->). exists k. assert (k < length P)%nat by (apply nth_error_Some; congruence). rewrite !nth_error_map, seq_at, Ep by auto. auto. }
    assert (Hin : forall i j, In (i, j) IJ <-> exists k p o, i = Z.of_nat k /\ nth_error P k = Some p /\ small_box 3 (length gs) o /\ j = (ravelF gs (cidx h c p) + ravelF gs o)%Z /\ (0 <= j < N)%Z).
    { intros i j. unfold IJ. rewrite filter_In, in_flat_map. cbn [snd]. rewrite andb_true_iff, Z.leb_le, Z.ltb_lt. rewrite flat_offsets_ok by auto. split.
      - intros [((i' & j') & I & J) B]. cbn [fst snd] in J. apply in_map_iff in J as (o & E & J). injection E as <- <-. apply in_map_iff in J as (o' & <- & J). apply boxes_in in J.
        apply Hic in I as (k & p & -> & Ep & ->). exists k, p, o'. auto.
      - intros (k & p & o & -> & Ep & So & -> & B). split; auto. exists (Z.of_nat k, ravelF gs (cidx h c p)). split; [apply Hic; eauto|]. cbn [fst snd]. apply in_map_iff. exists (ravelF gs o). split; auto. apply in_map, boxes_in. auto. }
    assert (NDI : NoDup IJ).
    { unfold IJ. apply NoDup_filter. rewrite flat_offsets_ok by auto. apply DecProofs.NoDup_flat_map_key.
      - intros [i r] _. cbn [fst snd]. rewrite map_map. apply NoDup_map_inj; [|apply boxes_nodup]. intros x y Ix Iy E. apply boxes_in in Ix. apply boxes_in in Iy. apply (ravel_inj7 gs); auto. injection E. lia.
      - intros i j [a ra] [b rb] [x y] Ei Ej Ia Ib. cbn [fst snd] in *. apply in_map_iff in Ia as (o & Ea & _). apply in_map_iff in Ib as (o' & Eb & _). assert (a = b) by congruence. clear Ea Eb. subst b.
        apply nth_error_combine_fst in Ei. apply nth_error_combine_fst in Ej. apply lin_idx_at in Ei. apply lin_idx_at in Ej. lia. }
    assert (Gn : Forall (fun g => (0 <= g)%Z) gs) by (eapply Forall_impl; [|exact Gp]; cbn; lia).
    assert (LV : Z.of_nat (length verts) = N) by (unfold verts; rewrite grid_pts_length by auto; apply Z2Nat.id, zprod_nonneg; auto).
    destruct (C24_pattern pt (kern_row h) (fun A B => zipw (kern_row h) A B) P verts IJ) as (k2 & E & V & Z0); auto.
    { intros A B _. reflexivity. }
    { intros [i j] I. apply Hin in I as (k & p & o & -> & Ep & _ & _ & B). cbn [fst snd]. rewrite LV. split; auto. assert (k < length P)%nat by (apply nth_error_Some; congruence). unfold pt in *. lia. }
    exists k2. split; [exact E|]. intros i p idx Ep Gi. pose proof (on_grid_len _ _ Gi) as Li. pose proof (ravel_bound gs idx Gi) as RB. fold N in RB.
    pose proof (PC p (nth_error_In _ _ Ep)) as Cp. destruct (in_cells_len _ _ _ _ Cp) as (_ & _ & Lp). destruct (cell_ok gs h c p Hp Cp) as [Gc Bc]. pose proof (on_grid_len _ _ Gc) as Lci.
    assert (Ev : nth_error verts (Z.to_nat (ravelF gs idx)) = Some (node c h idx)) by (apply grid_pts_nth; auto).
    replace (ravelF gs idx) with (Z.of_nat (Z.to_nat (ravelF gs idx))) by lia.
    destruct (in_dec (fun a b : Z * Z => ltac:(decide equality; apply Z.eq_dec)) (Z.of_nat i, Z.of_nat (Z.to_nat (ravelF gs idx))) IJ) as [I|NI].
    - rewrite (V i _ p (node c h idx)) by auto. apply kern_spec; auto. rewrite node_length; lia.
    - rewrite Z0 by auto. symmetry. rewrite Z2Nat.id in NI by lia.
      destruct (small_dec 3 (length gs) (zsub idx (cidx h c p))) as [SB|SB].
      + exfalso. apply NI. apply Hin. exists i, p, (zsub idx (cidx h c p)). split; auto. split; auto. split; auto. split; [|exact RB]. rewrite <- ravel_add by (rewrite ?zsub_length; lia). rewrite zadd_zsub by lia. auto.
      + destruct (not_small 3 (length gs) (zsub idx (cidx h c p)) ltac:(rewrite zsub_length; lia) SB) as (d & D & B). rewrite nth_zsub in B by lia.
        apply (far_zero s h c idx p d); auto; try lia. specialize (Bc d D). set (ic := nth d (cidx h c p) 0%Z) in *. set (id := nth d idx 0%Z) in *. clearbody ic id.
        assert (Hd : lmin h <= nth d h 0) by (apply lmin_le, nth_In; lia). assert (0 < lmin h) by lra. set (hd := nth d h 0) in *. set (cd := nth d c 0) in *. set (pd := nth d p 0) in *. clearbody hd cd pd. clear - Bc B Hd H Es.
        destruct B as [B|B].
        * assert (B' : (id + 4 <= ic)%Z) by lia. apply IZR_le in B'. rewrite plus_IZR in B'. apply Rle_trans with (pd - (cd + IZR id * hd)); [|apply Rle_abs]. assert (4 * hd <= (IZR ic - IZR id) * hd) by (apply Rmult_le_compat_r; lra). lra.
        * assert (B' : (ic + 4 <= id)%Z) by lia. apply IZR_le in B'. rewrite plus_IZR in B'. rewrite Rabs_minus_sym. apply Rle_trans with (cd + IZR id * hd - pd); [|apply Rle_abs]. assert (4 * hd <= (IZR id - IZR ic) * hd) by (apply Rmult_le_compat_r; lra). lra.
  Qed.
End K2.
