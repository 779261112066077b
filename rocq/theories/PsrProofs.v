(** lemmas for C78: flat indices, nodes, the kernel and the two kernel matrices *)
From Coq Require Import Reals Lra Lia ZArith List Bool Psatz Permutation.
From Verif Require Import NumpyModel NumpyProofs PyExn Vec MatModel MatProofs SubdivModel MatFunModel P_MatFun GridMeshModel GridMeshProofs GridNbModel GridNbProofs FdModel FdProofs
  KernelModel KernelSpec KernelProofs P_Kernel EigModel SolveModel LoopSubProofs BiharmProofs Biharm2Proofs Subdiv3Proofs PsrModel PsrSpec PsrNbProofs.
Import ListNotations.
Open Scope R_scope.

(** ** flat indices *)
Lemma on_grid_len gs idx : on_grid gs idx -> length idx = length gs.
Proof. induction 1; cbn; auto. Qed.
Lemma zprod_nonneg gs : Forall (fun g => (0 <= g)%Z) gs -> (0 <= zprod gs)%Z.
Proof. induction 1; cbn; [lia|]. fold (zprod l). nia. Qed.
Lemma ravel_bound gs idx : on_grid gs idx -> (0 <= ravelF gs idx < zprod gs)%Z.
Proof. induction 1; cbn; [lia|]. fold (zprod l). nia. Qed.
Lemma ravel_inj gs idx idx' : on_grid gs idx -> on_grid gs idx' -> ravelF gs idx = ravelF gs idx' -> idx = idx'.
Proof.
  intros H. revert idx'. induction H as [|g i gs idx Hi H IH]; intros idx' H' E; inversion H'; subst; auto. cbn in E. apply idx_inj' in E as [-> E]; auto. f_equal; auto.
Qed.
Fixpoint unravelF (gs : list Z) (c : Z) : list Z := match gs with [] => [] | g :: r => (c mod g)%Z :: unravelF r (c / g)%Z end.
Lemma unravelF_ok gs : forall c, Forall (fun g => (0 < g)%Z) gs -> (0 <= c < zprod gs)%Z -> on_grid gs (unravelF gs c) /\ ravelF gs (unravelF gs c) = c.
Proof.
  induction gs as [|g gs IH]; intros c P B; cbn in *; [split; [constructor|lia]|]. fold (zprod gs) in B. inversion P; subst.
  destruct (IH (c / g)%Z) as [I E]; auto.
  { split; [apply Z.div_pos; lia|apply Z.div_lt_upper_bound; lia]. }
  split; [constructor; auto; apply Z.mod_pos_bound; auto|]. rewrite E. pose proof (Z.div_mod c g ltac:(lia)). lia.
Qed.
Lemma ravel_unravel_ex gs c : Forall (fun g => (0 < g)%Z) gs -> (0 <= c < zprod gs)%Z -> exists idx, on_grid gs idx /\ c = ravelF gs idx.
Proof. intros P B. destruct (unravelF_ok gs c P B). exists (unravelF gs c). auto. Qed.
Lemma grid_sum_ext gs f f' : (forall idx, on_grid gs idx -> f idx = f' idx) -> grid_sum gs f = grid_sum gs f'.
Proof.
  revert f f'. induction gs as [|g gs IH]; intros f f' H; cbn; [apply H; constructor|]. apply sumn_ext. intros i Hi. apply IH. intros t T. apply H. constructor; auto. lia.
Qed.
Lemma flat_sum gs f : Forall (fun g => (0 <= g)%Z) gs -> sumn (Z.to_nat (zprod gs)) f = grid_sum gs (fun idx => f (Z.to_nat (ravelF gs idx))).
Proof.
  revert f. induction gs as [|g gs IH]; intros f P.
  - change (Z.to_nat (zprod [])) with 1%nat. cbn [grid_sum ravelF]. change (Z.to_nat 0) with 0%nat. unfold sumn. cbn [seq sumf]. lra.
  - cbn [grid_sum ravelF zprod fold_right]. fold (zprod gs). inversion P as [|? ? Pg P']; subst. pose proof (zprod_nonneg gs P'). rewrite Z2Nat.inj_mul, Nat.mul_comm by auto. rewrite sumn_mul.
    rewrite (sumn_swap (Z.to_nat (zprod gs)) (Z.to_nat g)). apply sumn_ext. intros i Hi. rewrite IH by auto. apply grid_sum_ext. intros t T. f_equal. apply ravel_bound in T. nia.
Qed.
Lemma grid_sum_plus gs f f' : grid_sum gs (fun i => f i + f' i) = grid_sum gs f + grid_sum gs f'.
Proof. revert f f'. induction gs; intros; cbn; auto. rewrite <- sumn_plus. apply sumn_ext. intros. rewrite IHgs. auto. Qed.
Lemma grid_sum_scal gs c f : grid_sum gs (fun i => c * f i) = c * grid_sum gs f.
Proof. revert f. induction gs; intros; cbn; auto. rewrite <- sumn_scal. apply sumn_ext. intros. rewrite IHgs. auto. Qed.

(** ** nodes *)
Lemma linsp_step c e g k : (0 <= k < g)%Z -> linsp c (c + IZR (g - 1) * e) g k = c + IZR k * e.
Proof.
  intros H. unfold linsp. destruct (Z.eqb_spec g 1) as [->|Hg].
  - assert (k = 0%Z) as -> by lia. lra.
  - assert (IZR (g - 1) <> 0) by (apply not_0_IZR; lia). field. auto.
Qed.
Lemma grid_pts_length gs : forall h c, length h = length gs -> length c = length gs -> Forall (fun g => (0 <= g)%Z) gs -> length (grid_pts (axes gs h c)) = Z.to_nat (zprod gs).
Proof.
  induction gs as [|g gs IH]; intros [|e h] [|c0 c] Lh Lc P; try discriminate; auto. inversion P; subst. cbn [axes zipw combine map grid_pts fst snd].
  rewrite (flat_map_const_length _ _ (Z.to_nat g)) by (intros; rewrite !map_length, zseq_length; auto). change (map _ (combine gs (combine c h))) with (axes gs h c).
  rewrite IH by (cbn in *; auto; lia). cbn [zprod fold_right]. fold (zprod gs). pose proof (zprod_nonneg gs H2). rewrite Z2Nat.inj_mul by auto. lia.
Qed.
Lemma grid_pts_nth gs : forall h c idx, length h = length gs -> length c = length gs -> on_grid gs idx -> nth_error (grid_pts (axes gs h c)) (Z.to_nat (ravelF gs idx)) = Some (node c h idx).
Proof.
  induction gs as [|g gs IH]; intros [|e h] [|c0 c] idx Lh Lc P; try discriminate; inversion P as [|? i ? r Hi Hr]; subst; auto. cbn [axes zipw combine map grid_pts fst snd node ravelF].
  change (map _ (combine gs (combine c h))) with (axes gs h c). pose proof (ravel_bound gs r Hr).
  replace (Z.to_nat (i + g * ravelF gs r)) with (Z.to_nat (ravelF gs r) * Z.to_nat g + Z.to_nat i)%nat by (rewrite Z2Nat.inj_add, Z2Nat.inj_mul by nia; lia).
  apply (nth_error_flat_map_const _ (Z.to_nat g)) with (x := node c h r).
  - intros x. rewrite !map_length, zseq_length. auto.
  - apply IH; auto.
  - rewrite map_map. rewrite nth_error_map, zseq_nth by lia. cbn [option_map]. rewrite Z2Nat.id by lia. rewrite linsp_step by lia. auto.
Qed.
Lemma node_length c h idx : length c = length idx -> length h = length idx -> length (node c h idx) = length idx.
Proof. revert c h. induction idx; intros [|? c] [|? h]; cbn; intros; try discriminate; auto. Qed.

(** ** the kernel *)
Lemma lmin_le x l : In x l -> lmin l <= x.
Proof.
  destruct l as [|a l]; [intros []|]. unfold lmin. revert a. induction l as [|b l IH]; intros a I; cbn in *.
  - destruct I as [->|[]]. lra.
  - destruct I as [->|[->|I]].
    + apply Rle_trans with (fold_right Rmin x l); [apply Rmin_r|]. apply IH. auto.
    + apply Rmin_l.
    + apply Rle_trans with (fold_right Rmin a l); [apply Rmin_r|]. apply IH. auto.
Qed.
Lemma lmin_in l : l <> [] -> In (lmin l) l.
Proof.
  destruct l as [|a l]; [congruence|]. intros _. unfold lmin. revert a. induction l as [|b l IH]; intros a; cbn; auto.
  unfold Rmin. destruct Rle_dec; [right; left; reflexivity|]. destruct (IH a) as [E|I]; [left; exact E|right; right; exact I].
Qed.
Lemma least_unique m l : is_least m l -> lmin l = m.
Proof. intros [I L]. assert (l <> []) by (intros ->; destruct I). apply Rle_antisym; [apply lmin_le; auto|]. apply L, lmin_in; auto. Qed.
Lemma kern_spec h s p q : 0 < s -> 3 / 2 * lmin h = s -> length p = length q -> kern_row h p q = spline_kernel s p q.
Proof.
  intros SP E L. unfold kern_row. rewrite E. rewrite csn_none. change 3%Z with (Z.of_nat 3). rewrite (C53_normal_value _ _ 3 s SP); [|lia|apply repeat_length|intros i I; split; intros; discriminate].
  unfold dens. revert q L. assert (G : forall k q, length p = length q -> gprod (fun _ => bspline 3) k (ndiff (zipw Rminus p q) (repeat 0 (length (zipw Rminus p q))) s) = spline_kernel s p q * s ^ length (zipw Rminus p q)).
  { induction p as [|a p IH]; intros k [|b q] L; try discriminate; cbn; [ring|]. cbn in L. injection L as L. unfold ndiff, zipw in IH. cbn [length] in *. rewrite (IH (S k) q L). replace ((a - b - 0) / s) with ((a - b) / s) by (field; lra). field. lra. }
  intros q L. rewrite (G 0%nat q L). field. apply pow_nonzero. lra.
Qed.
Lemma kernel_zero s p q d : 0 < s -> (d < length p)%nat -> length p = length q -> 2 * s <= Rabs (nth d p 0 - nth d q 0) -> spline_kernel s p q = 0.
Proof.
  intros SP. revert q d. induction p as [|a p IH]; intros [|b q] d D L H; cbn in *; try lia. destruct d as [|d].
  - assert (B : bspline 3 ((a - b) / s) = 0).
    { apply (proj1 (proj2 (proj2 C53_bspline_spec))); [lia|]. unfold half_support. cbn [INR]. unfold Rdiv at 2. rewrite Rabs_mult, (Rabs_right (/ s)) by (left; apply Rinv_0_lt_compat; auto).
      apply (Rmult_le_reg_r s); auto. rewrite Rmult_assoc, Rinv_l by lra. lra. }
    rewrite B. unfold Rdiv. ring.
  - rewrite (IH q d); try lia; [ring|exact H].
Qed.
Definition zadd (a b : list Z) : list Z := zipw Z.add a b.
Fixpoint koff (s : R) (h : list R) (o : list Z) : R := match h, o with e :: h, k :: o => bspline 3 (- (IZR k * e) / s) / s * koff s h o | _, _ => 1 end.
Lemma kernel_offset s h c idx o : length c = length idx -> length h = length idx -> length o = length idx ->
  spline_kernel s (node c h idx) (node c h (zadd idx o)) = koff s h o.
Proof.
  revert c h o. induction idx as [|i idx IH]; intros [|a c] [|e h] [|k o]; cbn; intros L1 L2 L3; try discriminate; auto. f_equal; [|apply IH; lia].
  rewrite plus_IZR. f_equal. f_equal. f_equal. ring.
Qed.
Lemma zadd_length a b : length a = length b -> length (zadd a b) = length a.
Proof. intros. unfold zadd, zipw. rewrite map_length, combine_length. lia. Qed.
Definition zsub (a b : list Z) : list Z := zipw Z.sub a b.
Lemma zadd_zsub a b : length a = length b -> zadd a (zsub b a) = b.
Proof. revert b. induction a as [|x a IH]; intros [|y b]; cbn; intros L; try discriminate; auto. unfold zadd, zsub, zipw in IH. f_equal; [lia|apply IH; lia]. Qed.
Lemma zsub_length a b : length a = length b -> length (zsub a b) = length a.
Proof. intros. unfold zsub, zipw. rewrite map_length, combine_length. lia. Qed.
Lemma zadd_inj a o o' : length o = length a -> length o' = length a -> zadd a o = zadd a o' -> o = o'.
Proof. revert o o'. induction a as [|x a IH]; intros [|y o] [|z o']; cbn; intros L L' E; try discriminate; auto. injection E as E1 E2. f_equal; [lia|apply IH; auto; lia]. Qed.

Definition small_box (b : Z) (n : nat) (o : list Z) : Prop := length o = n /\ Forall (fun k => (- b <= k <= b)%Z) o.
Definition nb_ok (gs : list Z) : Prop := exists os : list (list Z), NoDup os /\ (forall o, In o os <-> small_box 2 (length gs) o) /\
  Forall2 (fun (r : Z -> Z) o => forall idx, on_grid gs idx -> (on_grid gs (zadd idx o) /\ r (ravelF gs idx) = ravelF gs (zadd idx o)) \/ (~ on_grid gs (zadd idx o) /\ r (ravelF gs idx) = -1)%Z) (nb_rows gs) os.
Lemma nb2_list g0 g1 : (5 <= g0)%Z -> (5 <= g1)%Z -> nb_ok [g0; g1].
Proof.
  intros H0 H1. destruct (nb2 g0 g1 H0 H1) as (os & ND & I & F). exists (map (fun o : Z * Z => [fst o; snd o]) os). split; [|split].
  - apply NoDup_map_inj; auto. intros [a b] [c d] _ _ E. cbn in E. congruence.
  - intros o. rewrite in_map_iff. unfold small_box. split.
    + intros ([a b] & <- & J). apply I in J. cbn in *. split; auto. repeat constructor; lia.
    + intros [L FB]. destruct o as [|a [|b [|? ?]]]; try discriminate. exists (a, b). split; auto. apply I. inversion FB as [|? ? A FB']; subst. inversion FB' as [|? ? B _]; subst. cbn. lia.
  - cbn [nb_rows]. clear ND I. induction F as [|r [a b] rows os' Hr F IH]; cbn [map]; constructor.
    + intros idx G. inversion G as [|? y ? t Hy Ht]; subst. inversion Ht as [|? x ? t' Hx Ht']; subst. inversion Ht'; subst.
      cbn [ravelF fst snd zadd zipw combine map]. replace (y + g0 * (x + g1 * 0))%Z with (y + g0 * x)%Z by lia. rewrite Hr by nia.
      assert (U : unravel2 g0 (y + g0 * x) = (y, x)). { pose proof (unravel_ravel2 g0 g1 (y, x) ltac:(lia) (conj Hy Hx)) as Q. unfold ravel2 in Q. cbn [fst snd] in Q. rewrite !Z.mod_small in Q by lia. exact Q. }
      rewrite U. unfold add2z. cbn [fst snd]. destruct (oob2 g0 g1 (y + a, x + b)%Z) eqn:E.
      * right. split; auto. intros G'. inversion G' as [|? ? ? ? Q1 G'']; subst. inversion G'' as [|? ? ? ? Q2 _]; subst.
        assert (oob2 g0 g1 (y + a, x + b)%Z = false) by (apply oob2_spec; split; cbn; lia). congruence.
      * left. apply oob2_spec in E as [E1 E2]. cbn [fst snd] in *. split; [repeat constructor; lia|]. unfold ravel2. cbn [fst snd]. rewrite !Z.mod_small by lia. lia.
    + exact IH.
Qed.
