(** lemmas for C78: the blocks of the three axes and the bilinear forms *)
From Coq Require Import Reals Lra Lia ZArith List Bool Psatz Permutation.
From Verif Require Import NumpyModel NumpyProofs PyExn Vec MatModel MatProofs SubdivModel MatFunModel P_MatFun GridMeshModel GridMeshProofs GridNbModel GridNbProofs FdModel FdProofs P_Fd
  KernelModel KernelSpec KernelProofs P_Kernel EigModel SolveModel LoopSubProofs BiharmProofs Biharm2Proofs Subdiv3Proofs CutProofs PsrModel PsrSpec PsrNbProofs PsrProofs Psr2Proofs Psr3Proofs.
Import ListNotations.
Open Scope R_scope.

(** ** samples *)
Lemma well_lower gs : forall h c p, Forall (fun e => 0 < e) h -> well_inside gs h c p -> in_box (map (fun g => g + 1)%Z gs) h (lower c h) p.
Proof.
  induction gs as [|g gs IH]; intros [|e h] [|a c] [|x p] P; cbn [well_inside in_box map lower]; try tauto. intros [B H]. inversion P; subst. split; [|apply IH; auto].
  replace (g + 1 - 1)%Z with g by ring. rewrite minus_IZR in B. lra.
Qed.
Lemma well_box gs : forall h c p, Forall (fun e => 0 < e) h -> well_inside gs h c p -> in_box gs h c p.
Proof. induction gs as [|g gs IH]; intros [|e h] [|a c] [|x p] P; cbn [well_inside in_box]; try tauto. intros [B H]. inversion P; subst. split; [lra|apply IH; auto]. Qed.
Lemma well_cells0 gs : forall h c p, Forall (fun e => 0 < e) h -> well_inside gs h c p -> in_cells_of gs h c p.
Proof. induction gs as [|g gs IH]; intros [|e h] [|a c] [|x p] P; cbn [well_inside in_cells_of]; try tauto. intros [B H]. inversion P; subst. rewrite minus_IZR in B. split; [lra|apply IH; auto]. Qed.
Lemma well_cells gs : forall d h c p, Forall (fun e => 0 < e) h -> well_inside gs h c p -> in_cells_of (fewer d gs) h (half_step d c h) p.
Proof.
  induction gs as [|g gs IH]; intros d [|e h] [|a c] [|x p] P; cbn [well_inside]; try tauto; [destruct d; cbn; auto|]. intros [B H]. inversion P; subst. rewrite minus_IZR in B.
  destruct d as [|d]; cbn [fewer half_step in_cells_of].
  - rewrite minus_IZR. split; [lra|]. apply well_cells0; auto.
  - split; [lra|]. apply IH; auto.
Qed.
(** ** the staggered grids *)
Lemma fewer_length d gs : length (fewer d gs) = length gs.
Proof. revert d. induction gs; intros [|d]; cbn; auto. Qed.
Lemma half_length d : forall c h, length (half_step d c h) = length c.
Proof. induction d; intros [|a c] [|e h]; cbn; auto. Qed.
Lemma upd_shift {A} (f : A -> A) l : forall s d, map (fun p => if Nat.eqb (fst p) (s + d) then f (snd p) else snd p) (combine (seq s (length l)) l) = match nth_error l d with None => l | Some x => firstn d l ++ f x :: skipn (S d) l end.
Proof.
  induction l as [|x l IH]; intros s d; [destruct d; reflexivity|]. cbn [length seq combine map fst snd]. destruct d as [|d]; cbn [nth_error firstn skipn app].
  - rewrite Nat.add_0_r, Nat.eqb_refl. f_equal. assert (G : forall l k, (s < k)%nat -> map (fun p : nat * A => if (fst p =? s)%nat then f (snd p) else snd p) (combine (seq k (length l)) l) = l).
    { clear. induction l as [|x l IH]; intros k Hk; cbn; auto. destruct (Nat.eqb_spec k s); [lia|]. rewrite IH by lia. auto. } apply G. lia.
  - destruct (Nat.eqb_spec s (s + S d)); [lia|]. replace (s + S d)%nat with (S s + d)%nat by lia. rewrite IH. destruct (nth_error l d); reflexivity.
Qed.
Lemma upd_fewer d : forall gs, upd d (fun g => g - 1)%Z gs = fewer d gs.
Proof.
  intros gs. unfold upd. transitivity (match nth_error gs d with None => gs | Some x => firstn d gs ++ (x - 1)%Z :: skipn (S d) gs end); [exact (upd_shift (fun g => g - 1)%Z gs 0 d)|]. revert d. induction gs as [|g gs IH]; intros [|d]; cbn; auto. rewrite <- IH. destruct (nth_error gs d); auto.
Qed.
Lemma upd_half d : forall c h, length h = length c -> upd d (fun c => c + 1 / 2 * nth d h 0) c = half_step d c h.
Proof.
  intros c h L. unfold upd. transitivity (match nth_error c d with None => c | Some x => firstn d c ++ (x + 1 / 2 * nth d h 0) :: skipn (S d) c end); [exact (upd_shift (fun c => c + 1 / 2 * nth d h 0) c 0 d)|]. revert d h L. induction c as [|a c IH]; intros [|d] [|e h]; cbn; try lia; auto; intros L.
  - f_equal. lra.
  - rewrite <- IH by lia. destruct (nth_error c d); auto.
Qed.
Lemma fewer_ge k d gs : Forall (fun g => (k < g)%Z) gs -> Forall (fun g => (k <= g)%Z) (fewer d gs).
Proof. intros H. revert d. induction H as [|g gs Hg H IH]; intros [|d]; cbn; constructor; auto; try lia. eapply Forall_impl; [|exact H]. cbn. lia. Qed.
Lemma nth_ge k gs d : Forall (fun g => (k <= g)%Z) gs -> (d < length gs)%nat -> (k <= nth d gs 0)%Z.
Proof. intros H L. rewrite Forall_forall in H. apply H, nth_In; auto. Qed.

(** ** blocks *)
Definition block := (nat * (nat -> R) * (nat -> nat -> R))%type.
Definition bsize (bs : list block) : nat := fold_right (fun b s => (fst (fst b) + s)%nat) 0%nat bs.
Lemma concat_at bs : forall d n f g r, nth_error bs d = Some (n, f, g) -> (r < n)%nat -> concat_v bs (bsize (firstn d bs) + r) = f r.
Proof.
  induction bs as [|[[n0 f0] g0] bs IH]; intros [|d] n f g r E L; try discriminate; cbn [nth_error firstn bsize fold_right concat_v fst Nat.add] in *.
  - injection E as -> -> ->. replace (r <? n)%nat with true; auto. symmetry. apply Nat.ltb_lt. auto.
  - destruct (Nat.ltb_spec (n0 + fold_right (fun b s => (fst (fst b) + s)%nat) 0%nat (firstn d bs) + r) n0); [lia|]. rewrite <- (IH d n f g r E L). f_equal. unfold bsize. lia.
Qed.
Lemma diag_at bs : forall d d' n f g n' f' g' r r', nth_error bs d = Some (n, f, g) -> nth_error bs d' = Some (n', f', g') -> (r < n)%nat -> (r' < n')%nat ->
  block_diag_v bs (bsize (firstn d bs) + r) (bsize (firstn d' bs) + r') = if Nat.eqb d d' then g r r' else 0.
Proof.
  induction bs as [|[[n0 f0] g0] bs IH]; intros [|d] [|d'] n f g n' f' g' r r' E E' L L'; try discriminate; cbn [nth_error firstn bsize fold_right block_diag_v fst Nat.add Nat.eqb] in *.
  - injection E as -> -> ->. injection E' as -> -> ->. replace (r <? n')%nat with true by (symmetry; apply Nat.ltb_lt; auto). replace (r' <? n')%nat with true by (symmetry; apply Nat.ltb_lt; auto). auto.
  - injection E as -> -> ->. replace (r <? n)%nat with true by (symmetry; apply Nat.ltb_lt; auto). match goal with |- context [(?a <? n)%nat] => destruct (Nat.ltb_spec a n); [lia|auto] end.
  - injection E' as -> -> ->. replace (r' <? n')%nat with true by (symmetry; apply Nat.ltb_lt; auto). match goal with |- context [(?a <? n')%nat] => destruct (Nat.ltb_spec a n'); [lia|auto] end.
  - set (S1 := fold_right _ _ (firstn d bs)). set (S2 := fold_right _ _ (firstn d' bs)). destruct (Nat.ltb_spec (n0 + S1 + r) n0); [lia|]. destruct (Nat.ltb_spec (n0 + S2 + r') n0); [lia|].
    rewrite <- (IH d d' n f g n' f' g' r r' E E' L L'). f_equal; unfold bsize; fold S1; fold S2; lia.
Qed.
Lemma sumn_shift n f : sumn (S n) f = f 0%nat + sumn n (fun i => f (S i)).
Proof. replace (S n) with (1 + n)%nat by lia. rewrite sumn_app. unfold sumn at 1. cbn. ring. Qed.
Lemma sumn_blocks bs : forall f, sumn (bsize bs) f = sumn (length bs) (fun d => sumn (fst (fst (nth d bs (0%nat, fun _ => 0, fun _ _ => 0)))) (fun r => f (bsize (firstn d bs) + r)%nat)).
Proof.
  induction bs as [|[[n0 f0] g0] bs IH]; intros f; [reflexivity|]. cbn [length]. rewrite sumn_shift. cbn [nth fst firstn bsize fold_right Nat.add]. rewrite sumn_app. f_equal.
  fold (bsize bs). rewrite IH. apply sumn_ext. intros d _. apply sumn_ext. intros r _. f_equal. unfold bsize. lia.
Qed.
Lemma mapX_ex {A B} (f : A -> res B) (Q : A -> B -> Prop) l : (forall x, In x l -> exists y, f x = Ok y /\ Q x y) -> exists ys, mapX f l = Ok ys /\ Forall2 Q l ys.
Proof.
  induction l as [|a l IH]; intros H; cbn [mapX]; [eauto|]. destruct (H a (or_introl eq_refl)) as (y & E & Hy). destruct IH as (ys & Es & F); [intros; apply H; right; auto|]. rewrite E, Es. cbn [bind]. eauto.
Qed.

Section AX.
  Variables (P Nrm : list (list R)) (gs : list Z) (h c : list R) (s : R).
  Hypotheses (D : dims gs) (Lh : length h = length gs) (Lc : length c = length gs) (Ph : Forall (fun e => 0 < e) h) (G8 : Forall (fun g => (8 <= g)%Z) gs)
    (Ins : forall p, In p P -> well_inside gs h c p) (SP : 0 < s) (Es : 3 / 2 * lmin h = s).
  Lemma axis_ok kinv phi d : (d < length gs)%nat -> exists b, psr_axis P Nrm gs h c kinv (option_map (@map pt pt) phi) d = Ok b /\ fst (fst b) = Z.to_nat (zprod (fewer d gs)) /\
    (forall idx, on_grid (fewer d gs) idx -> let q := node (half_step d c h) h idx in let prior := match phi with Some f => f | None => fun _ => [] end in
      snd (fst b) (Z.to_nat (ravelF (fewer d gs) idx)) = nth d (prior q) 0 + sumn (length P) (fun i => spline_kernel s (nth i P []) q * (kinv i * (nth d (nth i Nrm []) 0 - nth d (prior (nth i P [])) 0)))) /\
    (length gs = 2%nat -> forall a b', on_grid (fewer d gs) a -> on_grid (fewer d gs) b' -> let qa := node (half_step d c h) h a in let qb := node (half_step d c h) h b' in
      snd b (Z.to_nat (ravelF (fewer d gs) a)) (Z.to_nat (ravelF (fewer d gs) b')) = spline_kernel s qa qb - sumn (length P) (fun i => spline_kernel s (nth i P []) qa * (kinv i * spline_kernel s (nth i P []) qb))).
  Proof.
    intros Hd. unfold psr_axis. rewrite upd_half by lia. rewrite upd_fewer. set (gd := fewer d gs). set (cd := half_step d c h).
    assert (Lgd : length gd = length gs) by apply fewer_length. assert (Lcd : length cd = length gs) by (unfold cd; rewrite half_length; auto).
    assert (G7 : Forall (fun g => (7 <= g)%Z) gd) by (apply fewer_ge; eapply Forall_impl; [|exact G8]; cbn; lia).
    assert (Gp : Forall (fun g => (0 < g)%Z) gd) by (eapply Forall_impl; [|exact G7]; cbn; lia).
    destruct (k2_ok P gd h cd s) as (k2 & E2 & H2); try (rewrite ?Lgd; auto; lia); auto.
    { intros e He. apply (nth_ge 7); auto. lia. }
    { intros p I. apply well_cells; auto. }
    assert (K1 : exists k1, build_k1 gd h (grid_pts (axes gd h cd)) = Ok k1 /\ (length gs = 2%nat -> forall idx idx', on_grid gd idx -> on_grid gd idx' ->
      entry k1 (ravelF gd idx) (ravelF gd idx') = spline_kernel s (node cd h idx) (node cd h idx'))).
    { destruct D as [L2|L3].
      - assert (N2 : nb_ok gd). { destruct gd as [|g0 [|g1 [|]]]; cbn in Lgd; try lia. inversion G7 as [|? ? A G7']; subst. inversion G7' as [|? ? B _]; subst. apply nb2_list; lia. }
        assert (NE : gd <> []) by (intros Q; rewrite Q in Lgd; cbn in Lgd; lia). assert (G5 : Forall (fun g => (5 <= g)%Z) gd) by (eapply Forall_impl; [|exact G7]; cbn; lia).
        destruct (k1_ok gd h cd s N2) as (k1 & E1 & H1); auto; try lia; eauto.
      - destruct gd as [|g0 [|g1 [|g2 [|]]]]; cbn in Lgd; try lia. inversion G7 as [|? ? A G7']; subst. inversion G7' as [|? ? B G7'']; subst. inversion G7'' as [|? ? C _]; subst.
        destruct (k1_runs3 g0 g1 g2 h (grid_pts (axes [g0; g1; g2] h cd)) ltac:(lia) ltac:(lia) ltac:(lia)) as (k1 & E1). exists k1. split; auto. intros; lia. }
    destruct K1 as (k1 & E1 & H1). rewrite E1. cbn [bind]. rewrite E2. cbn [bind]. eexists. split; [reflexivity|]. cbn [fst snd]. split; [reflexivity|].
    assert (H2' : forall i idx, (i < length P)%nat -> on_grid gd idx -> entry k2 (Z.of_nat i) (Z.of_nat (Z.to_nat (ravelF gd idx))) = spline_kernel s (nth i P []) (node cd h idx)).
    { intros i idx Li Gi. pose proof (ravel_bound gd idx Gi). rewrite Z2Nat.id by lia. apply H2; auto. apply nth_error_nth'; auto. }
    split.
    - intros idx Gi. destruct phi as [phi|]; cbn [option_map].
      + assert (LV : nth_error (grid_pts (axes gd h cd)) (Z.to_nat (ravelF gd idx)) = Some (node cd h idx)) by (apply grid_pts_nth; auto; lia).
        apply (map_nth_error phi) in LV. apply nth_error_nth with (d := []) in LV. unfold pt in *. rewrite LV. f_equal. apply sumn_ext. intros i Li. rewrite H2' by auto.
        pose proof (nth_error_nth' P [] Li) as EP. apply (map_nth_error phi) in EP. apply nth_error_nth with (d := []) in EP. rewrite EP. reflexivity.
      + replace (nth d [] 0) with 0 by (destruct d; auto). rewrite Rplus_0_l. apply sumn_ext. intros i Li. rewrite H2' by auto. replace (nth d [] 0) with 0 by (destruct d; auto). rewrite Rminus_0_r. reflexivity.
    - intros L2 a b Ga Gb. pose proof (ravel_bound gd a Ga). pose proof (ravel_bound gd b Gb). f_equal.
      + rewrite !Z2Nat.id by lia. apply H1; auto.
      + apply sumn_ext. intros i Li. rewrite !H2' by auto. reflexivity.
  Qed.
End AX.
