(** C78, continued: samples outside, grids chosen from the cloud, small grids, three dimensions *)
From Coq Require Import Reals Lra Lia ZArith List Bool Psatz Permutation.
From Verif Require Import NumpyModel NumpyProofs PyExn Vec MatModel MatProofs SubdivModel MatFunModel P_MatFun GridMeshModel GridMeshProofs GridNbModel GridNbProofs FdModel FdProofs P_Fd
  KernelModel KernelSpec KernelProofs P_Kernel EigModel SolveModel P_Solve P_ElDyn LoopSubProofs BiharmProofs Biharm2Proofs Subdiv3Proofs CutProofs PsrModel PsrSpec PsrNbProofs PsrProofs Psr2Proofs Psr3Proofs Psr4Proofs Psr5Proofs P_Psr.
Import ListNotations.
Open Scope R_scope.

(** -- samples outside -- *)
Lemma cell_conv gs : forall h c p, Forall (fun e => 0 < e) h -> length h = length gs -> length c = length gs -> length p = length gs -> forall z, cell_of gs h c p = Ok z -> in_cells_of gs h c p.
Proof.
  intros h c p Ph Lh Lc Lp z H. unfold cell_of in H. destruct (forallb _ _) eqn:F in H; [|discriminate]. clear H. rewrite forallb_forall in F.
  revert h c p Ph Lh Lc Lp F. induction gs as [|g gs IH]; intros [|e h] [|a c] [|x p] Ph Lh Lc Lp F; try discriminate; cbn [in_cells_of]; auto. inversion Ph as [|? ? Pe Ph']; subst.
  unfold zipw in F. cbn [combine map fst snd] in F. pose proof (F _ (or_introl eq_refl)) as F0. cbn [fst snd] in F0. unfold inrange in F0. apply andb_prop in F0 as [F1 F2]. apply Z.leb_le in F1. apply Z.ltb_lt in F2.
  pose proof (flo_spec ((x - a) / e)) as [Q1 Q2]. set (k := flo ((x - a) / e)) in *. assert (E0 : (x - a) / e * e = x - a) by (field; lra).
  assert (K0 : 0 <= IZR k) by (apply IZR_le; auto). assert (K1 : IZR k + 1 <= IZR g) by (rewrite <- plus_IZR; apply IZR_le; lia). split.
  - split.
    + assert (0 <= (x - a) / e * e) by (apply Rmult_le_pos; lra). lra.
    + assert ((x - a) / e * e < IZR g * e) by (apply Rmult_lt_compat_r; lra). lra.
  - apply IH; auto. intros gi I. apply F. right. exact I.
Qed.
Lemma in_cells_nth gs : forall h c p d, in_cells_of gs h c p -> (d < length gs)%nat -> nth d c 0 <= nth d p 0 < nth d c 0 + IZR (nth d gs 0%Z) * nth d h 0.
Proof. induction gs as [|g gs IH]; intros [|e h] [|a c] [|x p] [|d] H L; cbn in *; try lia; try tauto. apply IH; [tauto|lia]. Qed.
Lemma nth_fewer gs : forall d, (d < length gs)%nat -> nth d (fewer d gs) 0%Z = (nth d gs 0 - 1)%Z.
Proof. induction gs as [|g gs IH]; intros [|d] L; cbn in *; try lia; auto. apply IH. lia. Qed.
Lemma nth_half d : forall c h, (d < length c)%nat -> length h = length c -> nth d (half_step d c h) 0 = nth d c 0 + nth d h 0 / 2.
Proof. induction d as [|d IH]; intros [|a c] [|e h] L L'; cbn in *; try lia; auto. apply IH; lia. Qed.
Lemma mapX_inv {A B} (f : A -> res B) l ys : mapX f l = Ok ys -> forall x, In x l -> exists y, f x = Ok y.
Proof.
  revert ys. induction l as [|a l IH]; intros ys H x I; [destruct I|]. cbn in H. destruct (f a) as [b|] eqn:E; cbn [bind] in H; [|discriminate]. destruct (mapX f l) as [bs|] eqn:E2; cbn [bind] in H; [|discriminate].
  destruct I as [->|I]; eauto.
Qed.
Lemma mapX_err_inv {A B} (f : A -> res B) l e : mapX f l = Err e -> exists x, In x l /\ f x = Err e.
Proof.
  induction l as [|a l IH]; cbn; [discriminate|]. destruct (f a) as [b|e'] eqn:E; cbn [bind].
  - destruct (mapX f l) as [bs|e''] eqn:E2; cbn [bind]; [discriminate|]. intros Q. injection Q as ->. destruct IH as (x & I & F); auto. eauto.
  - intros Q. injection Q as ->. eauto.
Qed.
Lemma cell_err gs h c p e : cell_of gs h c p = Err e -> e = ValueError.
Proof. unfold cell_of. destruct (forallb _ _); congruence. Qed.
Section OUT.
  Variables (P Nrm : list (list R)) (gs : list Z) (h c : list R).
  Hypotheses (D : dims gs) (Lh : length h = length gs) (Lc : length c = length gs) (Ph : Forall (fun e => 0 < e) h) (G8 : Forall (fun g => (8 <= g)%Z) gs) (LP : forall p, In p P -> length p = length gs).
  Lemma k1_runs d : (d < length gs)%nat -> exists k1, build_k1 (fewer d gs) h (grid_pts (axes (fewer d gs) h (half_step d c h))) = Ok k1.
  Proof.
    intros Hd. set (gd := fewer d gs). set (cd := half_step d c h). assert (Lgd : length gd = length gs) by apply fewer_length. assert (Lcd : length cd = length gs) by (unfold cd; rewrite half_length; auto).
    assert (G7 : Forall (fun g => (7 <= g)%Z) gd) by (apply fewer_ge; eapply Forall_impl; [|exact G8]; cbn; lia).
    assert (NE : h <> []) by (intros Q; rewrite Q in Lh; cbn in Lh; lia). assert (PM : 0 < lmin h) by (pose proof (lmin_in h NE) as I; rewrite Forall_forall in Ph; apply Ph; auto).
    destruct D as [L2|L3].
    - assert (N2 : nb_ok gd). { destruct gd as [|g0 [|g1 [|]]]; cbn in Lgd; try lia. inversion G7 as [|? ? A G7']; subst. inversion G7' as [|? ? B _]; subst. apply nb2_list; lia. }
      assert (NE' : gd <> []) by (intros Q; rewrite Q in Lgd; cbn in Lgd; lia). assert (G5 : Forall (fun g => (5 <= g)%Z) gd) by (eapply Forall_impl; [|exact G7]; cbn; lia).
      destruct (k1_ok gd h cd (3 / 2 * lmin h) N2) as (k1 & E1 & H1); auto; try lia; try lra; eauto.
    - destruct gd as [|g0 [|g1 [|g2 [|]]]]; cbn in Lgd; try lia. inversion G7 as [|? ? A G7']; subst. inversion G7' as [|? ? B G7'']; subst. inversion G7'' as [|? ? C _]; subst.
      apply (k1_runs3 g0 g1 g2 h (grid_pts (axes [g0; g1; g2] h cd)) ltac:(lia) ltac:(lia) ltac:(lia)).
  Qed.
  Lemma axis_cases kinv prior d : (d < length gs)%nat -> (exists b, psr_axis P Nrm gs h c kinv prior d = Ok b /\ forall p, In p P -> in_cells_of (fewer d gs) h (half_step d c h) p) \/ psr_axis P Nrm gs h c kinv prior d = Err ValueError.
  Proof.
    intros Hd. unfold psr_axis. rewrite upd_half by lia. rewrite upd_fewer. destruct (k1_runs d Hd) as (k1 & E1). rewrite E1. cbn [bind].
    set (gd := fewer d gs) in *. set (cd := half_step d c h) in *. assert (Lgd : length gd = length gs) by apply fewer_length. assert (Lcd : length cd = length gs) by (unfold cd; rewrite half_length; auto).
    assert (G7 : Forall (fun g => (7 <= g)%Z) gd) by (apply fewer_ge; eapply Forall_impl; [|exact G8]; cbn; lia).
    assert (NE : h <> []) by (intros Q; rewrite Q in Lh; cbn in Lh; lia). assert (PM : 0 < lmin h) by (pose proof (lmin_in h NE) as I; rewrite Forall_forall in Ph; apply Ph; auto).
    destruct (mapX (cell_of gd h cd) P) as [cells|e] eqn:EC.
    - assert (IC : forall p, In p P -> in_cells_of gd h cd p). { intros p I. destruct (mapX_inv _ _ _ EC p I) as (z & Ez). apply (cell_conv gd h cd p) with (z := z); auto; try lia. rewrite (LP p I); auto. }
      left. destruct (k2_ok P gd h cd (3 / 2 * lmin h)) as (k2 & E2 & _); try (rewrite ?Lgd; auto; lia); auto; try lra.
      + intros e He. apply (nth_ge 7); auto. lia.
      + eapply Forall_impl; [|exact G7]; cbn; lia.
      + rewrite E2. cbn [bind]. eauto.
    - right. unfold build_k2. unfold pt in *. rewrite EC. cbn [bind]. apply mapX_err_inv in EC as (p & _ & E). apply cell_err in E. subst. reflexivity.
  Qed.
End OUT.
Theorem C78_outside : forall blur bicg splu argsort P Nrm gs h corner variance sn sigma sub prior p d, (length gs = 2%nat \/ length gs = 3%nat) -> length h = length gs -> length corner = length gs ->
  Forall (fun e => 0 < e) h -> Forall (fun g => (8 <= g)%Z) gs -> (forall p, In p P -> length p = length gs) -> In p P -> (d < length gs)%nat ->
  nth d p 0 < nth d corner 0 + nth d h 0 / 2 \/ nth d corner 0 + (IZR (nth d gs 0%Z) - 1 / 2) * nth d h 0 <= nth d p 0 ->
  stochastic_psr blur bicg splu argsort (length gs) (length gs) P Nrm (Some gs) (Some h) (Some corner) variance sn sigma sub prior = Err ValueError.
Proof.
  intros blur bicg splu argsort P Nrm gs h corner variance sn sigma sub prior p d D Lh Lc Ph G8 LP Ip Hd HO.
  assert (Gp : Forall (fun g => (0 < g)%Z) gs) by (eapply Forall_impl; [|exact G8]; cbn; lia).
  destruct (density_ok blur P gs h corner D Lh Lc Ph Gp) as (dens & Ed & _).
  unfold stochastic_psr. rewrite Nat.eqb_refl. cbn [negb]. unfold psr_args. cbn [fst snd bind]. rewrite Nat.eqb_refl. cbn [bind]. unfold pt in *. rewrite Ed. cbn [bind].
  rewrite (mapX_err _ _ d ValueError); [reflexivity|apply in_seq; lia| |].
  - destruct (axis_cases P Nrm gs h corner D Lh Lc Ph G8 LP (fun i => 1 / (dens i + sn * sn)) prior d Hd) as [(b & _ & IC)|E]; [|exact E]. exfalso.
    specialize (IC p Ip). apply (in_cells_nth _ _ _ _ d) in IC; [|rewrite fewer_length; auto]. rewrite nth_fewer, nth_half, minus_IZR in IC by lia. destruct HO; lra.
  - intros d' e' Id E. apply in_seq in Id. destruct (axis_cases P Nrm gs h corner D Lh Lc Ph G8 LP (fun i => 1 / (dens i + sn * sn)) prior d' ltac:(lia)) as [(b & E' & _)|E']; unfold pt in *; rewrite E' in E; congruence.
Qed.
Print Assumptions C78_outside.
(** the automatic grid is scaled about the origin, not about the cloud: a cloud on one side of a coordinate hyperplane is always rejected *)
Theorem C78_one_sided_refuted : forall blur bicg splu argsort P Nrm gs variance sn sigma sub prior d, P <> [] -> (length gs = 2%nat \/ length gs = 3%nat) -> Forall (fun g => (8 <= g)%Z) gs ->
  (forall p, In p P -> length p = length gs) -> (forall d', (d' < length gs)%nat -> exists p q, In p P /\ In q P /\ nth d' p 0 < nth d' q 0) -> (d < length gs)%nat ->
  (forall p, In p P -> 0 < nth d p 0) \/ (forall p, In p P -> nth d p 0 < 0) ->
  stochastic_psr blur bicg splu argsort (length gs) (length gs) P Nrm (Some gs) None None variance sn sigma sub prior = Err ValueError
  /\ (gs = repeat 100%Z (length gs) -> stochastic_psr blur bicg splu argsort (length gs) (length gs) P Nrm None None None variance sn sigma sub prior = Err ValueError).
Proof.
  intros blur bicg splu argsort P Nrm gs variance sn sigma sub prior d NE D G8 LP ND Hd HS.
  destruct (C78_grid_from_cloud blur bicg splu argsort (length gs) P Nrm gs None None variance sn sigma sub prior NE eq_refl (or_introl eq_refl)) as (h & corner & (Lh & Lc & HG) & E1 & E2).
  assert (E : stochastic_psr blur bicg splu argsort (length gs) (length gs) P Nrm (Some gs) (Some h) (Some corner) variance sn sigma sub prior = Err ValueError).
  { assert (GP : forall d', (d' < length gs)%nat -> 0 < IZR (nth d' gs 0%Z)) by (intros d' Hd'; apply IZR_lt; pose proof (nth_ge 8 gs d' G8 Hd'); lia).
    assert (Ph : Forall (fun e => 0 < e) h).
    { apply Forall_forall. intros e I. destruct (In_nth _ _ 0 I) as (d' & Ld & <-). destruct (HG d' ltac:(lia)) as (lo & hi & [_ L1] & [_ L2] & _ & ->). destruct (ND d' ltac:(lia)) as (p & q & Ip & Iq & B).
      pose proof (L1 _ (in_map (fun p => nth d' p 0) _ _ Ip)) as Q1. pose proof (L2 _ (in_map (fun p => - nth d' p 0) _ _ Iq)) as Q2. cbn in Q1, Q2. apply Rdiv_lt_0_compat; [lra|]. apply GP. lia. }
    destruct (HG d Hd) as (lo & hi & [I1 L1] & [I2 L2] & Ec & Eh). pose proof (GP d Hd) as Pg. assert (Phd : 0 < nth d h 0) by (rewrite Forall_forall in Ph; apply Ph, nth_In; lia).
    apply in_map_iff in I1 as (p & Ep & Ip). apply in_map_iff in I2 as (q & Eq & Iq).
    destruct HS as [HS|HS].
    - apply (C78_outside blur bicg splu argsort P Nrm gs h corner variance sn sigma sub prior p d); auto. left. rewrite Ec. pose proof (HS p Ip). lra.
    - apply (C78_outside blur bicg splu argsort P Nrm gs h corner variance sn sigma sub prior q d); auto. right. rewrite Ec. pose proof (HS q Iq).
      assert (EH : IZR (nth d gs 0%Z) * nth d h 0 = 3 / 2 * (hi - lo)) by (rewrite Eh; field; lra). rewrite Rmult_minus_distr_r, EH. lra. }
  split; [rewrite E1; exact E|]. intros Eg. rewrite E2 by auto. exact E.
Qed.
Print Assumptions C78_one_sided_refuted.
(** with enough nodes and the origin inside the bounding box, the automatic grid is a valid setting *)
Lemma setting_intro gs : forall h c p, length h = length gs -> length c = length gs -> length p = length gs ->
  (forall d, (d < length gs)%nat -> nth d c 0 + nth d h 0 / 2 <= nth d p 0 <= nth d c 0 + IZR (nth d gs 0%Z - 1) * nth d h 0) -> well_inside gs h c p.
Proof.
  induction gs as [|g gs IH]; intros [|e h] [|a c] [|x p] L1 L2 L3 H; try discriminate; cbn [well_inside]; auto. split; [apply (H 0%nat); cbn; lia|]. apply IH; auto. intros d L. apply (H (S d)). cbn. lia.
Qed.
Theorem C78_grid_from_cloud_valid : forall P gs h corner, P <> [] -> (length gs = 2%nat \/ length gs = 3%nat) -> Forall (fun g => (8 <= g)%Z) gs -> (forall p, In p P -> length p = length gs) -> grid_of_cloud (length gs) P gs h corner ->
  (forall d lo hi, (d < length gs)%nat -> is_least lo (map (fun p => nth d p 0) P) -> is_least (- hi) (map (fun p => - nth d p 0) P) ->
    lo < 0 < hi /\ 3 / 2 * (hi - lo) <= IZR (nth d gs 0%Z) * - lo /\ 3 * (hi - lo) <= IZR (nth d gs 0%Z) * hi) -> exists s, setting gs h corner P s.
Proof.
  intros P gs h corner NE D G8 LP (Lh & Lc & HG) HC. exists (3 / 2 * lmin h).
  assert (GP : forall d', (d' < length gs)%nat -> 0 < IZR (nth d' gs 0%Z)) by (intros d' Hd'; apply IZR_lt; pose proof (nth_ge 8 gs d' G8 Hd'); lia).
  assert (Ph : Forall (fun e => 0 < e) h).
  { apply Forall_forall. intros e I. destruct (In_nth _ _ 0 I) as (d & Ld & <-). destruct (HG d ltac:(lia)) as (lo & hi & L1 & L2 & _ & ->). destruct (HC d lo hi ltac:(lia) L1 L2) as (B & _). apply Rdiv_lt_0_compat; [lra|]. apply GP. lia. }
  assert (NH : h <> []) by (intros Q; rewrite Q in Lh; cbn in Lh; destruct D; lia).
  repeat (split; [assumption|]). split.
  - intros p Ip. apply setting_intro; auto. intros d Hd. destruct (HG d Hd) as (lo & hi & L1 & L2 & Ec & Eh). destruct (HC d lo hi Hd L1 L2) as (B & B1 & B2). pose proof (GP d Hd) as Pg.
    destruct L1 as [_ L1]. destruct L2 as [_ L2]. pose proof (L1 _ (in_map (fun p => nth d p 0) _ _ Ip)) as Q1. pose proof (L2 _ (in_map (fun p => - nth d p 0) _ _ Ip)) as Q2. cbn in Q1, Q2.
    set (g := IZR (nth d gs 0%Z)) in *. rewrite minus_IZR. fold g. rewrite Ec. set (e := nth d h 0) in *. assert (EH : g * e = 3 / 2 * (hi - lo)) by (rewrite Eh; field; lra). clear Eh.
    assert (e <= - lo) by (apply (Rmult_le_reg_l g); lra). assert (2 * e <= hi) by (apply (Rmult_le_reg_l g); lra). rewrite Rmult_minus_distr_r, EH. lra.
  - exists (lmin h). split; auto. split; [apply lmin_in; auto|intros; apply lmin_le; auto].
Qed.
Print Assumptions C78_grid_from_cloud_valid.
