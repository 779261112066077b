(** C78, continued: where the construction fails (grids with fewer than eight nodes, three dimensions), and a concrete setting *)
From Coq Require Import Reals Lra Lia ZArith List Bool Psatz Permutation.
From Verif Require Import NumpyModel NumpyProofs PyExn Vec MatModel MatProofs SubdivModel MatFunModel P_MatFun GridMeshModel GridMeshProofs GridNbModel GridNbProofs FdModel FdProofs P_Fd
  KernelModel KernelSpec KernelProofs P_Kernel EigModel SolveModel P_Solve P_ElDyn LoopSubProofs BiharmProofs Biharm2Proofs Subdiv3Proofs CutProofs PsrModel PsrSpec PsrNbProofs PsrProofs Psr2Proofs Psr3Proofs Psr4Proofs Psr5Proofs P_Psr P_Psr2.
Import ListNotations.
Open Scope R_scope.

(** -- three dimensions: the prior covariance loses pairs next to the faces -- *)
Lemma bs3_pos x : Rabs x < 2 -> 0 < bspline 3 x.
Proof.
  intros H. rewrite <- k3_val. unfold ind, ltb, leb. pose proof (Rabs_pos x) as H0. set (a := Rabs x) in *. clearbody a.
  destruct (Rle_dec a 2); [|lra]. destruct (Rlt_dec a 1); destruct (Rle_dec 1 a); try lra.
  - assert (0 <= (1 - a) * (1 + a - a * a)) by (apply Rmult_le_pos; nra). nra.
  - assert (0 < (2 - a) * (2 - a) * (2 - a)) by (repeat apply Rmult_lt_0_compat; lra). nra.
Qed.
Lemma kernel_pos s : forall p q, 0 < s -> Forall2 (fun a b => Rabs (a - b) < 2 * s) p q -> 0 < spline_kernel s p q.
Proof.
  intros p q S. induction 1 as [|a b p q H F IH]; cbn [spline_kernel]; [lra|]. apply Rmult_lt_0_compat; auto. apply Rdiv_lt_0_compat; auto. apply bs3_pos.
  unfold Rdiv. rewrite Rabs_mult, (Rabs_right (/ s)) by (left; apply Rinv_0_lt_compat; auto). apply (Rmult_lt_reg_r s); auto. rewrite Rmult_assoc, Rinv_l by lra. lra.
Qed.
(** rows that never lead from position i to position j leave entry (i, j) empty *)
Lemma k1_lost gs h verts k1 i j : build_k1 gs h verts = Ok k1 -> (0 <= i < zprod gs)%Z -> (forall r, In r (nb_rows gs) -> r i <> j) -> entry k1 i j = 0.
Proof.
  intros E Hi H. unfold build_k1 in E. destruct (find _ _) as [v|]; cbn [bind] in E; [|discriminate]. apply csr_inv in E as [-> _]. unfold entry. rewrite sumf_flat_map. apply sumf_zero.
  intros [r w] I. apply in_combine_l in I. cbn [fst snd]. rewrite inner_row by auto. specialize (H r I). destruct (r i <? 0)%Z; auto. destruct (Z.eqb_spec (r i) j); congruence.
Qed.
Lemma axis_parts P Nrm gs h c kinv prior d b : length h = length c -> psr_axis P Nrm gs h c kinv prior d = Ok b -> exists k1 k2,
  build_k1 (fewer d gs) h (grid_pts (axes (fewer d gs) h (half_step d c h))) = Ok k1 /\ build_k2 P (fewer d gs) h (half_step d c h) (grid_pts (axes (fewer d gs) h (half_step d c h))) = Ok k2
  /\ (forall a a', snd b a a' = entry k1 (Z.of_nat a) (Z.of_nat a') - sumn (length P) (fun i => entry k2 (Z.of_nat i) (Z.of_nat a) * (kinv i * entry k2 (Z.of_nat i) (Z.of_nat a'))))
  /\ (prior = None -> forall a, snd (fst b) a = sumn (length P) (fun i => entry k2 (Z.of_nat i) (Z.of_nat a) * (kinv i * nth d (nth i Nrm []) 0))).
Proof.
  intros L E. unfold psr_axis in E. rewrite upd_half in E by auto. rewrite upd_fewer in E. set (verts := grid_pts _) in *. 
  destruct (build_k1 (fewer d gs) h verts) as [k1|] eqn:E1; cbn [bind] in E; [|discriminate]. destruct (build_k2 P (fewer d gs) h (half_step d c h) verts) as [k2|] eqn:E2; cbn [bind] in E; [|discriminate].
  exists k1, k2. split; auto. split; auto. apply Ok_inj in E. rewrite <- E. split; [reflexivity|]. intros ->. reflexivity.
Qed.
(** the staggered nodes (0,2,2) and (0,0,0) of a uniform 8 x 8 x 8 grid are close enough to be correlated, but the covariance used omits their kernel value *)
Theorem C78_covariance_3d_refuted : forall P Nrm e c kinv phi b, 0 < e -> length c = 3%nat -> setting [8; 8; 8]%Z [e; e; e] c P (3 / 2 * e) ->
  psr_axis P Nrm [8; 8; 8]%Z [e; e; e] c kinv (option_map (@map (list R) (list R)) phi) 0 = Ok b ->
  let q := node (half_step 0 c [e; e; e]) [e; e; e] [0; 2; 2]%Z in let q' := node (half_step 0 c [e; e; e]) [e; e; e] [0; 0; 0]%Z in
  0 < spline_kernel (3 / 2 * e) q q'
  /\ snd b (Z.to_nat (pos [7; 8; 8]%Z [0; 2; 2]%Z)) (Z.to_nat (pos [7; 8; 8]%Z [0; 0; 0]%Z))
     = - sumn (length P) (fun i => spline_kernel (3 / 2 * e) (nth i P []) q * (kinv i * spline_kernel (3 / 2 * e) (nth i P []) q')).
Proof.
  intros P Nrm e c kinv phi b Pe Lc ST E q q'. split.
  { clear E ST. destruct c as [|c0 [|c1 [|c2 [|]]]]; try discriminate Lc. unfold q, q'. cbn [half_step node]. apply kernel_pos; [lra|]. repeat constructor; match goal with |- Rabs ?x < _ => apply Rabs_def1 end; lra. }
  destruct (setting_facts _ _ _ _ _ ST) as (D & Lh & Lc' & Ph & G8 & NE & Ins & SP & Es & Gp). 
  assert (Ic : forall p, In p P -> in_cells_of (fewer 0 [8; 8; 8]%Z) [e; e; e] (half_step 0 c [e; e; e]) p) by (intros; apply well_cells; auto).
  destruct (axis_parts P Nrm [8; 8; 8]%Z [e; e; e] c kinv (option_map (map (B:=list R)) phi) 0 b (eq_trans Lh (eq_sym Lc')) E) as (k1 & k2' & E1 & E2' & HC & _). clear E.
  rewrite HC. clear HC.
  assert (K0 : entry k1 126 0 = 0). { apply (k1_lost _ _ _ _ 126 0 E1); [cbn; lia|]. intros r I. apply nb3_lost. exact I. }
  destruct (k2_ok P (fewer 0 [8; 8; 8]%Z) [e; e; e] (half_step 0 c [e; e; e]) (3 / 2 * e)) as (k2 & E2 & H2); auto; try (cbn; lia); try (rewrite half_length; auto).
  { intros d Hd. cbn in Hd. destruct d as [|[|[|d]]]; cbn; lia. }
  { cbn. repeat constructor. }
  rewrite E2 in E2'. apply Ok_inj in E2'. subst k2'. clear E1 E2.
  assert (G1 : on_grid (fewer 0 [8; 8; 8]%Z) [0; 2; 2]%Z) by (cbn; repeat constructor; lia). assert (G2 : on_grid (fewer 0 [8; 8; 8]%Z) [0; 0; 0]%Z) by (cbn; repeat constructor; lia).
  replace (Z.of_nat (Z.to_nat (pos [7; 8; 8]%Z [0; 2; 2]%Z))) with 126%Z by reflexivity. replace (Z.of_nat (Z.to_nat (pos [7; 8; 8]%Z [0; 0; 0]%Z))) with 0%Z by reflexivity.
  rewrite K0. rewrite Rminus_0_l. f_equal. apply sumn_ext. intros i Hi. pose proof (nth_error_nth' P [] Hi) as Ep.
  pose proof (H2 i _ [0; 2; 2]%Z Ep G1) as Q1. pose proof (H2 i _ [0; 0; 0]%Z Ep G2) as Q2. replace (ravelF (fewer 0 [8; 8; 8]%Z) [0; 2; 2]%Z) with 126%Z in Q1 by reflexivity. replace (ravelF (fewer 0 [8; 8; 8]%Z) [0; 0; 0]%Z) with 0%Z in Q2 by reflexivity.
  rewrite Q1, Q2. reflexivity.
Qed.
Print Assumptions C78_covariance_3d_refuted.

(** -- fewer than eight nodes along the first axis: kernel values are counted twice -- *)
Definition zz_eqb (a b : Z * Z) : bool := ((fst a =? fst b) && (snd a =? snd b))%Z.
Lemma pattern_entry {T} (g : T -> T -> R) f X1 X2 IJ : rowwise g f ->
  (forall p, In p IJ -> (0 <= fst p < Z.of_nat (length X1) /\ 0 <= snd p < Z.of_nat (length X2))%Z) ->
  exists M, matrix_from_function_pattern f X1 X2 (map fst IJ) (map snd IJ) = Ok M /\
  (forall i j x y, nth_error X1 i = Some x -> nth_error X2 j = Some y -> entry M (Z.of_nat i) (Z.of_nat j) = INR (length (filter (zz_eqb (Z.of_nat i, Z.of_nat j)) IJ)) * g x y).
Proof.
  intros W H. unfold matrix_from_function_pattern. destruct IJ as [|p0 IJ'].
  { cbn [map mapO lift bind]. rewrite (W _ _ eq_refl). exists []. split; [reflexivity|]. intros. cbn. ring. }
  set (IJ := p0 :: IJ') in *.
  assert (D : exists d : T, True). { destruct X1 as [|d ?]; eauto. destruct (H p0 (or_introl eq_refl)). cbn in *; lia. }
  destruct D as [d _].
  rewrite (mapO_getZ X1 _ d) by (intros i I; apply in_map_iff in I as (p & <- & I); apply H; auto).
  rewrite (mapO_getZ X2 _ d) by (intros i I; apply in_map_iff in I as (p & <- & I); apply H; auto).
  cbn [lift bind]. rewrite !map_map. rewrite W by now rewrite !map_length. rewrite combine_map2, map_map. unfold csc. rewrite !map_length, !Nat.eqb_refl. cbn [andb].
  rewrite !combine_map2. rewrite csr_ok.
  2:{ intros t T0. apply in_map_iff in T0 as (p & <- & T0). unfold trow, tcol; cbn [fst snd]. apply H; auto. }
  cbn [bind fst snd]. eexists; split; [reflexivity|]. intros i j x y Xi Xj. unfold entry, eliminate_zeros. rewrite sumf_map.
  rewrite filter_length_sum. rewrite Rmult_comm, <- sumf_scal. apply sumf_ext. intros [a b] _. unfold trow, tcol, tval, zz_eqb. cbn [fst snd].
  rewrite (Z.eqb_sym a), (Z.eqb_sym b). destruct (Z.eqb_spec (Z.of_nat i) a) as [<-|]; cbn [andb]; [|ring]. destruct (Z.eqb_spec (Z.of_nat j) b) as [<-|]; [|ring].
  rewrite !Nat2Z.id, (nth_error_nth _ _ d Xi), (nth_error_nth _ _ d Xj). ring.
Qed.
Lemma k1_runs2 g0 g1 h c s : (5 <= g0)%Z -> (5 <= g1)%Z -> length h = 2%nat -> length c = 2%nat -> 0 < s -> 3 / 2 * lmin h = s -> exists k1, build_k1 [g0; g1] h (grid_pts (axes [g0; g1] h c)) = Ok k1.
Proof.
  intros H0 H1 Lh Lc SP Es. assert (G5 : Forall (fun g => (5 <= g)%Z) [g0; g1]) by (repeat constructor; auto).
  destruct (k1_ok [g0; g1] h c s (nb2_list g0 g1 H0 H1) G5 Lh Lc SP Es) as (k1 & E & _). exists k1. exact E.
Qed.
Lemma axis_runs P Nrm gs h c kinv prior d k1 k2 : length h = length c -> build_k1 (fewer d gs) h (grid_pts (axes (fewer d gs) h (half_step d c h))) = Ok k1 ->
  build_k2 P (fewer d gs) h (half_step d c h) (grid_pts (axes (fewer d gs) h (half_step d c h))) = Ok k2 -> exists b, psr_axis P Nrm gs h c kinv prior d = Ok b.
Proof. intros L E1 E2. unfold psr_axis. rewrite upd_half by auto. rewrite upd_fewer. rewrite E1. cbn [bind]. unfold pt in *. rewrite E2. cbn [bind]. eexists. reflexivity. Qed.
Lemma Int_part_is x k : IZR k <= x < IZR k + 1 -> Int_part x = k.
Proof. intros H. pose proof (flo_spec x) as Q. unfold flo in Q. assert (A : IZR (Int_part x) < IZR (k + 1)) by (rewrite plus_IZR; lra). assert (B : IZR k < IZR (Int_part x + 1)) by (rewrite plus_IZR; lra). apply lt_IZR in A, B. lia. Qed.
Theorem C78_small_grid_refuted : forall nrm kinv, exists b, psr_axis [[3; 7 / 2]] [nrm] [7; 8]%Z [1; 1] [0; 0] kinv None 0 = Ok b
  /\ 0 < spline_kernel (3 / 2) [3; 7 / 2] (node [1 / 2; 0] [1; 1] [5; 3]%Z)
  /\ snd (fst b) (Z.to_nat (pos [6; 8]%Z [5; 3]%Z)) = 2 * (spline_kernel (3 / 2) [3; 7 / 2] (node [1 / 2; 0] [1; 1] [5; 3]%Z) * (kinv 0%nat * nth 0 nrm 0)).
Proof.
  intros nrm kinv.
  assert (LM : 3 / 2 * lmin [1; 1] = 3 / 2) by (cbn; rewrite Rmin_left by lra; lra).
  destruct (k1_runs2 6 8 [1; 1] (half_step 0 [0; 0] [1; 1]) (3 / 2) ltac:(lia) ltac:(lia) eq_refl eq_refl ltac:(lra) LM) as (k1 & E1).
  assert (EF : cell_of (fewer 0 [7; 8]%Z) [1; 1] (half_step 0 [0; 0] [1; 1]) [3; 7 / 2] = Ok 20%Z).
  { unfold cell_of, zipw. cbn [half_step combine map fst snd fewer Z.sub]. replace (flo ((3 - (0 + 1 / 2)) / 1)) with 2%Z. 2:{ unfold flo. symmetry. apply Int_part_is. lra. }
    replace (flo ((7 / 2 - 0) / 1)) with 3%Z. 2:{ unfold flo. symmetry. apply Int_part_is. lra. } reflexivity. }
  set (verts := grid_pts (axes (fewer 0 [7; 8]%Z) [1; 1] (half_step 0 [0; 0] [1; 1]))) in *.
  assert (LV : length verts = 48%nat) by (unfold verts; rewrite grid_pts_length; auto; cbn; repeat constructor; lia).
  assert (E2 : exists k2, build_k2 [[3; 7 / 2]] (fewer 0 [7; 8]%Z) [1; 1] (half_step 0 [0; 0] [1; 1]) verts = Ok k2 /\ entry k2 (Z.of_nat 0) (Z.of_nat 23) = 2 * kern_row [1; 1] [3; 7 / 2] (node (half_step 0 [0; 0] [1; 1]) [1; 1] [5; 3]%Z)).
  { unfold build_k2. cbn [mapX]. rewrite EF. cbn [bind]. set (IJ := filter _ _).
    destruct (pattern_entry (kern_row [1; 1]) (fun A B => zipw (kern_row [1; 1]) A B) [[3; 7 / 2]] verts IJ) as (k2 & E & V).
    - intros A B _. reflexivity.
    - intros [i j] I. unfold IJ in I. apply filter_In in I as [I B]. cbn [snd] in B. apply andb_prop in B as [B1 B2]. apply Z.leb_le in B1. apply Z.ltb_lt in B2. cbn [fst snd length]. rewrite LV. change (zprod (fewer 0 [7; 8]%Z)) with 48%Z in B2.
      split; [|lia]. apply in_flat_map in I as ([a r] & Ia & I). apply in_map_iff in I as (o & Eo & _). cbn [fst snd] in Eo. injection Eo as <- _. cbn in Ia. destruct Ia as [Q|[]]. injection Q as <- _. lia.
    - exists k2. split; [exact E|]. rewrite (V 0%nat 23%nat [3; 7 / 2] (node (half_step 0 [0; 0] [1; 1]) [1; 1] [5; 3]%Z)); [|reflexivity|].
      + replace (length (filter (zz_eqb (Z.of_nat 0, Z.of_nat 23)) IJ)) with 2%nat by (unfold IJ; vm_compute; reflexivity). replace (INR 2) with 2 by (cbn; lra). reflexivity.
      + change 23%nat with (Z.to_nat (ravelF (fewer 0 [7; 8]%Z) [5; 3]%Z)). apply grid_pts_nth; auto. cbn. repeat constructor; lia. }
  destruct E2 as (k2 & E2 & V).
  pose proof (axis_runs [[3; 7 / 2]] [nrm] [7; 8]%Z [1; 1] [0; 0] kinv None 0 k1 k2 eq_refl E1 E2) as EA.
  destruct EA as (b & EA). exists b. split; [exact EA|].
  destruct (axis_parts [[3; 7 / 2]] [nrm] [7; 8]%Z [1; 1] [0; 0] kinv None 0 b eq_refl EA) as (k1' & k2' & _ & E2' & _ & HM). fold verts in E2'. unfold pt in *. rewrite E2 in E2'. apply Ok_inj in E2'. subst k2'.
  assert (KR : kern_row [1; 1] [3; 7 / 2] (node (half_step 0 [0; 0] [1; 1]) [1; 1] [5; 3]%Z) = spline_kernel (3 / 2) [3; 7 / 2] (node [1 / 2; 0] [1; 1] [5; 3]%Z)).
  { rewrite (kern_spec _ (3 / 2)); auto; try lra. f_equal. cbn [half_step node]. f_equal. lra. }
  split.
  - cbn [node]. apply kernel_pos; [lra|]. repeat constructor; apply Rabs_def1; lra.
  - rewrite HM by auto. replace (Z.to_nat (pos [6; 8]%Z [5; 3]%Z)) with 23%nat by reflexivity. cbn [length]. unfold sumn. cbn [seq sumf nth]. rewrite V, KR. cbn [nth]. ring.
Qed.
Print Assumptions C78_small_grid_refuted.
(** grid_neighbors, 3D, diagonals, order 2: with output_unique a cell two steps away along two axes is no longer listed next to a face *)
Theorem C22_unique_order2_refuted : (exists r, In r (grid_neighbors3 7 8 8 2 true true false) /\ r (0 + 7 * (2 + 8 * 2))%Z = (0 + 7 * (0 + 8 * 0))%Z)
  /\ ~ exists r, In r (grid_neighbors3 7 8 8 2 true true true) /\ r (0 + 7 * (2 + 8 * 2))%Z = (0 + 7 * (0 + 8 * 0))%Z.
Proof.
  split; [|intros (r & I & E); exact (nb3_lost r I E)].
  apply (proj2 (C22_walks_3d 7 8 8 2 true true ltac:(lia) ltac:(lia) ltac:(lia) 0 2 2 0 0 0 ltac:(unfold inside3; lia) ltac:(unfold inside3; lia))).
  exists 2%nat. split; [change (2 ^ Z.to_nat (2 - 1))%nat with 2%nat; lia|]. exists (0, 1, 1)%Z. split; [|exists (0, 0, 0)%Z; split; [|reflexivity]].
  all: unfold inside3, near3; cbn; repeat split; try lia.
Qed.
Print Assumptions C22_unique_order2_refuted.

(** -- a concrete setting: one sample in the middle of a 8 x 8 grid, no blur, exact solvers -- *)
Definition demo_bicg (n : nat) (A : matrix) (b : nat -> R) : (nat -> R) * Z :=
  match elimination n A with
  | Ok f => (f b, if Rle_dec (norm_n n (fun i => sumn n (fun j => A i j * f b j) - b i)) (Rmax (1 / 10 ^ 5 * norm_n n b) (1 / 10 ^ 10)) then 0%Z else 1%Z)
  | Err _ => (fun _ => 0, 1%Z)
  end.
Lemma demo_bicg_ok : bicg_ok demo_bicg /\ forall n A b, (forall i j, (i < n)%nat -> (j < n)%nat -> A i j = A j i) -> pos_def n A -> snd (demo_bicg n A b) = 0%Z.
Proof.
  destruct elimination_ok as [SO SP]. split.
  - intros n A b x. unfold demo_bicg. destruct (elimination n A) as [f|] eqn:E; [|discriminate]. destruct (Rle_dec _ _) as [L|]; [|discriminate]. intros Q. injection Q as <-. exact L.
  - intros n A b Sy Pd. unfold demo_bicg. destruct (SP n A Sy Pd) as (f & E). rewrite E. cbn [snd]. destruct (Rle_dec _ _) as [L|L]; auto. exfalso. apply L.
    unfold norm_n at 1. rewrite (sumn_ext n _ (fun _ => 0)). 2:{ intros i Hi. rewrite (SO n A f E b i Hi). ring. }
    rewrite sumn_const', Rmult_0_r, sqrt_0. apply Rle_trans with (1 / 10 ^ 10); [lra|apply Rmax_r].
Qed.
Example C78_nonvacuous : setting [8; 8]%Z [1; 1] [0; 0] [[3; 7 / 2]] (3 / 2) /\ blurs (fun _ img => img) /\ exists out,
  stochastic_psr (fun _ img => img) demo_bicg elimination (fun l => seq 0 (length l)) 2 2 [[3; 7 / 2]] [[1; 0]] (Some [8; 8]%Z) (Some [1; 1]) (Some [0; 0]) true 0 (1 / 20) 0 None = Ok out.
Proof.
  assert (ST : setting [8; 8]%Z [1; 1] [0; 0] [[3; 7 / 2]] (3 / 2)).
  { split; [left; reflexivity|]. split; [reflexivity|]. split; [reflexivity|]. split; [repeat constructor; lra|]. split; [repeat constructor; lia|]. split; [discriminate|]. split.
    - intros p [<-|[]]. cbn [well_inside]. rewrite !minus_IZR. repeat split; lra.
    - exists 1. split; [|lra]. split; [left; reflexivity|]. intros x [<-|[<-|[]]]; lra. }
  split; [exact ST|]. split; [intros gs; exists 1; split; [lra|]; intros; lra|].
  destruct (C78_succeeds (fun _ img => img) demo_bicg elimination (fun l => seq 0 (length l)) [[3; 7 / 2]] [[1; 0]] [8; 8]%Z [1; 1] [0; 0] (3 / 2) 0 (1 / 20) true 0 None ST (proj2 demo_bicg_ok) (fun _ _ => elimination_ok)) as (out & E & _).
  exists out. exact E.
Qed.
