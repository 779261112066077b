(** C100: point_cloud_to_mesh. *)
From Coq Require Import Reals Lra Lia ZArith List Bool String.
From Verif Require Import PsrMeshModel.
Import ListNotations.
Open Scope R_scope.

Lemma fold_min_le r : forall a, fold_left Rmin r a <= a /\ (forall x, In x r -> fold_left Rmin r a <= x).
Proof.
  induction r as [|b r IH]; intros a; cbn [fold_left]; [split; [lra|intros x []]|]. destruct (IH (Rmin a b)) as (A & B). pose proof (Rmin_l a b). pose proof (Rmin_r a b). split; [lra|]. intros x [<-|I]; [lra|auto].
Qed.
Lemma fold_max_ge r : forall a, a <= fold_left Rmax r a /\ (forall x, In x r -> x <= fold_left Rmax r a).
Proof.
  induction r as [|b r IH]; intros a; cbn [fold_left]; [split; [lra|intros x []]|]. destruct (IH (Rmax a b)) as (A & B). pose proof (Rmax_l a b). pose proof (Rmax_r a b). split; [lra|]. intros x [<-|I]; [lra|auto].
Qed.
Lemma least_le l x : In x l -> least l <= x.
Proof. destruct l as [|a l]; intros I; [destruct I|]. cbn. destruct (fold_min_le l a) as (A & B). destruct I as [<-|I]; auto. Qed.
Lemma most_ge l x : In x l -> x <= most l.
Proof. destruct l as [|a l]; intros I; [destruct I|]. cbn. destruct (fold_max_ge l a) as (A & B). destruct I as [<-|I]; auto. Qed.
Lemma fold_min_shift c r : forall a, fold_left Rmin (map (fun x => x + c) r) (a + c) = fold_left Rmin r a + c.
Proof. induction r as [|b r IH]; intros a; cbn [fold_left map]; [reflexivity|]. rewrite <- IH. f_equal. unfold Rmin. destruct (Rle_dec (a + c) (b + c)), (Rle_dec a b); lra. Qed.
Lemma fold_max_shift c r : forall a, fold_left Rmax (map (fun x => x + c) r) (a + c) = fold_left Rmax r a + c.
Proof. induction r as [|b r IH]; intros a; cbn [fold_left map]; [reflexivity|]. rewrite <- IH. f_equal. unfold Rmax. destruct (Rle_dec (a + c) (b + c)), (Rle_dec a b); lra. Qed.

Section Psr.
Variable psr : nat -> bool -> R -> Z -> list (point * point) -> list point * list (list nat).
Notation mesh := (point_cloud_to_mesh psr).
(** s v + c *)
Definition affine (s : R) (c v : point) : point := map (fun j => s * nth j v 0 + nth j c 0) (seq 0 (List.length c)).
Lemma affine_nth s c v j : (j < List.length c)%nat -> nth j (affine s c v) 0 = s * nth j v 0 + nth j c 0.
Proof. intros H. unfold affine. rewrite (nth_indep _ 0 ((fun j => s * nth j v 0 + nth j c 0) 0%nat)) by (rewrite map_length, seq_length; exact H). rewrite (map_nth (fun j => s * nth j v 0 + nth j c 0)), seq_nth by exact H. reflexivity. Qed.
Lemma seq_nth_map (f : nat -> R) n j : (j < n)%nat -> nth j (map f (seq 0 n)) 0 = f j.
Proof. intros H. rewrite (nth_indep _ 0 (f 0%nat)) by (rewrite map_length, seq_length; exact H). rewrite (map_nth f), seq_nth by exact H. reflexivity. Qed.
Lemma gap P j p : In p P -> mins P j < nth j p 0 < maxs P j /\ 0 < tdif P j.
Proof.
  intros I. assert (C : In (nth j p 0) (column P j)) by (apply (in_map (fun r => nth j r 0)); exact I). pose proof (least_le _ _ C). pose proof (most_ge _ _ C). assert (0 < tdif P j) by (unfold tdif; lra). unfold mins, maxs. split; lra.
Qed.
Lemma scale_ge P dim j : (j < dim)%nat -> maxs P j - mins P j <= scale dim P.
Proof. intros H. unfold scale. apply most_ge. apply (in_map (fun j => maxs P j - mins P j)). apply in_seq. lia. Qed.

(** The solver gets every point, moved into the open unit cube by one positive scale and one translation, with its normal; the mesh is what it returns, moved back, with unchanged faces. *)
Theorem C100_mesh P N method weight depth boundary V F : (forall p, In p (rows P) -> List.length p = cols P) -> mesh P N method weight depth boundary = Mesh V F ->
  exists s c cloud W, 0 < s /\ List.length c = cols P /\ psr (cols P) (dirichlet boundary) weight (Z.min 12 depth) cloud = (W, F) /\ V = map (affine s c) W /\
    List.length cloud = List.length (rows P) /\ forall k p q, nth_error (rows P) k = Some p -> nth_error (rows N) k = Some q ->
      exists x, nth_error cloud k = Some (x, q) /\ List.length x = cols P /\ p = affine s c x /\ forall j, (j < cols P)%nat -> 0 < nth j x 0 < 1.
Proof.
  intros LP H. unfold point_cloud_to_mesh in H. destruct (Nat.eqb_spec (cols P) (cols N)) as [EC|]; [|discriminate]. destruct (Nat.eqb_spec (List.length (rows P)) (List.length (rows N))) as [ER|]; [|discriminate]. cbn [andb negb] in H.
  destruct (Nat.ltb_spec 1 (List.length (rows P))) as [L1|]; [|discriminate]. cbn [negb] in H. destruct (Nat.eqb (cols P) 2 || Nat.eqb (cols P) 3) eqn:D; [|discriminate]. cbn [negb] in H.
  destruct (String.eqb method "PSR"); [|discriminate]. destruct (Z.ltb 0 depth); [|discriminate]. cbn [negb] in H. destruct (Rle_dec 0 weight); [|discriminate]. unfold reconstruct in H.
  match type of H with context [psr _ _ _ _ ?e] => set (cloud := e) in H end. case_eq (psr (cols P) (dirichlet boundary) weight (Z.min 12 depth) cloud). intros W F' Q. rewrite Q in H. injection H as <- <-.
  assert (DP : (0 < cols P)%nat). { apply orb_prop in D. destruct D as [D|D]; apply Nat.eqb_eq in D; lia. } set (dim := cols P) in *.
  assert (I1 : exists p0, In p0 (rows P)) by (clear - L1; destruct (rows P) as [|p0 r]; [cbn in L1; lia|exists p0; left; reflexivity]). destruct I1 as (p0 & I0).
  assert (S : 0 < scale dim (rows P)). { pose proof (scale_ge (rows P) dim 0 DP). destruct (gap (rows P) 0 p0 I0) as ((? & ?) & ?). lra. }
  set (c := map (mins (rows P)) (seq 0 dim)). assert (LC : List.length c = dim) by (unfold c; rewrite map_length, seq_length; reflexivity).
  exists (scale dim (rows P)), c, cloud, W. split; [exact S|]. split; [exact LC|]. split; [exact Q|]. split.
  - apply map_ext. intros v. unfold back, affine. rewrite LC. apply map_ext_in. intros j J. apply in_seq in J. unfold c. rewrite seq_nth_map by lia. ring.
  - split; [unfold cloud; rewrite combine_length, map_length; clear - ER; change point with (list R) in *; rewrite ER; apply Nat.min_id|]. intros k p q Np Nq. exists (into dim (rows P) p). assert (IP : In p (rows P)) by (eapply nth_error_In; eauto). split.
    + unfold cloud. clear - Np Nq. generalize (into dim (rows P)) as f. intros f. revert k Np Nq. generalize (rows N) as B. generalize (rows P) as A. induction A as [|a A IH]; intros [|b B] [|k]; cbn; intros X Y; try discriminate; [injection X as ->; injection Y as ->; reflexivity|eauto].
    + split; [unfold into; rewrite map_length, seq_length; reflexivity|]. split.
      * apply (nth_ext _ _ 0 0); [unfold affine; rewrite map_length, seq_length, LC; apply LP; exact IP|]. intros j J. rewrite (LP p IP) in J. rewrite affine_nth by (rewrite LC; exact J). unfold into, c. rewrite !seq_nth_map by exact J. field. lra.
      * intros j J. unfold into. rewrite seq_nth_map by exact J. destruct (gap (rows P) j p IP) as ((? & ?) & _). pose proof (scale_ge (rows P) dim j J). split; [apply Rdiv_lt_0_compat; lra|]. apply (Rmult_lt_reg_r (scale dim (rows P))); [exact S|]. unfold Rdiv. rewrite Rmult_assoc, Rinv_l by lra. lra.
Qed.
(** When it raises. *)
Theorem C100_raises P N method weight depth boundary : mesh P N method weight depth boundary = Raises <->
  ~ (cols P = cols N /\ List.length (rows P) = List.length (rows N) /\ (2 <= List.length (rows P))%nat /\ (cols P = 2 \/ cols P = 3)%nat /\ method = "PSR"%string /\ (0 < depth)%Z /\ 0 <= weight).
Proof.
  unfold point_cloud_to_mesh. destruct (Nat.eqb_spec (cols P) (cols N)); cbn [andb negb]; [|intuition congruence]. destruct (Nat.eqb_spec (List.length (rows P)) (List.length (rows N))); cbn [andb negb]; [|intuition congruence].
  destruct (Nat.ltb_spec 1 (List.length (rows P))); cbn [negb]; [|split; auto; intros _ K; lia]. destruct (Nat.eqb_spec (cols P) 2), (Nat.eqb_spec (cols P) 3); cbn [orb negb]; try (intuition congruence; fail);
  (destruct (String.eqb_spec method "PSR"); cbn [negb]; [|intuition congruence]); (destruct (Z.ltb_spec 0 depth); cbn [negb]; [|split; auto; intros _ K; lia]); (destruct (Rle_dec 0 weight); [|intuition lra]);
  unfold reconstruct; destruct (psr _ _ _ _ _); (split; [discriminate|]); intros K; exfalso; apply K; repeat split; auto; lia.
Qed.
(** Depths above 12 are 12. *)
Theorem C100_depth P N method weight d e boundary : (12 <= d)%Z -> (12 <= e)%Z -> mesh P N method weight d boundary = mesh P N method weight e boundary.
Proof. intros D E. unfold point_cloud_to_mesh. rewrite !Z.min_l by lia. destruct (Z.ltb_spec 0 d), (Z.ltb_spec 0 e); try lia; reflexivity. Qed.
(** Moving the points moves the mesh. *)
Theorem C100_translation P N method weight depth boundary c : (forall p, In p (rows P) -> List.length p = cols P) -> List.length c = cols P ->
  mesh {| cols := cols P; rows := map (affine 1 c) (rows P) |} N method weight depth boundary =
    match mesh P N method weight depth boundary with Raises => Raises | Mesh V F => Mesh (map (affine 1 c) V) F end.
Proof.
  intros LP LC. unfold point_cloud_to_mesh. cbn [cols rows]. rewrite map_length. change point with (list R) in *. destruct (negb (Nat.eqb (cols P) (cols N) && Nat.eqb (List.length (rows P)) (List.length (rows N)))); [reflexivity|].
  destruct (Nat.ltb_spec 1 (List.length (rows P))) as [L1|]; [|reflexivity]. cbn [negb]. destruct (negb (Nat.eqb (cols P) 2 || Nat.eqb (cols P) 3)); [reflexivity|]. destruct (negb (String.eqb method "PSR")); [reflexivity|]. destruct (negb (Z.ltb 0 depth)); [reflexivity|].
  destruct (Rle_dec 0 weight); [|reflexivity]. unfold reconstruct. change point with (list R) in *. match goal with |- context [into _ ?q] => set (Q := q) end.
  assert (C : forall j, (j < cols P)%nat -> column Q j = map (fun x => x + nth j c 0) (column (rows P) j)).
  { intros j J. unfold column, Q. rewrite !map_map. apply map_ext_in. intros p I. rewrite affine_nth by lia. ring. }
  assert (NE : forall j, column (rows P) j <> []) by (intros j E; apply (f_equal (@List.length R)) in E; unfold column in E; rewrite map_length in E; cbn in E; lia).
  assert (LO : forall j, (j < cols P)%nat -> least (column Q j) = least (column (rows P) j) + nth j c 0).
  { intros j J. rewrite (C j J). specialize (NE j). destruct (column (rows P) j) as [|a l]; [contradiction|]. cbn. apply fold_min_shift. }
  assert (HI : forall j, (j < cols P)%nat -> most (column Q j) = most (column (rows P) j) + nth j c 0).
  { intros j J. rewrite (C j J). specialize (NE j). destruct (column (rows P) j) as [|a l]; [contradiction|]. cbn. apply fold_max_shift. }
  assert (M : forall j, (j < cols P)%nat -> mins Q j = mins (rows P) j + nth j c 0 /\ maxs Q j - mins Q j = maxs (rows P) j - mins (rows P) j).
  { intros j J. unfold mins, maxs, tdif. rewrite LO, HI by exact J. split; ring. }
  assert (S : scale (cols P) Q = scale (cols P) (rows P)). { unfold scale. f_equal. apply map_ext_in. intros j J. apply in_seq in J. apply M. lia. }
  assert (I : map (into (cols P) Q) Q = map (into (cols P) (rows P)) (rows P)).
  { unfold Q at 2. rewrite map_map. apply map_ext_in. intros p Ip. unfold into. rewrite S. apply map_ext_in. intros j J. apply in_seq in J. rewrite (proj1 (M j ltac:(lia))), affine_nth by lia. f_equal. ring. }
  change point with (list R) in *. rewrite I. destruct (psr _ _ _ _ _) as [V F]. f_equal. rewrite map_map. apply map_ext. intros v. unfold back, affine. rewrite S, LC. apply map_ext_in. intros j J. apply in_seq in J. rewrite (proj1 (M j ltac:(lia))). 
  rewrite seq_nth_map by lia. ring.
Qed.
End Psr.
(** Which names mean Dirichlet. *)
Theorem C100_boundary s : dirichlet s = true <-> s = "Dirichlet"%string \/ s = "dirichlet"%string.
Proof. unfold dirichlet. rewrite orb_true_iff, !String.eqb_eq. reflexivity. Qed.
(** Any other name of the boundary condition, also DIRICHLET, is taken as Neumann without a complaint. *)
Theorem C100_boundary_refuted : exists psr P N V F, point_cloud_to_mesh psr P N "PSR" 10 8 "DIRICHLET" = Mesh V F /\ point_cloud_to_mesh psr P N "PSR" 10 8 "Neumann" = Mesh V F /\ point_cloud_to_mesh psr P N "PSR" 10 8 "Dirichlet" <> Mesh V F.
Proof.
  exists (fun (_ : nat) (d : bool) (_ : R) (_ : Z) (_ : list (point * point)) => (@nil point, if d then [[0%nat]] else [])), {| cols := 2; rows := [[0; 0]; [1; 0]] |}, {| cols := 2; rows := [[0; 1]; [0; 1]] |}, [], [].
  unfold point_cloud_to_mesh. cbn. destruct (Rle_dec 0 10); [|lra]. unfold reconstruct. cbn. repeat split. discriminate.
Qed.
(** the hypotheses can be met, also by coinciding points: with a solver that returns its points *)
Example C100_nonvacuous : let P := {| cols := 2; rows := [[3; 4]; [3; 4]] |} in exists V F, point_cloud_to_mesh (fun _ _ _ _ l => (map fst l, [[0; 1]%nat])) P P "PSR" 10 8 "Neumann" = Mesh V F /\ V = [[3; 4]; [3; 4]].
Proof.
  cbv zeta. set (P := {| cols := 2; rows := [[3; 4]; [3; 4]] |}). destruct (point_cloud_to_mesh (fun _ _ _ _ l => (map fst l, [[0; 1]%nat])) P P "PSR" 10 8 "Neumann") as [|V F] eqn:E.
  - exfalso. apply C100_raises in E. apply E. cbn. repeat split; auto; try lia. lra.
  - exists V, F. split; auto. apply C100_mesh in E; [|cbn; intros p [<-|[<-|[]]]; reflexivity]. destruct E as (s & c & cloud & W & S & LC & Q & -> & L & K). cbn beta in Q. injection Q as <- _.
    destruct (K 0%nat [3; 4] [3; 4] eq_refl eq_refl) as (x & X & _ & PX & _). destruct (K 1%nat [3; 4] [3; 4] eq_refl eq_refl) as (y & Y & _ & PY & _).
    destruct cloud as [|a [|b [|? ?]]]; cbn in L; try lia. cbn in X, Y. injection X as ->. injection Y as ->. cbn [map fst]. rewrite <- PX, <- PY. reflexivity.
Qed.
