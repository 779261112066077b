From Coq Require Import Reals Lra Psatz ZArith List Bool Permutation Lia Arith.
From Verif Require Import NumpyModel TopoModel PyExn Vec GeomModel GeomProofs Geom2Proofs LoopsModel SubdivModel SubdivProofs Subdiv2Proofs SqDistModel SqDistProofs AabbModel AabbSpec AabbProofs AabbBuildProofs AabbTreeProofs AabbQueryProofs AabbQuery2Proofs RayModel RayProofs RayMeshModel.
Import ListNotations.
Open Scope R_scope.

Definition row3 (v : vec3) : vec := [X v; Y v; Zc v].
Lemma v3_row v : v3_of (row3 v) = Some v. Proof. destruct v as [[x y] z]; reflexivity. Qed.
Lemma row3_of v : length v = 3%nat -> exists w, v = row3 w.
Proof. intros H. destruct v as [|x [|y [|z [|? ?]]]]; try discriminate. exists (x, y, z). reflexivity. Qed.

Lemma argmax_max l : l <> [] -> forall x, In x l -> x <= nth (argmax l) l 0.
Proof.
  destruct l as [|x0 l]; [congruence|]. intros _.
  enough (G : forall r best bv i L, (forall k, (k < length r)%nat -> nth k r 0 = nth (i + k) L 0) -> nth best L 0 = bv ->
     bv <= nth (argmax_from best bv i r) L 0 /\ forall x, In x r -> x <= nth (argmax_from best bv i r) L 0).
  { destruct (G l O x0 1%nat (x0 :: l)) as [A B]; [intros k K; reflexivity|reflexivity|]. intros x [ <- |I]; [exact A|exact (B x I)]. }
  induction r as [|a r IH]; intros best bv i L H Q; cbn [argmax_from]; [rewrite Q; split; [lra|intros ? []]|].
  assert (H' : forall k, (k < length r)%nat -> nth k r 0 = nth (S i + k) L 0).
  { intros k K. specialize (H (S k) ltac:(cbn; lia)). cbn in H. rewrite H. f_equal. lia. }
  assert (HA : nth i L 0 = a) by (specialize (H O ltac:(cbn; lia)); cbn in H; rewrite H; f_equal; lia).
  destruct Rlt_dec as [W|W].
  - destruct (IH i a (S i) L H' HA) as [A B]. split; [lra|]. intros x [ <- |I]; auto.
  - destruct (IH best bv (S i) L H' Q) as [A B]. split; [exact A|]. intros x [ <- |I]; [lra|auto].
Qed.

(** a zero direction hits no triangle *)
Lemma rt_zero o v0 v1 v2 neg : ray_triangle_intersect o (0,0,0) v0 v1 v2 neg = None.
Proof.
  unfold ray_triangle_intersect. cbv zeta. set (D := dot3 _ _). assert (E : D = 0) by (unfold D, dot3, cross3, sub3, X, Y, Zc; cbn [fst snd]; ring).
  rewrite E, Rabs_R0. destruct Rlt_dec; [reflexivity|lra].
Qed.
Lemma rt_det o d v0 v1 v2 neg r : ray_triangle_intersect o d v0 v1 v2 neg = Some r -> 1/1000000 <= Rabs (dot3 (sub3 v1 v0) (cross3 d (sub3 v2 v0))).
Proof. unfold ray_triangle_intersect. cbv zeta. destruct (Rlt_dec (Rabs _) _); [discriminate|]. intros _. lra. Qed.

(** the box test lets through every box that contains a point of the ray, with a parameter not beyond it *)
Lemma box_entry_ok (o d : vec3) (c w : vec) t : length c = 3%nat -> length w = 3%nat -> (forall j, (j < 3)%nat -> 0 <= nth j w 0) -> d <> (0,0,0) ->
  0 <= t -> in_box 3 c w (row3 (add3 o (scal3 t d))) -> exists s, box_entry (row3 o) (row3 d) c w = (true, Some s) /\ s <= t.
Proof.
  intros LC LW W ND T IB. destruct (row3_of c LC) as (c3 & ->). destruct (row3_of w LW) as (w3 & ->).
  destruct o as [[o0 o1] o2], d as [[d0 d1] d2], c3 as [[c0 c1] c2], w3 as [[w0 w1] w2].
  set (L := axes (row3 (o0,o1,o2)) (row3 (d0,d1,d2)) (row3 (c0,c1,c2)) (row3 (w0,w1,w2))).
  assert (EL : L = [(o0,d0,c0,w0); (o1,d1,c1,w1); (o2,d2,c2,w2)]) by reflexivity.
  assert (WL : Forall (fun a => 0 <= aw a) L).
  { rewrite EL. pose proof (W O ltac:(lia)). pose proof (W 1%nat ltac:(lia)). pose proof (W 2%nat ltac:(lia)). cbn in *. repeat (apply Forall_cons; [unfold aw; cbn; lra|]); apply Forall_nil. }
  pose proof (ray_box_ok L WL) as H. unfold box_entry. fold L. destruct (ray_box_intersect L) as [hit p]. destruct H as (LP & H1 & H2).
  assert (IL : Forall (fun a => in_slab a (at_time t a)) L).
  { clear - IB EL. rewrite EL. pose proof (IB O ltac:(lia)) as B0. pose proof (IB 1%nat ltac:(lia)) as B1. pose proof (IB 2%nat ltac:(lia)) as B2.
    unfold row3, add3, scal3, X, Y, Zc in B0, B1, B2; cbn in B0, B1, B2. repeat (apply Forall_cons; [unfold in_slab, at_time, ao, ad, ac, aw; cbn; lra|]); apply Forall_nil. }
  assert (HT : hit = true) by (apply H1; eauto). destruct (H2 HT) as (s & S0 & EP & _ & MIN). specialize (MIN t T IL). rewrite HT.
  exists s. split; [|exact MIN]. f_equal. rewrite EP, EL.
  set (dl := row3 (d0,d1,d2)). set (k := argmax (map Rabs dl)).
  assert (K : (k < 3)%nat) by (change 3%nat with (length (map Rabs dl)); apply argmax_lt; discriminate).
  assert (KD : nth k dl 0 <> 0).
  { intros Q. assert (MX : forall x, In x (map Rabs dl) -> x <= 0).
    { intros x I. pose proof (argmax_max (map Rabs dl) ltac:(discriminate) x I) as M. fold k in M. rewrite (nth_indep _ 0 (Rabs 0)) in M by (exact K).
      rewrite (map_nth Rabs), Q, Rabs_R0 in M. exact M. }
    assert (Z0 : forall x, In x dl -> x = 0). { intros x I. specialize (MX _ (in_map Rabs _ _ I)). destruct (Req_dec x 0); auto. pose proof (Rabs_pos_lt x H). lra. }
    apply ND. unfold dl, row3, X, Y, Zc in Z0; cbn in Z0. rewrite (Z0 d0), (Z0 d1), (Z0 d2) by auto. reflexivity. }
  clearbody k. unfold dl, row3, X, Y, Zc in *; cbn [fst snd] in *.
  destruct k as [|[|[|k]]]; [| | |lia]; cbn [nth map nth_error] in *; unfold at_time, ao, ad, ac, aw; cbn [fst snd];
    (destruct Req_EM_T; [contradiction|]); f_equal; field; auto.
Qed.

Section Q.
  Variables (V : list vec) (F : list (list Z)) (T : list node) (o d : vec3).
  Let m := length F.
  Hypothesis BV : bvh 3 m (vert_of V F) T.
  Hypothesis LN : forall j nd, nth_error T j = Some nd -> length (nC nd) = 3%nat /\ length (nW nd) = 3%nat.
  Variable tri : nat -> vec3 * vec3 * vec3.
  Hypothesis TR : forall e, (e < m)%nat -> corners V F (Z.of_nat e) = Ok (tri e).
  Hypothesis TV : forall e, (e < m)%nat -> let '(a, b, c) := tri e in vert_of V F e = [row3 a; row3 b; row3 c].
  Definition hitk (e : nat) : option (R * vec3) := let '(a, b, c) := tri e in ray_triangle_intersect o d a b c false.
  Definition baryk (e : nat) (h : vec3) : vec3 := let '(a, b, c) := tri e in bary3 h a b c.

  Lemma under_hit j nd e t h : nth_error T j = Some nd -> under T j (Z.of_nat e) -> (e < m)%nat -> hitk e = Some (t, h) ->
    exists s, box_entry (row3 o) (row3 d) (nC nd) (nW nd) = (true, Some s) /\ s <= t.
  Proof.
    intros N U K H. destruct (LN _ _ N) as [L1 L2]. unfold hitk in H. specialize (TV e K). destruct (tri e) as [[a b] c].
    destruct (rt_sound _ _ _ _ _ _ _ _ H) as (EH & TP & u & v & U0 & V0 & UV & EQ). specialize (TP eq_refl).
    assert (BX : forall x, In x (vert_of V F e) -> in_box 3 (nC nd) (nW nd) x) by (intros x I; eapply (bvh_box _ _ _ _ BV); eauto).
    apply box_entry_ok with (t := t); auto.
    - intros i I. pose proof (BX (row3 a) ltac:(rewrite TV; now left) i I). lra.
    - intros ->. rewrite rt_zero in H. discriminate.
    - rewrite <- EH, EQ. apply (combo_box 3 [1 - u - v; u; v] (vert_of V F e)); [|exact BX]. rewrite TV.
      split; [reflexivity|]. split; [reflexivity|]. split; [repeat (apply Forall_cons; [lra|]); apply Forall_nil|]. split; [cbn; lra|].
      intros i I. destruct i as [|[|[|i]]]; [| | |lia]; unfold row3, tri_point, add3, scal3, X, Y, Zc; cbn; ring.
  Qed.

  Definition upd (es : list Z) (st st' : rstate) : Prop :=
    (forall k t h, In (Z.of_nat k) es -> hitk k = Some (t, h) -> opt_le (fst (fst st')) t) /\ opt_better (fst (fst st')) (fst (fst st)) /\
    (st' = st \/ exists k t h, (k < m)%nat /\ In (Z.of_nat k) es /\ hitk k = Some (t, h) /\ st' = (Some t, Z.of_nat k, baryk k h)).
  Lemma upd_app e1 e2 s1 s2 s3 : upd e1 s1 s2 -> upd e2 s2 s3 -> upd (e1 ++ e2) s1 s3.
  Proof.
    intros (A1 & A2 & A3) (C1 & C2 & C3). split; [|split].
    - intros k t h I H. apply in_app_or in I as [I|I]; [eapply opt_le_better; [exact C2|]; eauto|eauto].
    - eapply opt_better_trans; eauto.
    - destruct C3 as [ -> |(k & t & h & K & I & Q)]; [|right; exists k, t, h; rewrite in_app_iff; tauto].
      destruct A3 as [ -> |(k & t & h & K & I & Q)]; [now left|right; exists k, t, h; rewrite in_app_iff; tauto].
  Qed.

  Lemma rtraverse_sub j t : rep T j t -> forall st, exists n st', (n <= size t)%nat /\ upd (elems t) st st' /\
    forall fuel queue, rtraverse V F T (row3 o) (row3 d) (n + fuel) (Z.of_nat j :: queue) st = rtraverse V F T (row3 o) (row3 d) fuel queue st'.
  Proof.
    induction 1 as [j nd N L|j nd a b l r N C RL IHl RR IHr]; intros st.
    - destruct (under_lt 3 m (vert_of V F) T BV j (nT nd)) as (k & K & EK); [econstructor; eauto|].
      exists 1%nat, (match hitk k with Some (t, h) => if lt_best t (fst (fst st)) then (Some t, nT nd, baryk k h) else st | None => st end). split; [cbn; lia|]. split.
      + cbn [elems]. rewrite EK. destruct (hitk k) as [[t h]|] eqn:HK.
        * destruct (lt_best t (fst (fst st))) eqn:LB.
          -- split; [|split].
             ++ intros k' t' h' [I|[]] H. apply Nat2Z.inj in I. subst. rewrite HK in H. injection H as <- <-. cbn. lra.
             ++ apply lt_best_true; auto.
             ++ right. exists k, t, h. cbn. auto.
          -- split; [|split; [apply opt_better_refl|now left]].
             intros k' t' h' [I|[]] H. apply Nat2Z.inj in I. subst. rewrite HK in H. injection H as <- <-. apply lt_best_false; auto.
        * split; [|split; [apply opt_better_refl|now left]]. intros k' t' h' [I|[]] H. apply Nat2Z.inj in I. subst. congruence.
      + intros fuel queue. cbn [Nat.add rtraverse]. rewrite getZ_nat, N. cbn [lift bind]. rewrite (leaf_test _ L), !v3_row. cbn [lift bind].
        rewrite EK, TR by auto. unfold hitk, baryk. destruct (tri k) as [[v0 v1] v2]. cbn [bind]. reflexivity.
    - pose proof (node_test _ _ _ C) as NT.
      destruct (box_entry (row3 o) (row3 d) (nC nd) (nW nd)) as [hit tb] eqn:BE.
      destruct (hit && match tb with Some x => lt_best x (fst (fst st)) | None => false end) eqn:GO.
      + destruct (IHl st) as (n1 & s1 & N1 & U1 & E1). destruct (IHr s1) as (n2 & s2 & N2 & U2 & E2).
        exists (S (n1 + n2)), s2. split; [cbn; lia|]. split; [cbn [elems]; eapply upd_app; eauto|].
        intros fuel queue. cbn [Nat.add rtraverse]. rewrite getZ_nat, N. cbn [lift bind]. rewrite NT, BE, GO, C. cbn [fst snd].
        rewrite <- Nat.add_assoc, E1, E2. reflexivity.
      + exists 1%nat, st. split; [cbn; lia|]. split.
        * split; [|split; [apply opt_better_refl|now left]]. intros k t' h' I H.
          assert (U : under T j (Z.of_nat k)) by (eapply rep_under; [eapply rep_node; eauto|exact I]).
          destruct (under_lt 3 m (vert_of V F) T BV _ _ U) as (k' & K & EK). apply Nat2Z.inj in EK. subst k'.
          destruct (under_hit j nd k t' h' N U K H) as (s & E & LE). rewrite BE in E. injection E as -> ->. cbn in GO.
          apply lt_best_false in GO. destruct (fst (fst st)); cbn in *; [lra|auto].
        * intros fuel queue. cbn [Nat.add rtraverse]. rewrite getZ_nat, N. cbn [lift bind]. rewrite NT, BE, GO. reflexivity.
  Qed.
  Lemma rtraverse_root : (0 < m)%nat -> exists st', (forall fuel, (2 * m - 1 <= fuel)%nat -> rtraverse V F T (row3 o) (row3 d) fuel [0%Z] rstart = Ok st') /\
    upd (map Z.of_nat (seq 0 m)) rstart st'.
  Proof.
    intros M. destruct (rep_exists _ _ _ _ BV 0) as (t & RT); [rewrite (bvh_size _ _ _ _ BV); lia|].
    destruct (rtraverse_sub O t RT rstart) as (n & st' & NS & U & E). exists st'. split.
    - intros fuel FU. pose proof (size_root _ _ _ _ _ BV RT). replace fuel with (n + (fuel - n))%nat by lia. change 0%Z with (Z.of_nat 0). rewrite E.
      destruct (fuel - n)%nat; reflexivity.
    - destruct U as (U1 & U2 & U3). split; [|split; [exact U2|]].
      + intros k t' h' I. apply U1. apply in_map_iff in I as (k' & EK & I). apply Nat2Z.inj in EK. subst k'. apply in_seq in I.
        eapply under_rep; [|exact RT]. apply (bvh_all _ _ _ _ BV). lia.
      + destruct U3 as [U3|(k & t' & h' & K & I & Q)]; [now left|]. right. exists k, t', h'. split; auto. split; auto.
        apply in_map, in_seq. lia.
  Qed.
End Q.
