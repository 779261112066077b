From Coq Require Import Reals Lra Psatz ZArith List Bool Permutation Lia Arith.
From Verif Require Import NumpyModel TopoModel PyExn Vec GeomModel GeomProofs LoopsModel SubdivModel SubdivProofs Subdiv2Proofs SqDistModel SqDistProofs AabbModel AabbSpec AabbProofs AabbBuildProofs AabbTreeProofs AabbQueryProofs.
Import ListNotations.
Open Scope R_scope.

(** ** minimum_distance *)
Section M.
  Variables (dim m1 m2 : nat) (vert1 vert2 : nat -> list vec) (T1 T2 : list node) (tt : Z -> Z -> res R) (D : nat -> nat -> R).
  Hypothesis DP : (0 < dim)%nat.
  Hypothesis BV1 : bvh dim m1 vert1 T1.
  Hypothesis BV2 : bvh dim m2 vert2 T2.
  Hypothesis LN1 : forall j nd, nth_error T1 j = Some nd -> length (nC nd) = dim /\ length (nW nd) = dim.
  Hypothesis LN2 : forall j nd, nth_error T2 j = Some nd -> length (nC nd) = dim /\ length (nW nd) = dim.
  Hypothesis TT : forall a b, (a < m1)%nat -> (b < m2)%nat -> tt (Z.of_nat a) (Z.of_nat b) = Ok (D a b).
  Hypothesis DH : forall a b, (a < m1)%nat -> (b < m2)%nat -> exists w1 x w2 y, combo dim w1 (vert1 a) x /\ combo dim w2 (vert2 b) y /\ D a b = sqrt (dist2 x y).

  Definition upd2 (e1 e2 : list Z) (b b' : option R) : Prop :=
    (forall k1 k2, In (Z.of_nat k1) e1 -> In (Z.of_nat k2) e2 -> opt_le b' (D k1 k2)) /\ opt_better b' b /\
    (b' = b \/ exists k1 k2, (k1 < m1)%nat /\ (k2 < m2)%nat /\ b' = Some (D k1 k2)).
  Lemma upd2_join e1 e2 f1 f2 g1 g2 a b c : (forall x y, In x g1 -> In y g2 -> (In x e1 /\ In y e2) \/ (In x f1 /\ In y f2)) -> upd2 e1 e2 a b -> upd2 f1 f2 b c -> upd2 g1 g2 a c.
  Proof.
    intros H (A1 & A2 & A3) (C1 & C2 & C3). repeat split.
    - intros k1 k2 I1 I2. destruct (H _ _ I1 I2) as [[? ?]|[? ?]]; auto. eapply opt_le_better; eauto.
    - eapply opt_better_trans; eauto.
    - destruct C3 as [ -> |C3]; auto.
  Qed.
  Lemma upd2_nil e2 b : upd2 [] e2 b b. Proof. repeat split; [intros ? ? []|apply opt_better_refl|now left]. Qed.
  Lemma gap_bound j1 j2 n1 n2 a b : nth_error T1 j1 = Some n1 -> nth_error T2 j2 = Some n2 -> under T1 j1 (Z.of_nat a) -> under T2 j2 (Z.of_nat b) -> (a < m1)%nat -> (b < m2)%nat ->
    exists g, box_gap (nC n1) (nW n1) (nC n2) (nW n2) = Some g /\ g <= D a b.
  Proof.
    intros N1 N2 U1 U2 A B. destruct (DH a b A B) as (w1 & x & w2 & y & H1 & H2 & ->). destruct (LN1 _ _ N1). destruct (LN2 _ _ N2).
    assert (I1 : in_box dim (nC n1) (nW n1) x) by (eapply combo_box; [exact H1|]; intros v V; eapply (bvh_box _ _ _ _ BV1); eauto).
    assert (I2 : in_box dim (nC n2) (nW n2) y) by (eapply combo_box; [exact H2|]; intros v V; eapply (bvh_box _ _ _ _ BV2); eauto).
    destruct H1 as (? & _), H2 as (? & _). eapply gap_le; eauto.
  Qed.
  Definition tleaf (t : bt) : bool := match t with BL _ => true | _ => false end.

  Lemma mloop_sub : forall s t1 t2 j1 j2, (size t1 + size t2 <= s)%nat -> rep T1 j1 t1 -> rep T2 j2 t2 -> forall best, exists n best', (n <= size t1 * size t2)%nat /\ upd2 (elems t1) (elems t2) best best' /\
    forall fuel queue, mloop T1 T2 tt (n + fuel) ((Z.of_nat j1, Z.of_nat j2) :: queue) best = mloop T1 T2 tt fuel queue best'.
  Proof.
    induction s as [|s IH]; intros t1 t2 j1 j2 SZ R1 R2 best; [destruct t1; cbn in SZ; lia|].
    pose proof (size_elems t1) as [S1 E1]. pose proof (size_elems t2) as [S2 E2].
    assert (GAP : forall n1 n2, nth_error T1 j1 = Some n1 -> nth_error T2 j2 = Some n2 -> exists g, box_gap (nC n1) (nW n1) (nC n2) (nW n2) = Some g /\
              (lt_best g best = false -> upd2 (elems t1) (elems t2) best best)).
    { intros n1 n2 N1 N2. 
      assert (W : forall a b, In (Z.of_nat a) (elems t1) -> In (Z.of_nat b) (elems t2) -> exists g, box_gap (nC n1) (nW n1) (nC n2) (nW n2) = Some g /\ g <= D a b).
      { intros a b Ia Ib. pose proof (rep_under _ _ _ R1 _ Ia) as U1. pose proof (rep_under _ _ _ R2 _ Ib) as U2.
        destruct (under_lt _ _ _ _ BV1 _ _ U1) as (a' & A & EA). destruct (under_lt _ _ _ _ BV2 _ _ U2) as (b' & B & EB). apply Nat2Z.inj in EA, EB. subst.
        eapply gap_bound; eauto. }
      assert (X : exists a b, In (Z.of_nat a) (elems t1) /\ In (Z.of_nat b) (elems t2)).
      { destruct (elems t1) as [|a r1] eqn:Q1; [cbn in E1; lia|]. destruct (elems t2) as [|b r2] eqn:Q2; [cbn in E2; lia|].
        destruct (proj2 (rep_nodup _ _ _ _ BV1 _ _ R1) a) as (a' & _ & ->); [rewrite Q1; now left|].
        destruct (proj2 (rep_nodup _ _ _ _ BV2 _ _ R2) b) as (b' & _ & ->); [rewrite Q2; now left|]. exists a', b'. split; now left. }
      destruct X as (a0 & b0 & A0 & B0). destruct (W _ _ A0 B0) as (g & EG & _). exists g. split; auto. intros LB. apply lt_best_false in LB.
      repeat split; [|apply opt_better_refl|now left]. intros k1 k2 I1 I2. destruct (W _ _ I1 I2) as (g' & EG' & LE). rewrite EG in EG'. injection EG' as <-.
      destruct best; cbn in *; [lra|auto]. }
    destruct R1 as [j1 n1 N1 L1|j1 n1 a1 b1 l1 r1 N1 C1 RA1 RB1] eqn:ER1; destruct R2 as [j2 n2 N2 L2|j2 n2 a2 b2 l2 r2 N2 C2 RA2 RB2] eqn:ER2; destruct (GAP _ _ N1 N2) as (g & EG & PR); clear GAP; clear ER1 ER2.
    - (* two leaves *)
      destruct (under_lt _ _ _ _ BV1 j1 (nT n1)) as (k1 & K1 & EK1); [econstructor; eauto|]. destruct (under_lt _ _ _ _ BV2 j2 (nT n2)) as (k2 & K2 & EK2); [econstructor; eauto|].
      exists 1%nat, (if lt_best (D k1 k2) best then Some (D k1 k2) else best). split; [cbn; lia|]. split.
      + cbn [elems]. rewrite EK1, EK2. repeat split.
        * intros a b [I1|[]] [I2|[]]. apply Nat2Z.inj in I1, I2. subst. destruct (lt_best (D a b) best) eqn:LB; [cbn; lra|apply lt_best_false; auto].
        * destruct (lt_best (D k1 k2) best) eqn:LB; [apply lt_best_true; auto|apply opt_better_refl].
        * destruct (lt_best (D k1 k2) best); [right; exists k1, k2; auto|left; reflexivity].
      + intros fuel queue. cbn [Nat.add mloop]. rewrite !getZ_nat, N1, N2. cbn [lift bind]. rewrite (leaf_test _ L1), (leaf_test _ L2). cbn [andb]. rewrite EK1, EK2, TT by auto. reflexivity.
    - destruct (lt_best g best) eqn:LB.
      + assert (RL : rep T1 j1 (BL (nT n1))) by (econstructor; eauto).
        cbn [size] in SZ.
        destruct (IH (BL (nT n1)) r2 j1 b2 ltac:(cbn [size]; lia) RL RB2 best) as (x1 & be1 & X1 & U1 & Q1).
        destruct (IH (BL (nT n1)) l2 j1 a2 ltac:(cbn [size]; lia) RL RA2 be1) as (x2 & be2 & X2 & U2 & Q2).
        exists (S (x1 + x2))%nat, be2. split; [cbn [size] in *; lia|]. split; [eapply upd2_join; [|exact U1|exact U2]; cbn [elems]; intros x y Ix Iy; apply in_app_or in Iy; tauto|].
        intros fuel queue. replace (S (x1 + x2) + fuel)%nat with (S (x1 + (x2 + fuel))) by lia. cbn [mloop]. rewrite !getZ_nat, N1, N2. cbn [lift bind].
        rewrite (leaf_test _ L1), (node_test _ _ _ C2). cbn [andb negb]. rewrite EG. cbn [lift bind]. rewrite LB, C2. destruct (nCH n1) as [z1 z2]. cbn [app]. rewrite Q1. apply Q2.
      + exists 1%nat, best. split; [cbn [size]; lia|]. split; [auto|]. intros fuel queue. cbn [Nat.add mloop]. rewrite !getZ_nat, N1, N2. cbn [lift bind].
        rewrite (leaf_test _ L1), (node_test _ _ _ C2). cbn [andb negb]. rewrite EG. cbn [lift bind]. rewrite LB. reflexivity.
    - destruct (lt_best g best) eqn:LB.
      + assert (RL : rep T2 j2 (BL (nT n2))) by (econstructor; eauto).
        cbn [size] in SZ.
        destruct (IH r1 (BL (nT n2)) b1 j2 ltac:(cbn [size]; lia) RB1 RL best) as (x1 & be1 & X1 & U1 & Q1).
        destruct (IH l1 (BL (nT n2)) a1 j2 ltac:(cbn [size]; lia) RA1 RL be1) as (x2 & be2 & X2 & U2 & Q2).
        exists (S (x1 + x2))%nat, be2. split; [cbn [size] in *; lia|]. split; [eapply upd2_join; [|exact U1|exact U2]; cbn [elems]; intros x y Ix Iy; apply in_app_or in Ix; tauto|].
        intros fuel queue. replace (S (x1 + x2) + fuel)%nat with (S (x1 + (x2 + fuel))) by lia. cbn [mloop]. rewrite !getZ_nat, N1, N2. cbn [lift bind].
        rewrite (leaf_test _ L2), (node_test _ _ _ C1). cbn [andb negb]. rewrite EG. cbn [lift bind]. rewrite LB, C1. destruct (nCH n2) as [z1 z2]. cbn [app]. rewrite Q1. apply Q2.
      + exists 1%nat, best. split; [cbn [size]; lia|]. split; [auto|]. intros fuel queue. cbn [Nat.add mloop]. rewrite !getZ_nat, N1, N2. cbn [lift bind].
        rewrite (leaf_test _ L2), (node_test _ _ _ C1). cbn [andb negb]. rewrite EG. cbn [lift bind]. rewrite LB. reflexivity.
    - destruct (lt_best g best) eqn:LB.
      + cbn [size] in SZ.
        destruct (IH r1 r2 b1 b2 ltac:(lia) RB1 RB2 best) as (x1 & be1 & X1 & U1 & Q1).
        destruct (IH l1 r2 a1 b2 ltac:(lia) RA1 RB2 be1) as (x2 & be2 & X2 & U2 & Q2).
        destruct (IH r1 l2 b1 a2 ltac:(lia) RB1 RA2 be2) as (x3 & be3 & X3 & U3 & Q3).
        destruct (IH l1 l2 a1 a2 ltac:(lia) RA1 RA2 be3) as (x4 & be4 & X4 & U4 & Q4).
        exists (S (x1 + x2 + x3 + x4))%nat, be4. split; [cbn [size] in *; nia|]. split.
        * assert (V1 : upd2 (elems (BN l1 r1)) (elems r2) best be2) by (eapply upd2_join; [|exact U1|exact U2]; cbn [elems]; intros x y Ix Iy; apply in_app_or in Ix; tauto).
          assert (V2 : upd2 (elems (BN l1 r1)) (elems l2) be2 be4) by (eapply upd2_join; [|exact U3|exact U4]; cbn [elems]; intros x y Ix Iy; apply in_app_or in Ix; tauto).
          eapply upd2_join; [|exact V1|exact V2]. intros x y Ix Iy. cbn [elems] in Iy. apply in_app_or in Iy. tauto.
        * intros fuel queue. replace (S (x1 + x2 + x3 + x4) + fuel)%nat with (S (x1 + (x2 + (x3 + (x4 + fuel))))) by lia. cbn [mloop]. rewrite !getZ_nat, N1, N2. cbn [lift bind].
          rewrite (node_test _ _ _ C1), (node_test _ _ _ C2). cbn [andb negb]. rewrite EG. cbn [lift bind]. rewrite LB, C1, C2. cbn [app]. rewrite Q1, Q2, Q3. apply Q4.
      + exists 1%nat, best. split; [cbn [size]; lia|]. split; [auto|]. intros fuel queue. cbn [Nat.add mloop]. rewrite !getZ_nat, N1, N2. cbn [lift bind].
        rewrite (node_test _ _ _ C1), (node_test _ _ _ C2). cbn [andb negb]. rewrite EG. cbn [lift bind]. rewrite LB. reflexivity.
  Qed.
  Lemma mloop_root : (0 < m1)%nat -> (0 < m2)%nat -> exists k1 k2, (k1 < m1)%nat /\ (k2 < m2)%nat /\ (forall a b, (a < m1)%nat -> (b < m2)%nat -> D k1 k2 <= D a b) /\
    forall fuel, ((2 * m1 - 1) * (2 * m2 - 1) <= fuel)%nat -> mloop T1 T2 tt fuel [(0, 0)%Z] None = Ok (Some (D k1 k2)).
  Proof.
    intros M1 M2. destruct (rep_exists _ _ _ _ BV1 0) as (t1 & R1); [rewrite (bvh_size _ _ _ _ BV1); lia|]. destruct (rep_exists _ _ _ _ BV2 0) as (t2 & R2); [rewrite (bvh_size _ _ _ _ BV2); lia|].
    destruct (mloop_sub _ t1 t2 0%nat 0%nat (Nat.le_refl _) R1 R2 None) as (n & b & NS & (U1 & U2 & U3) & E).
    assert (A1 : forall e, (e < m1)%nat -> In (Z.of_nat e) (elems t1)) by (intros e K; eapply under_rep; [apply (bvh_all _ _ _ _ BV1); auto|exact R1]).
    assert (A2 : forall e, (e < m2)%nat -> In (Z.of_nat e) (elems t2)) by (intros e K; eapply under_rep; [apply (bvh_all _ _ _ _ BV2); auto|exact R2]).
    destruct U3 as [ -> |(k1 & k2 & K1 & K2 & -> )]; [exfalso; exact (U1 O O (A1 O M1) (A2 O M2))|].
    exists k1, k2. split; auto. split; auto. split; [intros a b A B; exact (U1 a b (A1 a A) (A2 b B))|]. intros fuel F.
    pose proof (size_root _ _ _ _ _ BV1 R1). pose proof (size_root _ _ _ _ _ BV2 R2). assert (n <= fuel)%nat by nia.
    replace fuel with (n + (fuel - n))%nat by lia. change (0, 0)%Z with (Z.of_nat 0, Z.of_nat 0). rewrite E. destruct (fuel - n)%nat; reflexivity.
  Qed.
End M.

(** ** the element distance *)
Definition nondeg3 (a b c : vec) : Prop := forall a3 b3 c3, v3_of a = Some a3 -> v3_of b = Some b3 -> v3_of c = Some c3 -> cross3 (sub3 b3 a3) (sub3 c3 a3) <> zero3.
Definition supported (dim : nat) (el : list vec) : Prop :=
  (exists v, el = [v]) \/ ((dim = 2 \/ dim = 3)%nat /\ exists a b, el = [a; b]) \/ (dim = 3%nat /\ exists a b c, el = [a; b; c] /\ nondeg3 a b c).

Lemma len2 (v : vec) : length v = 2%nat -> exists x y, v = [x; y]. Proof. destruct v as [|? [|? [|? ?]]]; try discriminate. eauto. Qed.
Lemma len3 (v : vec) : length v = 3%nat -> exists x y z, v = [x; y; z]. Proof. destruct v as [|? [|? [|? [|? ?]]]]; try discriminate. eauto. Qed.
Ltac lastj := let j := fresh in let J := fresh in intros j J; destruct j as [|[|[|j]]]; try (exfalso; cbn in J; lia); cbn; ring.

(** segments below the threshold too: the returned point is always a point of the segment *)
Lemma seg3_attained p a b : let '(d, (x, y)) := sqd_segment3 p a b in 0 <= x /\ 0 <= y /\ x + y = 1 /\ d = d2 p (conv2 a b x y).
Proof.
  destruct (Rlt_dec (norm3 (sub3 b a)) (1/10000000000)) as [L|L].
  - unfold sqd_segment3. destruct Rlt_dec; [|contradiction]. split; [lra|]. split; [lra|]. split; [lra|]. unfold d2, conv2, dot3, sub3, add3, scal3, X, Y, Zc; cbn; ring.
  - pose proof (sqd_segment3_ok p a b ltac:(right; lra)) as H. destruct (sqd_segment3 p a b) as [d [x y]]. tauto.
Qed.

Lemma eldist_contract dim p el : length p = dim -> Forall (fun v => length v = dim) el -> supported dim el ->
  exists d l x, squared_distance_to_element p el = Ok (d, l) /\ combo dim l el x /\ d = dist2 p x.
Proof.
  intros Lp F [(v & -> )|[(DD & a & b & -> )|(D3 & a & b & c & -> & ND)]].
  - inversion F; subst. exists (fst (sqd_point p v)), [1], v. split; [reflexivity|]. split.
    + split; [auto|]. split; [reflexivity|]. split; [apply Forall_cons; [lra|apply Forall_nil]|]. split; [cbn; ring|]. intros j J. cbn. ring.
    + unfold sqd_point; cbn [fst]. unfold dist2. clear. revert v. induction p as [|x p IH]; intros [|y v]; cbn; auto. rewrite IH. ring.
  - inversion F as [|? ? La F']; subst. inversion F' as [|? ? Lb _]; subst. destruct DD as [DD|DD].
    + rewrite DD in *. destruct (len2 _ DD) as (p0 & p1 & ->). destruct (len2 _ La) as (a0 & a1 & ->). destruct (len2 _ Lb) as (b0 & b1 & ->).
      cbn [squared_distance_to_element v2_of]. pose proof (seg3_attained (pad (p0,p1)) (pad (a0,a1)) (pad (b0,b1))) as H.
      unfold sqd_segment2. destruct (sqd_segment3 _ _ _) as [d [x y]]. destruct H as (X0 & Y0 & S & Q).
      exists d, [x; y], [x * a0 + y * b0; x * a1 + y * b1]. split; [reflexivity|]. split.
      * split; [reflexivity|]. split; [reflexivity|]. split; [repeat (apply Forall_cons; [assumption|]); apply Forall_nil|]. split; [cbn; lra|]. lastj.
      * rewrite Q. unfold d2, conv2, dist2, pad, dot3, sub3, add3, scal3, X, Y, Zc; cbn. ring.
    + rewrite DD in *. destruct (len3 _ DD) as (p0 & p1 & p2 & ->). destruct (len3 _ La) as (a0 & a1 & a2 & ->). destruct (len3 _ Lb) as (b0 & b1 & b2 & ->).
      cbn [squared_distance_to_element v2_of v3_of]. pose proof (seg3_attained (p0,p1,p2) (a0,a1,a2) (b0,b1,b2)) as H.
      destruct (sqd_segment3 _ _ _) as [d [x y]]. destruct H as (X0 & Y0 & S & Q).
      exists d, [x; y], [x * a0 + y * b0; x * a1 + y * b1; x * a2 + y * b2]. split; [reflexivity|]. split.
      * split; [reflexivity|]. split; [reflexivity|]. split; [repeat (apply Forall_cons; [assumption|]); apply Forall_nil|]. split; [cbn; lra|]. lastj.
      * rewrite Q. unfold d2, conv2, dist2, dot3, sub3, add3, scal3, X, Y, Zc; cbn. ring.
  - inversion F as [|? ? La F']; subst. inversion F' as [|? ? Lb F'']; subst. inversion F'' as [|? ? Lc _]; subst. rewrite D3 in *.
    destruct (len3 _ D3) as (p0 & p1 & p2 & ->). destruct (len3 _ La) as (a0 & a1 & a2 & ->). destruct (len3 _ Lb) as (b0 & b1 & b2 & ->). destruct (len3 _ Lc) as (c0 & c1 & c2 & ->).
    cbn [squared_distance_to_element v3_of]. pose proof (sqd_triangle_ok (p0,p1,p2) (a0,a1,a2) (b0,b1,b2) (c0,c1,c2) (ND _ _ _ eq_refl eq_refl eq_refl)) as H.
    destruct (sqd_triangle _ _ _ _) as [d [[x y] z]]. destruct H as (X0 & Y0 & Z0 & S & Q & _).
    exists d, [x; y; z], [x * a0 + y * b0 + z * c0; x * a1 + y * b1 + z * c1; x * a2 + y * b2 + z * c2]. split; [reflexivity|]. split.
    + split; [reflexivity|]. split; [reflexivity|]. split; [repeat (apply Forall_cons; [assumption|]); apply Forall_nil|]. split; [cbn; lra|]. lastj.
    + rewrite Q. unfold d2, conv3, dist2, dot3, sub3, add3, scal3, X, Y, Zc; cbn. ring.
Qed.

(** ** assembled *)
Definition dval (p : vec) (el : list vec) : R := match squared_distance_to_element p el with Ok (d, _) => d | _ => 0 end.
Definition lval (p : vec) (el : list vec) : list R := match squared_distance_to_element p el with Ok (_, l) => l | _ => [] end.
Section A.
  Variables (dim : nat) (V : list vec) (F : list (list Z)) (p : vec).
  Hypothesis VM : valid_mesh dim V F.
  Hypothesis LP : length p = dim.
  Hypothesis SP : forall e, (e < length F)%nat -> supported dim (vert_of V F e).
  Let els := map (map (fun i => nth (Z.to_nat i) V [])) F.
  Definition eld (i : Z) : res (R * list R) := do el <- lift IndexError (getZ els i); squared_distance_to_element p el.
  Lemma vert_len e : (e < length F)%nat -> Forall (fun v => length v = dim) (vert_of V F e).
  Proof using VM. clear LP SP.
    intros E. destruct VM as (_ & _ & _ & VD & FV). unfold vert_of. apply Forall_map, Forall_forall. intros i I. rewrite Forall_forall in FV, VD.
    specialize (FV _ (nth_In _ [] E)). rewrite Forall_forall in FV. specialize (FV i I). apply VD, nth_In. lia.
  Qed.
  Lemma eld_ok e : (e < length F)%nat -> eld (Z.of_nat e) = Ok (dval p (vert_of V F e), lval p (vert_of V F e)).
  Proof.
    intros E. unfold eld. rewrite getZ_nat. rewrite (nth_error_nth' els []) by (unfold els; rewrite map_length; auto). cbn [lift bind].
    unfold els. rewrite <- vert_of_els. unfold dval, lval. destruct (eldist_contract dim p _ LP (vert_len e E) (SP e E)) as (d & l & x & -> & _). reflexivity.
  Qed.
  Lemma eld_hull e : (e < length F)%nat -> exists ws x, combo dim ws (vert_of V F e) x /\ dval p (vert_of V F e) = dist2 p x.
  Proof. intros E. unfold dval. destruct (eldist_contract dim p _ LP (vert_len e E) (SP e E)) as (d & l & x & -> & H & Q). eauto. Qed.
End A.
