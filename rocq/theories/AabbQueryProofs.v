From Coq Require Import Reals Lra Psatz ZArith List Bool Permutation Lia Arith.
From Verif Require Import NumpyModel TopoModel PyExn Vec GeomModel GeomProofs LoopsModel SubdivModel SubdivProofs Subdiv2Proofs SqDistModel SqDistProofs AabbModel AabbSpec AabbProofs AabbBuildProofs AabbTreeProofs.
Import ListNotations.
Open Scope R_scope.

(** squared distance of rows *)
Definition dist2 (p x : vec) : R := dotl (subl p x) (subl p x).
(** the convex combination of the rows [vs] with weights [ws] *)
Fixpoint wsum (ws : list R) (vs : list vec) (j : nat) : R :=
  match ws, vs with w :: ws', v :: vs' => w * nth j v 0 + wsum ws' vs' j | _, _ => 0 end.
Definition combo (dim : nat) (ws : list R) (vs : list vec) (x : vec) : Prop :=
  length x = dim /\ length ws = length vs /\ Forall (fun w => 0 <= w) ws /\ fold_right Rplus 0 ws = 1 /\ forall j, (j < dim)%nat -> nth j x 0 = wsum ws vs j.

Lemma combo_box dim ws vs x c w : combo dim ws vs x -> (forall v, In v vs -> in_box dim c w v) -> in_box dim c w x.
Proof.
  intros (_ & L & P & S & X) H j J. rewrite (X j J). 
  enough (G : forall ws vs, length ws = length vs -> Forall (fun w => 0 <= w) ws -> (forall v, In v vs -> in_box dim c w v) ->
     fold_right Rplus 0 ws * (nth j c 0 - nth j w 0 / 2) <= wsum ws vs j <= fold_right Rplus 0 ws * (nth j c 0 + nth j w 0 / 2)).
  { specialize (G ws vs L P H). rewrite S in G. lra. }
  clear - J. induction ws as [|a ws IH]; intros [|v vs] L P H; cbn in *; try discriminate; [lra|].
  inversion P; subst. specialize (IH vs ltac:(lia) H3 ltac:(auto)). pose proof (H v (or_introl eq_refl) j J) as B. nra.
Qed.

Lemma in_box_cons n a b x c w v : in_box (S n) (a :: c) (b :: w) (x :: v) -> a - b / 2 <= x <= a + b / 2 /\ in_box n c w v.
Proof. intros H. split; [apply (H O); lia|]. intros j J. apply (H (S j)). lia. Qed.
Lemma sq_le x y : 0 <= x -> x <= Rabs y -> x * x <= y * y.
Proof. intros A B. replace (y * y) with (Rabs y * Rabs y) by (rewrite <- Rabs_mult, Rabs_pos_eq; [auto|apply Rle_0_sqr]). nra. Qed.

Definition qvec (p c w : vec) : vec := map2 (fun a b => a - 0.5 * b) (map Rabs (map2 Rminus p c)) w.
Lemma qsum_le dim : forall p c w x, length p = dim -> length c = dim -> length w = dim -> length x = dim -> in_box dim c w x ->
  fold_right Rplus 0 (map (fun x => Rmax x 0 * Rmax x 0) (qvec p c w)) <= dist2 p x.
Proof.
  unfold qvec, dist2. induction dim as [|n IH]; intros [|p0 p] [|c0 c] [|w0 w] [|x0 x] Lp Lc Lw Lx B; try discriminate; [cbn; lra|].
  apply in_box_cons in B as [B0 B]. cbn [map2 map fold_right subl dotl]. apply Rplus_le_compat; [|apply IH; auto].
  apply sq_le; [apply Rmax_r|]. apply Rmax_lub; [|apply Rabs_pos]. unfold Rabs. destruct Rcase_abs; destruct Rcase_abs; lra.
Qed.
Lemma qsum_zero q : (forall x, In x q -> x <= 0) -> fold_right Rplus 0 (map (fun x => Rmax x 0 * Rmax x 0) q) = 0.
Proof. induction q; cbn; intros H; auto. rewrite IHq by auto. rewrite Rmax_right by auto. lra. Qed.
Lemma fold_max_ge r : forall x y, In y (x :: r) -> y <= fold_left Rmax r x.
Proof.
  induction r as [|a r IH]; intros x y H; cbn in *; [destruct H as [ -> |[]]; lra|].
  destruct H as [ -> |[ -> |H]]; [eapply Rle_trans; [apply Rmax_l|apply IH; now left]|eapply Rle_trans; [apply Rmax_r|apply IH; now left]|apply IH; now right].
Qed.
Lemma fold_max_le r : forall x b, x <= b -> (forall y, In y r -> y <= b) -> fold_left Rmax r x <= b.
Proof. induction r as [|a r IH]; intros x b H K; cbn; auto. apply IH; [apply Rmax_lub; auto; apply K; now left|intros; apply K; now right]. Qed.
Lemma sdBox_le dim p c w x : length p = dim -> length c = dim -> length w = dim -> length x = dim -> in_box dim c w x ->
  sign (sdBox p c w) * (sdBox p c w * sdBox p c w) <= dist2 p x.
Proof.
  intros Lp Lc Lw Lx B. pose proof (qsum_le dim p c w x Lp Lc Lw Lx B) as Q. 
  assert (D0 : 0 <= dist2 p x) by (unfold dist2; apply dotl_nonneg).
  set (s := sdBox p c w). unfold sign. destruct (Rlt_dec s 0) as [S|S]; [pose proof (Rle_0_sqr s); unfold Rsqr in *; lra|].
  destruct (Rgt_dec s 0) as [S'|S']; [|lra]. rewrite Rmult_1_l.
  unfold s, sdBox in *. fold (qvec p c w) in *. set (q := qvec p c w) in *.
  set (sm := fold_right Rplus 0 (map (fun x => Rmax x 0 * Rmax x 0) q)) in *.
  assert (SM : 0 <= sm).
  { unfold sm. clear. induction q; cbn; [lra|]. pose proof (Rle_0_sqr (Rmax a 0)). unfold Rsqr in *. lra. }
  destruct q as [|x0 q0] eqn:EQ.
  - rewrite Rplus_0_r in *. rewrite sqrt_sqrt by auto. exact Q.
  - set (mv := fold_left Rmax q0 x0) in *. destruct (Rle_dec mv 0) as [M|M].
    + assert (Z : sm = 0) by (apply qsum_zero; intros y Y; eapply Rle_trans; [apply fold_max_ge; exact Y|exact M]).
      rewrite Z, sqrt_0 in S'. rewrite Rmin_left in S' by auto. lra.
    + rewrite Rmin_right by lra. rewrite Rplus_0_r, sqrt_sqrt by auto. exact Q.
Qed.
Lemma ptb_le dim : forall p c w x, length p = dim -> length c = dim -> length w = dim -> length x = dim -> in_box dim c w x -> ptb_sum p c w <= dist2 p x.
Proof.
  unfold dist2. induction dim as [|n IH]; intros [|p0 p] [|c0 c] [|w0 w] [|x0 x] Lp Lc Lw Lx B; try discriminate; [cbn; lra|].
  apply in_box_cons in B as [B0 B]. cbn [ptb_sum subl dotl]. apply Rplus_le_compat; [|apply IH; auto].
  destruct Rlt_dec; [nra|]. destruct Rgt_dec; [nra|]. pose proof (Rle_0_sqr (p0 - x0)). unfold Rsqr in *. lra.
Qed.
Lemma ptbd_le dim p c w x : length p = dim -> length c = dim -> length w = dim -> length x = dim -> in_box dim c w x -> point_to_box_distance p c w <= sqrt (dist2 p x).
Proof. intros. unfold point_to_box_distance. apply sqrt_le_1_alt. eapply ptb_le; eauto. Qed.
Lemma comp_le_norm a b y : In y (map Rabs (map2 Rminus a b)) -> y <= sqrt (dist2 a b).
Proof.
  intros H. rewrite <- (sqrt_square y) by (apply in_map_iff in H as (z & <- & _); apply Rabs_pos). apply sqrt_le_1_alt.
  revert b H. unfold dist2. induction a as [|x a IH]; intros [|z b] H; cbn in *; try contradiction.
  pose proof (dotl_nonneg (subl a b)). destruct H as [ <- |H].
  - rewrite <- Rabs_mult, Rabs_pos_eq by apply Rle_0_sqr. lra.
  - specialize (IH b H). pose proof (Rle_0_sqr (x - z)). unfold Rsqr in *. lra.
Qed.
Lemma gap_le dim c1 w1 c2 w2 x y : (0 < dim)%nat -> length c1 = dim -> length w1 = dim -> length c2 = dim -> length w2 = dim -> length x = dim -> length y = dim ->
  in_box dim c1 w1 x -> in_box dim c2 w2 y -> exists g, box_gap c1 w1 c2 w2 = Some g /\ g <= sqrt (dist2 x y).
Proof.
  intros DP L1 L2 L3 L4 Lx Ly B1 B2.
  assert (G : forall z, In z (map2 Rminus (map Rabs (map2 Rminus c1 c2)) (map (fun x => x / 2) (map2 Rplus w1 w2))) -> exists u, In u (map Rabs (map2 Rminus x y)) /\ z <= u).
  { clear DP. revert c1 w1 c2 w2 x y L1 L2 L3 L4 Lx Ly B1 B2. induction dim as [|n IH]; intros [|a c1] [|b w1] [|a2 c2] [|b2 w2] [|x0 x] [|y0 y] L1 L2 L3 L4 Lx Ly B1 B2; try discriminate; [contradiction|].
    apply in_box_cons in B1 as [B1 B1']. apply in_box_cons in B2 as [B2 B2']. cbn [map2 map In]. intros z [ <- |H].
    - exists (Rabs (x0 - y0)). split; [now left|]. unfold Rabs. destruct Rcase_abs; destruct Rcase_abs; lra.
    - destruct (IH c1 w1 c2 w2 x y ltac:(auto) ltac:(auto) ltac:(auto) ltac:(auto) ltac:(auto) ltac:(auto) B1' B2' z H) as (u & U & Z). exists u. split; auto. }
  unfold box_gap. destruct (map2 Rminus (map Rabs (map2 Rminus c1 c2)) (map (fun x => x / 2) (map2 Rplus w1 w2))) as [|z r] eqn:E.
  - exfalso. destruct c1, c2, w1, w2; cbn in *; try discriminate; lia.
  - eexists; split; [reflexivity|]. apply fold_max_le; [|intros v V].
    + destruct (G z ltac:(now left)) as (u & U & Zu). eapply Rle_trans; [exact Zu|apply comp_le_norm; exact U].
    + destruct (G v ltac:(now right)) as (u & U & Zu). eapply Rle_trans; [exact Zu|apply comp_le_norm; exact U].
Qed.

(** ** the tree as a tree *)
Inductive bt := BL (e : Z) | BN (l r : bt).
Fixpoint elems (t : bt) : list Z := match t with BL e => [e] | BN l r => elems l ++ elems r end.
Fixpoint size (t : bt) : nat := match t with BL _ => 1 | BN l r => S (size l + size r) end.
Inductive rep (T : list node) : nat -> bt -> Prop :=
| rep_leaf j nd : nth_error T j = Some nd -> leaf nd -> rep T j (BL (nT nd))
| rep_node j nd a b l r : nth_error T j = Some nd -> nCH nd = (Z.of_nat a, Z.of_nat b) -> rep T a l -> rep T b r -> rep T j (BN l r).
Lemma rep_under T j t : rep T j t -> forall e, In e (elems t) -> under T j e.
Proof.
  induction 1; cbn; intros e I; [destruct I as [ <- |[]]; econstructor; eauto|].
  apply in_app_or in I as [I|I]; [eapply under_left; eauto|eapply under_right; eauto].
Qed.
Lemma under_rep T j e : under T j e -> forall t, rep T j t -> In e (elems t).
Proof.
  induction 1 as [j nd H L|j nd a b e H C U IH|j nd a b e H C U IH]; intros t RT; inversion RT; subst; cbn.
  - left. congruence.
  - exfalso. unfold leaf in L. assert (nd0 = nd) by congruence. subst. rewrite L in *. match goal with H : (_, _) = (_, _) |- _ => injection H end. lia.
  - exfalso. match goal with H : leaf _ |- _ => unfold leaf in H end. assert (nd0 = nd) by congruence. subst. rewrite C in *. match goal with H : (_, _) = (_, _) |- _ => injection H end. lia.
  - assert (nd0 = nd) by congruence. subst. rewrite C in *. match goal with H : (_, _) = (_, _) |- _ => injection H; intros Q1 Q2; apply Nat2Z.inj in Q1, Q2 end. subst. apply in_or_app; auto.
  - exfalso. match goal with H : leaf _ |- _ => unfold leaf in H end. assert (nd0 = nd) by congruence. subst. rewrite C in *. match goal with H : (_, _) = (_, _) |- _ => injection H end. lia.
  - assert (nd0 = nd) by congruence. subst. rewrite C in *. match goal with H : (_, _) = (_, _) |- _ => injection H; intros Q1 Q2; apply Nat2Z.inj in Q1, Q2 end. subst. apply in_or_app; auto.
Qed.
Lemma rep_exists dim m vert T : bvh dim m vert T -> forall j, (j < length T)%nat -> exists t, rep T j t.
Proof.
  intros B j. remember (length T - j)%nat as r. revert j Heqr. induction r as [r IH] using lt_wf_ind. intros j ER J.
  destruct (nth_error T j) as [nd|] eqn:N; [|apply nth_error_None in N; lia].
  destruct (bvh_node _ _ _ _ B j nd N) as [(L & _)|(_ & _ & a & b & na & nb & C & JA & AB & NA & NB & _)].
  - exists (BL (nT nd)). econstructor; eauto.
  - assert (a < length T)%nat by (apply nth_error_Some; congruence). assert (b < length T)%nat by (apply nth_error_Some; congruence).
    destruct (IH (length T - a)%nat ltac:(lia) a eq_refl) as (tl & Rl); auto. destruct (IH (length T - b)%nat ltac:(lia) b eq_refl) as (tr & Rr); auto; try lia.
    exists (BN tl tr). econstructor; eauto.
Qed.
Lemma rep_nodup dim m vert T : bvh dim m vert T -> forall j t, rep T j t -> NoDup (elems t) /\ (forall e, In e (elems t) -> exists k, (k < m)%nat /\ e = Z.of_nat k).
Proof.
  intros B. induction 1 as [j nd N L|j nd a b l r N C RL [NL VL] RR [NR VR]].
  - cbn. split; [constructor; [auto|constructor]|]. intros e [ <- |[]]. destruct (bvh_node _ _ _ _ B j nd N) as [(_ & _ & e & E & Q)|(_ & _ & a & b & na & nb & C & _)]; [eauto|].
    unfold leaf in L. rewrite L in C. injection C. lia.
  - cbn [elems]. split.
    + apply NoDup_app_iff. split; auto. split; auto. intros e I1 I2.
      destruct (bvh_node _ _ _ _ B j nd N) as [(L & _)|(_ & _ & a' & b' & na & nb & C' & _ & _ & _ & _ & _ & _ & _ & _ & DJ)].
      * unfold leaf in L. rewrite L in C. injection C. lia.
      * rewrite C in C'. injection C'. intros Q1 Q2. apply Nat2Z.inj in Q1, Q2. subst. apply (DJ e); eapply rep_under; eauto.
    + intros e I. apply in_app_or in I as [I|I]; auto.
Qed.
Lemma size_elems t : (size t = 2 * length (elems t) - 1 /\ 1 <= length (elems t))%nat.
Proof. induction t; cbn [size elems length]; rewrite ?app_length; lia. Qed.
Lemma size_root dim m vert T t : bvh dim m vert T -> rep T 0 t -> (size t <= 2 * m - 1)%nat.
Proof.
  intros B RT. destruct (rep_nodup _ _ _ _ B _ _ RT) as [ND VL]. destruct (size_elems t) as [S _]. rewrite S.
  assert (length (elems t) <= length (map Z.of_nat (seq 0 m)))%nat; [|rewrite map_length, seq_length in *; lia].
  apply NoDup_incl_length; auto. intros e I. destruct (VL e I) as (k & K & ->). apply in_map, in_seq. lia.
Qed.

(** ** the closest point traversal *)
Definition opt_le (b : option R) (x : R) : Prop := match b with None => False | Some y => y <= x end.
Definition opt_better (b' b : option R) : Prop := match b with None => True | Some y => opt_le b' y end.
Lemma opt_better_refl b : opt_better b b. Proof. destruct b; cbn; auto; lra. Qed.
Lemma opt_better_trans a b c : opt_better a b -> opt_better b c -> opt_better a c.
Proof. destruct a, b, c; cbn; auto; try tauto; lra. Qed.
Lemma opt_le_better a b x : opt_better a b -> opt_le b x -> opt_le a x.
Proof. destruct a, b; cbn; try tauto; lra. Qed.
Lemma lt_best_true x b : lt_best x b = true -> opt_better (Some x) b.
Proof. destruct b; cbn; auto. destruct Rlt_dec; [lra|discriminate]. Qed.
Lemma lt_best_false x b : lt_best x b = false -> opt_le b x.
Proof. destruct b; cbn; try discriminate. destruct Rlt_dec; [discriminate|lra]. Qed.

Lemma getZ_nat {P} (X : list P) j : getZ X (Z.of_nat j) = nth_error X j.
Proof.
  unfold getZ, norm_index. destruct (Z.leb_spec 0 (Z.of_nat j)); [|lia]. destruct (Z.ltb_spec (Z.of_nat j) (Z.of_nat (length X))); cbn [andb].
  - rewrite Nat2Z.id. reflexivity.
  - destruct (Z.leb_spec (- Z.of_nat (length X)) (Z.of_nat j)); cbn; destruct (Z.ltb_spec (Z.of_nat j) 0); try lia; symmetry; apply nth_error_None; lia.
Qed.

Section Q.
  Variables (dim m : nat) (vert : nat -> list vec) (T : list node) (p : vec) (eldist : Z -> res (R * list R)).
  Variables (D : nat -> R) (Lm : nat -> list R).
  Hypothesis BV : bvh dim m vert T.
  Hypothesis LN : forall j nd, nth_error T j = Some nd -> length (nC nd) = dim /\ length (nW nd) = dim.
  Hypothesis LP : length p = dim.
  Hypothesis ED : forall e, (e < m)%nat -> eldist (Z.of_nat e) = Ok (D e, Lm e).
  Hypothesis DH : forall e, (e < m)%nat -> exists ws x, combo dim ws (vert e) x /\ D e = dist2 p x.

  Lemma leaf_test nd : leaf nd -> (snd (nCH nd) =? -1)%Z = true. Proof using. intros L. rewrite L. reflexivity. Qed.
  Lemma node_test nd a b : nCH nd = (Z.of_nat a, Z.of_nat b) -> (snd (nCH nd) =? -1)%Z = false.
  Proof using. clear LP. intros L. rewrite L. cbn [snd]. apply Z.eqb_neq. lia. Qed.
  Lemma under_lt j e : under T j e -> exists k, (k < m)%nat /\ e = Z.of_nat k.
  Proof using BV. clear LP.
    induction 1 as [j nd N L| |]; auto. destruct (bvh_node _ _ _ _ BV j nd N) as [(_ & _ & e & E & Q)|(_ & _ & a & b & na & nb & C & _)]; [eauto|].
    unfold leaf in L. rewrite L in C. injection C. lia.
  Qed.
  Lemma box_bound j nd e : nth_error T j = Some nd -> under T j (Z.of_nat e) -> (e < m)%nat ->
    sign (sdBox p (nC nd) (nW nd)) * (sdBox p (nC nd) (nW nd) * sdBox p (nC nd) (nW nd)) <= D e /\ point_to_box_distance p (nC nd) (nW nd) <= sqrt (D e).
  Proof.
    intros N U E. destruct (DH e E) as (ws & x & H & ->). destruct (LN _ _ N) as [L1 L2].
    assert (IB : in_box dim (nC nd) (nW nd) x) by (eapply combo_box; [exact H|]; intros v V; eapply (bvh_box _ _ _ _ BV); eauto).
    destruct H as (Lx & _). split; [eapply sdBox_le; eauto|eapply ptbd_le; eauto].
  Qed.

  (** what visiting a subtree does to the state *)
  Definition upd (es : list Z) (st st' : tstate) : Prop :=
    let '(b, i, l) := st in let '(b', i', l') := st' in
    (forall k, In (Z.of_nat k) es -> opt_le b' (D k)) /\ opt_better b' b /\
    (st' = st \/ exists k, (k < m)%nat /\ In (Z.of_nat k) es /\ b' = Some (D k) /\ i' = Z.of_nat k /\ l' = Lm k).
  Lemma upd_app e1 e2 e s1 s2 s3 : (forall k, In k e <-> In k e1 \/ In k e2) -> upd e1 s1 s2 -> upd e2 s2 s3 -> upd e s1 s3.
  Proof.
    intros HE. destruct s1 as [[b1 i1] l1], s2 as [[b2 i2] l2], s3 as [[b3 i3] l3]. intros (A1 & A2 & A3) (C1 & C2 & C3). repeat split.
    - intros k I. apply HE in I as [I|I]; auto. eapply opt_le_better; eauto.
    - eapply opt_better_trans; eauto.
    - destruct C3 as [C3|(k & K & I & Q)]; [injection C3; intros; subst|right; exists k; rewrite HE; tauto].
      destruct A3 as [ -> |(k & K & I & Q)]; [now left|right; exists k; rewrite HE; tauto].
  Qed.

  Lemma traverse_sub j t : rep T j t -> forall st, exists n st', (n <= size t)%nat /\ upd (elems t) st st' /\
    forall fuel queue, traverse T eldist p (n + fuel) (Z.of_nat j :: queue) st = traverse T eldist p fuel queue st'.
  Proof.
    induction 1 as [j nd N L|j nd a b l r N C RL IHl RR IHr]; intros [[best bi] bl].
    - destruct (under_lt j (nT nd)) as (k & K & EK); [econstructor; eauto|].
      exists 1%nat, (if lt_best (D k) best then (Some (D k), nT nd, Lm k) else (best, bi, bl)). split; [cbn; lia|]. split.
      + cbn [elems]. rewrite EK. destruct (lt_best (D k) best) eqn:LB.
        * repeat split.
          -- intros k' [I|[]]. apply Nat2Z.inj in I. subst. cbn. lra.
          -- apply lt_best_true; auto.
          -- right. exists k. cbn. auto.
        * repeat split; [|apply opt_better_refl|now left]. intros k' [I|[]]. apply Nat2Z.inj in I. subst. apply lt_best_false; auto.
      + intros fuel queue. cbn [Nat.add traverse]. rewrite getZ_nat, N. cbn [lift bind]. rewrite (leaf_test _ L), EK, ED by auto. cbn [bind]. reflexivity.
    - set (s := sdBox p (nC nd) (nW nd)). destruct (lt_best (sign s * (s * s)) best) eqn:LB.
      + assert (SD : (0 <= nS nd < Z.of_nat dim)%Z).
        { destruct (bvh_node _ _ _ _ BV j nd N) as [(L & _)|(_ & S & _)]; auto. unfold leaf in L. rewrite L in C. injection C. lia. }
        destruct (LN _ _ N) as [L1 L2].
        destruct (Rlt_dec (nth (Z.to_nat (nS nd)) p 0 - nth (Z.to_nat (nS nd)) (nC nd) 0) 0) as [W|W] eqn:EW.
        * destruct (IHl (best, bi, bl)) as (n1 & s1 & K1 & U1 & E1). destruct (IHr s1) as (n2 & s2 & K2 & U2 & E2).
          exists (S (n1 + n2))%nat, s2. split; [cbn; lia|]. split; [eapply upd_app; eauto; intros k; cbn; apply in_app_iff|].
          intros fuel queue. replace (S (n1 + n2) + fuel)%nat with (S (n1 + (n2 + fuel))) by lia. cbn [traverse]. rewrite getZ_nat, N. cbn [lift bind].
          rewrite (node_test _ _ _ C). fold s. rewrite LB. rewrite (getZ_ok p _ 0) by lia. rewrite (getZ_ok (nC nd) _ 0) by lia. cbn [lift bind]. rewrite C, EW. rewrite E1. apply E2.
        * destruct (IHr (best, bi, bl)) as (n1 & s1 & K1 & U1 & E1). destruct (IHl s1) as (n2 & s2 & K2 & U2 & E2).
          exists (S (n1 + n2))%nat, s2. split; [cbn; lia|]. split; [eapply upd_app; eauto; intros k; cbn; rewrite in_app_iff; tauto|].
          intros fuel queue. replace (S (n1 + n2) + fuel)%nat with (S (n1 + (n2 + fuel))) by lia. cbn [traverse]. rewrite getZ_nat, N. cbn [lift bind].
          rewrite (node_test _ _ _ C). fold s. rewrite LB. rewrite (getZ_ok p _ 0) by lia. rewrite (getZ_ok (nC nd) _ 0) by lia. cbn [lift bind]. rewrite C, EW. rewrite E1. apply E2.
      + exists 1%nat, (best, bi, bl). split; [cbn; lia|]. split.
        * repeat split; [|apply opt_better_refl|now left]. intros k I.
          assert (U : under T j (Z.of_nat k)) by (eapply rep_under; [econstructor; eauto|exact I]).
          destruct (under_lt _ _ U) as (k' & K & EK). apply Nat2Z.inj in EK. subst k'. pose proof (proj1 (box_bound _ _ _ N U K)). fold s in H.
          apply lt_best_false in LB. destruct best; cbn in *; [lra|auto].
        * intros fuel queue. cbn [Nat.add traverse]. rewrite getZ_nat, N. cbn [lift bind]. rewrite (node_test _ _ _ C). fold s. rewrite LB. reflexivity.
  Qed.

  Lemma traverse_root : (0 < m)%nat -> exists k, (k < m)%nat /\ (forall e, (e < m)%nat -> D k <= D e) /\
    forall fuel, (2 * m - 1 <= fuel)%nat -> traverse T eldist p fuel [0%Z] (None, (-1)%Z, []) = Ok (Some (D k), Z.of_nat k, Lm k).
  Proof.
    intros M. destruct (rep_exists _ _ _ _ BV 0) as (t & RT); [rewrite (bvh_size _ _ _ _ BV); lia|].
    destruct (traverse_sub 0 t RT (None, (-1)%Z, [])) as (n & [[b i] l] & NS & (U1 & U2 & U3) & E).
    assert (ALL : forall e, (e < m)%nat -> In (Z.of_nat e) (elems t)) by (intros e K; eapply under_rep; [apply (bvh_all _ _ _ _ BV); auto|exact RT]).
    destruct U3 as [U3|(k & K & I & -> & -> & ->)].
    - exfalso. injection U3 as -> -> ->. apply (U1 O). apply ALL. lia.
    - exists k. split; auto. split; [intros e K'; apply (U1 e), ALL; auto|]. intros fuel F.
      pose proof (size_root _ _ _ _ _ BV RT). replace fuel with (n + (fuel - n))%nat by lia. change 0%Z with (Z.of_nat 0). rewrite E. destruct (fuel - n)%nat; reflexivity.
  Qed.

  (** ** brute force *)
  Lemma brute_ok k0 : (k0 <= m)%nat -> forall best bi bl, (forall e, (e < m - k0)%nat -> opt_le best (D e)) -> (best = None \/ exists k, (k < m)%nat /\ best = Some (D k) /\ bi = Z.of_nat k /\ bl = Lm k) ->
    exists st', brute eldist (Z.of_nat (m - k0)) k0 (best, bi, bl) = Ok st' /\ (forall e, (e < m)%nat -> opt_le (fst (fst st')) (D e)) /\
      (st' = (best, bi, bl) \/ exists k, (k < m)%nat /\ st' = (Some (D k), Z.of_nat k, Lm k)).
  Proof.
    induction k0 as [|k0 IH]; intros K best bi bl H1 H2.
    - exists (best, bi, bl). split; [reflexivity|]. split; [|now left]. intros e E. apply H1. lia.
    - cbn [brute]. rewrite ED by lia. cbn [bind fst]. replace (Z.of_nat (m - S k0) + 1)%Z with (Z.of_nat (m - k0)) by lia.
      destruct (lt_best (D (m - S k0)) best) eqn:LB.
      + destruct (IH ltac:(lia) (Some (D (m - S k0))) (Z.of_nat (m - S k0)) (Lm (m - S k0))) as (st' & E & A & B).
        * intros e E. destruct (Nat.eq_dec e (m - S k0)) as [ -> |]; [cbn; lra|]. eapply opt_le_better; [apply lt_best_true; exact LB|]. apply H1. lia.
        * right. exists (m - S k0)%nat. repeat split; auto; lia.
        * exists st'. split; auto. split; auto. right. destruct B as [ -> |B]; [exists (m - S k0)%nat; split; auto; lia|auto].
      + apply (IH ltac:(lia) best bi bl); auto. intros e E. destruct (Nat.eq_dec e (m - S k0)) as [ -> |]; [apply lt_best_false; auto|apply H1; lia].
  Qed.
  Lemma brute_root : (0 < m)%nat -> exists k, (k < m)%nat /\ (forall e, (e < m)%nat -> D k <= D e) /\ brute eldist 0 m (None, (-1)%Z, []) = Ok (Some (D k), Z.of_nat k, Lm k).
  Proof.
    intros M. destruct (brute_ok m (Nat.le_refl _) None (-1)%Z []) as (st' & E & A & B); [intros; lia|now left|].
    rewrite Nat.sub_diag in E. cbn in E. destruct B as [ -> |(k & K & -> )]; [exfalso; exact (A O M)|]. exists k. split; auto.
  Qed.

  (** ** Hausdorff inner loop *)
  Definition stop (hd : R) (b : option R) : bool := match b with None => false | Some y => if Rgt_dec y hd then false else true end.
  Lemma hloop_sub hd j t : rep T j t -> forall best, exists n best', (n <= size t)%nat /\ opt_better best' best /\
    ((exists k, (k < m)%nat /\ best' = Some (sqrt (D k))) \/ best' = best) /\
    ((forall k, In (Z.of_nat k) (elems t) -> opt_le best' (sqrt (D k))) \/ stop hd best' = true) /\
    forall fuel queue, hloop T eldist p (n + fuel) hd (Z.of_nat j :: queue) best = hloop T eldist p fuel hd queue best' .
  Proof.
    assert (ST : forall best fuel q queue, stop hd best = true -> hloop T eldist p fuel hd (q :: queue) best = hloop T eldist p fuel hd queue best).
    { intros best fuel q queue S. destruct best as [y|]; [|discriminate]. cbn in S. destruct (Rgt_dec y hd) eqn:RG; [discriminate|].
      destruct fuel, queue; cbn [hloop]; rewrite ?RG; reflexivity. }
    assert (GO : forall best, stop hd best = false -> match best with None => true | Some b => if Rgt_dec b hd then true else false end = true).
    { intros [y|]; cbn; auto. destruct Rgt_dec; auto; discriminate. }
    induction 1 as [j nd N L|j nd a b l r N C RL IHl RR IHr]; intros best.
    - destruct (stop hd best) eqn:SB.
      { exists O, best. split; [lia|]. split; [apply opt_better_refl|]. split; [now right|]. split; [now right|]. intros. apply ST; auto. }
      destruct (under_lt j (nT nd)) as (k & K & EK); [econstructor; eauto|].
      exists 1%nat, (if lt_best (sqrt (D k)) best then Some (sqrt (D k)) else best). split; [cbn; lia|]. 
      split; [destruct (lt_best (sqrt (D k)) best) eqn:LB; [apply lt_best_true; auto|apply opt_better_refl]|].
      split; [destruct lt_best; [left; exists k; auto|now right]|]. split.
      + left. cbn [elems]. rewrite EK. intros k' [I|[]]. apply Nat2Z.inj in I. subst k'. destruct (lt_best (sqrt (D k)) best) eqn:LB; [cbn; lra|apply lt_best_false; auto].
      + intros fuel queue. cbn [Nat.add hloop]. rewrite (GO _ SB). rewrite getZ_nat, N. cbn [lift bind]. rewrite (leaf_test _ L), EK, ED by auto. cbn [bind]. reflexivity.
    - destruct (stop hd best) eqn:SB.
      { exists O, best. split; [lia|]. split; [apply opt_better_refl|]. split; [now right|]. split; [now right|]. intros. apply ST; auto. }
      set (d := point_to_box_distance p (nC nd) (nW nd)). destruct (lt_best d best) eqn:LB.
      + destruct (IHr best) as (n1 & b1 & K1 & B1 & V1 & U1 & E1). destruct (IHl b1) as (n2 & b2 & K2 & B2 & V2 & U2 & E2).
        exists (S (n1 + n2))%nat, b2. split; [cbn; lia|]. split; [eapply opt_better_trans; eauto|]. split; [destruct V2 as [V2| -> ]; auto|]. split.
        * destruct (stop hd b2) eqn:S2; [now right|left]. intros k I. cbn in I. apply in_app_or in I as [I|I].
          -- destruct U2 as [U2|U2]; [auto|discriminate].
          -- destruct U1 as [U1|U1]; [eapply opt_le_better; eauto|]. exfalso.
             destruct b1 as [y1|]; [|discriminate]. cbn in U1, B2. destruct b2 as [y2|]; cbn in B2; [|contradiction]. cbn in S2. destruct (Rgt_dec y1 hd), (Rgt_dec y2 hd); try discriminate. lra.
        * intros fuel queue. replace (S (n1 + n2) + fuel)%nat with (S (n1 + (n2 + fuel))) by lia. cbn [hloop]. rewrite (GO _ SB). rewrite getZ_nat, N. cbn [lift bind].
          rewrite (node_test _ _ _ C). fold d. rewrite LB, C. cbn [fst snd]. rewrite E1. apply E2.
      + exists 1%nat, best. split; [cbn; lia|]. split; [apply opt_better_refl|]. split; [now right|]. split.
        * left. intros k I. assert (U : under T j (Z.of_nat k)) by (eapply rep_under; [econstructor; eauto|exact I]).
          destruct (under_lt _ _ U) as (k' & K & EK). apply Nat2Z.inj in EK. subst k'. pose proof (proj2 (box_bound _ _ _ N U K)). fold d in H.
          apply lt_best_false in LB. destruct best; cbn in *; [lra|auto].
        * intros fuel queue. cbn [Nat.add hloop]. rewrite (GO _ SB). rewrite getZ_nat, N. cbn [lift bind]. rewrite (node_test _ _ _ C). fold d. rewrite LB. reflexivity.
  Qed.
  (** the value written back: max(hd, min over the elements) *)
  Lemma hloop_root hd : (0 < m)%nat -> exists b, (forall fuel, (2 * m - 1 <= fuel)%nat -> hloop T eldist p fuel hd [0%Z] None = Ok (Some b)) /\
    exists k, (k < m)%nat /\ (forall e, (e < m)%nat -> D k <= D e) /\ (if Rgt_dec b hd then b else hd) = Rmax hd (sqrt (D k)).
  Proof.
    intros M. destruct (rep_exists _ _ _ _ BV 0) as (t & RT); [rewrite (bvh_size _ _ _ _ BV); lia|].
    destruct (hloop_sub hd 0 t RT None) as (n & b & NS & _ & V & U & E).
    assert (ALL : forall e, (e < m)%nat -> In (Z.of_nat e) (elems t)) by (intros e K; eapply under_rep; [apply (bvh_all _ _ _ _ BV); auto|exact RT]).
    assert (HB : exists y, b = Some y /\ exists k, (k < m)%nat /\ y = sqrt (D k)).
    { destruct V as [(k & K & ->)| -> ]; [eauto|]. exfalso. destruct U as [U|U]; [exact (U O (ALL O M))|discriminate]. }
    destruct HB as (y & -> & k1 & K1 & EY). exists y. split.
    - intros fuel F. pose proof (size_root _ _ _ _ _ BV RT). replace fuel with (n + (fuel - n))%nat by lia. change 0%Z with (Z.of_nat 0). rewrite E. destruct (fuel - n)%nat; reflexivity.
    - destruct (brute_root M) as (k & K & MIN & _). exists k. split; auto. split; auto.
      assert (LE : sqrt (D k) <= y) by (rewrite EY; apply sqrt_le_1_alt, MIN; auto).
      destruct U as [U|U].
      + specialize (U k (ALL k K)). cbn in U. assert (y = sqrt (D k)) by lra. subst y. unfold Rmax. rewrite <- H. destruct (Rgt_dec _ hd), (Rle_dec hd _); lra.
      + cbn in U. destruct (Rgt_dec y hd); [discriminate|]. rewrite Rmax_left; lra.
  Qed.
End Q.
