(** C72: min_l1_with_fixed, through either solver, returns a minimiser of the documented problem whenever there is one, given solvers that meet their contracts. *)
From Coq Require Import Reals Lra Psatz.
From Verif Require Import MatModel MatProofs Subdiv3Proofs BiharmProofs Biharm2Proofs NumpyModel PyExn ElastModel L1Model L1Proofs L1Spec L1ScsProofs L1MskProofs.
Open Scope R_scope.

Lemma enorm_nonneg k v : 0 <= enorm k v. Proof. apply sqrt_pos. Qed.
Lemma nth_map_seq (f : nat -> R) m i : (i < m)%nat -> nth i (map f (seq 0 m)) 0 = f i.
Proof. intros H. rewrite (nth_indep _ 0 (f 0%nat)) by (rewrite map_length, seq_length; auto). rewrite (map_nth f), seq_nth by auto. auto. Qed.
Lemma firstn_exact (l r : list R) n : length l = n -> firstn n (l ++ r) = l.
Proof. intros <-. rewrite firstn_app, Nat.sub_diag, firstn_all. cbn. apply app_nil_r. Qed.

(** the solution of the conic program that belongs to u *)
Definition lift_scs (a : l1_args) (n : nat) (u : list R) : list R := u ++ map (gnorm a n u) (seq 0 (gm a n)).
Theorem C72_scs scs a n : scs_contract scs -> valid a n -> (ad a = 1 \/ 0 < nr (the_G a n))%nat ->
  (forall u, min_l1_scs scs a = Ok u -> minimiser a n u)
  /\ ((exists u, minimiser a n u) -> exists u, min_l1_scs scs a = Ok u)
  /\ (forall e, min_l1_scs scs a = Err e -> e = ValueError).
Proof.
  intros SC V DM. assert (DM' : (ad a = 1 \/ 0 < gm a n)%nat). { destruct DM as [|DM]; auto. right. destruct (valid_G a n V) as (_ & E). rewrite E in DM. nia. }
  destruct (scs_prog a n V DM') as (p & EB & WF & NC & FE & VA). unfold min_l1_scs. rewrite EB. cbn [bind]. destruct (SC p WF) as (S1 & S2). destruct (scs p) as [x st] eqn:EX. cbn [fst snd] in S1, S2.
  assert (LIFT : forall u, length u = n -> feasible a u -> scs_feasible p (lift_scs a n u) /\ scs_value p (lift_scs a n u) = objective a n u).
  { intros u Lu Fu. assert (LL : length (lift_scs a n u) = (n + gm a n)%nat) by (unfold lift_scs; rewrite app_length, map_length, seq_length; lia).
    assert (Q : forall i, (i < gm a n)%nat -> nth (n + i) (lift_scs a n u) 0 = gnorm a n u i). { intros i Hi. unfold lift_scs. rewrite <- Lu at 1. rewrite nth_app_add. apply nth_map_seq. auto. }
    assert (QF : firstn n (lift_scs a n u) = u) by (apply firstn_exact; auto). split.
    - apply FE; auto. rewrite QF. split; auto. intros i Hi. rewrite Q by auto. split; [apply enorm_nonneg|lra].
    - rewrite VA by auto. rewrite QF, objective_split, (sumn_ext _ _ (gnorm a n u)) by auto. ring. }
  assert (DOWN : forall x, scs_feasible p x -> length (firstn n x) = n /\ feasible a (firstn n x) /\ objective a n (firstn n x) <= scs_value p x).
  { intros z HF. pose proof HF as (Lz & _). rewrite NC in Lz. split; [rewrite firstn_length; lia|]. apply FE in HF as (HF & HG); auto. split; auto. rewrite objective_split, VA by auto.
    assert (sumn (gm a n) (gnorm a n (firstn n z)) <= sumn (gm a n) (fun i => nth (n + i) z 0)) by (apply sumn_le; intros; apply HG; auto). lra. }
  split; [|split].
  - intros u. destruct (Z.eqb_spec st 1) as [E|]; [|discriminate]. intros H. injection H as <-. destruct (S1 E) as (HF & HO). destruct (DOWN x HF) as (D1 & D2 & D3). split; [auto|]. split; [auto|].
    intros u' Lu' Fu'. destruct (LIFT u' Lu' Fu') as (L1 & L2). specialize (HO _ L1). lra.
  - intros (u & Lu & Fu & Mu). destruct (LIFT u Lu Fu) as (L1 & L2). rewrite S2; [eexists; reflexivity|]. exists (lift_scs a n u). split; auto. intros x' HF. destruct (DOWN x' HF) as (D1 & D2 & D3). specialize (Mu _ D1 D2). lra.
  - intros e. destruct (Z.eqb_spec st 1); [discriminate|]. intros H. injection H as <-. auto.
Qed.

Theorem C72_mosek chol msk a n : msk_contract msk -> valid a n -> (forall Q, aQ a = Some Q -> chol_contract chol Q) -> (forall k, ak a = Some k -> NoDup k) ->
  (forall u, min_l1_mosek chol msk a = Ok u -> minimiser a n u)
  /\ ((exists u, minimiser a n u) -> exists u, min_l1_mosek chol msk a = Ok u)
  /\ (forall e, min_l1_mosek chol msk a = Err e -> e = ValueError).
Proof.
  intros SC V CH ND. destruct (msk_prog chol a n V CH ND) as (p & e & EB & WF & NC & E01 & QZ & FE & VA). unfold min_l1_mosek. rewrite EB. cbn [bind]. destruct (SC p WF) as (S1 & S2). destruct (msk p) as [x st] eqn:EX. cbn [fst snd] in S1, S2.
  assert (OB : forall u, objective a n u = sumn (gm a n) (gnorm a n u) + / 2 * qterm a u + lterm a n u) by (intros u; rewrite objective_split, rest_split; ring).
  set (up := fun u => u ++ map (gnorm a n u) (seq 0 (gm a n)) ++ repeat (/ 2 * qterm a u) e).
  assert (LIFT : forall u, length u = n -> feasible a u -> msk_feasible p (up u) /\ msk_value p (up u) = objective a n u).
  { intros u Lu Fu. assert (LL : length (up u) = k_n p) by (unfold up; rewrite !app_length, map_length, seq_length, repeat_length; lia).
    assert (Q : forall i, (i < gm a n)%nat -> nth (n + i) (up u) 0 = gnorm a n u i).
    { intros i Hi. unfold up. rewrite <- Lu at 1. rewrite nth_app_add, app_nth1 by (rewrite map_length, seq_length; auto). apply nth_map_seq. auto. }
    assert (Q2 : e = 1%nat -> nth (n + gm a n) (up u) 0 = / 2 * qterm a u).
    { intros ->. unfold up. replace (n + gm a n)%nat with (length u + (length (map (gnorm a n u) (seq 0 (gm a n))) + 0))%nat by (rewrite map_length, seq_length; lia). rewrite !nth_app_add. reflexivity. }
    assert (QF : firstn n (up u) = u) by (apply firstn_exact; auto). split.
    - apply FE; auto. rewrite QF. split; auto. split; [intros i Hi; rewrite Q by auto; split; [apply enorm_nonneg|lra]|]. intros E1. rewrite Q2 by auto. lra.
    - rewrite VA by auto. rewrite QF, OB, (sumn_ext _ _ (gnorm a n u)) by auto. destruct E01 as [E0|E1].
      + rewrite (QZ E0). rewrite E0. cbn. ring.
      + rewrite E1. unfold sumn at 2. cbn [sumf seq map fold_right]. cbn. rewrite Nat.add_0_r, Q2 by auto. ring. }
  assert (DOWN : forall x, msk_feasible p x -> length (firstn n x) = n /\ feasible a (firstn n x) /\ objective a n (firstn n x) <= msk_value p x).
  { intros z HF. pose proof HF as (Lz & _). split; [rewrite firstn_length; lia|]. apply FE in HF as (HF & HG & HQ); auto. split; auto. rewrite OB, VA by auto.
    assert (sumn (gm a n) (gnorm a n (firstn n z)) <= sumn (gm a n) (fun i => nth (n + i) z 0)) by (apply sumn_le; intros; apply HG; auto).
    assert (/ 2 * qterm a (firstn n z) <= sumn e (fun i => nth (n + gm a n + i) z 0)).
    { destruct E01 as [E0|E1]; [rewrite (QZ E0), E0; cbn; lra|]. specialize (HQ E1). rewrite E1. unfold sumn. cbn. rewrite Nat.add_0_r. lra. }
    lra. }
  split; [|split].
  - intros u. destruct st; [|discriminate]. intros H. injection H as <-. destruct (S1 eq_refl) as (HF & HO). destruct (DOWN x HF) as (D1 & D2 & D3). split; [auto|]. split; [auto|].
    intros u' Lu' Fu'. destruct (LIFT u' Lu' Fu') as (L1 & L2). specialize (HO _ L1). lra.
  - intros (u & Lu & Fu & Mu). destruct (LIFT u Lu Fu) as (L1 & L2). rewrite S2; [eexists; reflexivity|]. exists (up u). split; auto. intros x' HF. destruct (DOWN x' HF) as (D1 & D2 & D3). specialize (Mu _ D1 D2). lra.
  - intros e'. destruct st; [discriminate|]. intros H. injection H as <-. auto.
Qed.

(** the documented factor L has shape (?,n) with Q = L^T L: such an L is refused by both back ends when it is not square *)
Definition factor_args (L : mat) (n : nat) : l1_args := {| aG := None; aQ := None; aL := Some L; ac := Some (repeat 0 n); ak := None; ay := None; aA := None; ab := None; ad := 1 |}.
Theorem C72_factor_refuted chol scs msk L n : nc L = n -> nr L <> n ->
  min_l1_scs scs (factor_args L n) = Err AssertionError /\ min_l1_mosek chol msk (factor_args L n) = Err AssertionError.
Proof.
  intros E N. unfold min_l1_scs, min_l1_mosek, scs_build, msk_build, infer_n, factor_args, def_G, def_c, check_shapes. cbn [aG aQ aL ac ak ay aA ab ad bind]. rewrite E. cbn [ident nr nc Nat.eqb]. rewrite !Nat.div_1_r, Nat.mul_1_l, !Nat.eqb_refl, repeat_length, !Nat.eqb_refl.
  replace (n mod 1)%nat with 0%nat by (symmetry; apply Nat.mod_1_r). cbn [is_none orb andb assert_ bind Nat.eqb Bool.eqb sq_shape].
  assert (B : Nat.eqb (nr L) n = false) by (apply Nat.eqb_neq; auto).
  split.
  - unfold mul, transpose. cbn [nc nr]. rewrite Nat.eqb_refl. cbn [bind nr nc sq_shape]. rewrite B. reflexivity.
  - cbn [transpose nc]. rewrite B. reflexivity.
Qed.
(** and a square L means Q = L L^T, not L^T L: the value of the documented form differs *)
Theorem C72_factor_order_refuted : exists L u, nr L = 2%nat /\ nc L = 2%nat /\ valid (factor_args L 2) 2 /\
  objective (factor_args L 2) 2 u <> mixed_norm 1 2 (fun i => nth i u 0) + / 2 * sumn 2 (fun i => mv L u i ^ 2).
Proof.
  exists (mkmat 2 2 (fun i j => match i, j with 0%nat, 1%nat => 1 | _, _ => 0 end)), [1; 0]. split; auto. split; auto. split.
  - constructor; cbn; auto; try discriminate; try tauto.
    + split; auto. exists 2%nat. auto.
    + intros L H. injection H as <-. auto.
    + intros c H. injection H as <-. auto.
    + right. right. left. eexists. split; [reflexivity|auto].
  - unfold objective. cbn [factor_args aQ aL ac ad aG the_G nr nc].
    assert (EM : mixed_norm 1 (2 / 1) (mv (mkmat 2 2 (fun i j => if Nat.eqb i j then 1 else 0)) [1; 0]) = mixed_norm 1 2 (fun i => nth i [1; 0] 0)).
    { change (2 / 1)%nat with 2%nat. unfold mixed_norm. apply sumn_ext. intros i Hi. apply enorm_ext. intros j Hj. unfold mv. destruct i as [|[|]]; [| |lia]; (destruct j; [|lia]); unfold sumn; cbn; ring. }
    rewrite EM. set (M := mixed_norm 1 2 _). unfold mv, sumn. cbn. lra.
Qed.

(** without arguments there is nothing to infer the size from; a zero group size divides by zero; Q and L exclude each other *)
Theorem C72_errors chol scs msk a :
  (aG a = None -> aQ a = None -> aL a = None -> ac a = None -> aA a = None -> ak a = None -> min_l1_scs scs a = Err ValueError /\ min_l1_mosek chol msk a = Err ValueError)
  /\ (forall G, aG a = Some G -> ad a = 0%nat -> min_l1_scs scs a = Err ZeroDivisionError /\ min_l1_mosek chol msk a = Err ZeroDivisionError)
  /\ (forall Q L, aQ a = Some Q -> aL a = Some L -> (0 < ad a)%nat -> min_l1_scs scs a = Err AssertionError /\ min_l1_mosek chol msk a = Err AssertionError).
Proof.
  unfold min_l1_scs, min_l1_mosek, scs_build, msk_build. split; [|split].
  - intros H1 H2 H3 H4 H5 H6. unfold infer_n. rewrite H1, H2, H3, H4, H5, H6. auto.
  - intros G H1 H2. unfold infer_n. rewrite H1. cbn [bind]. rewrite H2. auto.
  - intros Q L H1 H2 H3. assert (E : exists n, infer_n a = Ok n) by (unfold infer_n; rewrite H1; destruct (aG a); eauto). destruct E as (n & ->). cbn [bind]. destruct (Nat.eqb_spec (ad a) 0); [lia|]. rewrite H1, H2. auto.
Qed.

(** ** a concrete problem: minimise |u_0| + |u_1| + 1/2 u^T u with u_0 = 1, u_0 + u_1 = 3 *)
Definition ex_a : l1_args := {| aG := None; aQ := Some (ident 1 2); aL := None; ac := None; ak := Some [0%Z]; ay := Some [1]; aA := Some (mkmat 1 2 (fun _ _ => 1)); ab := Some (mkmat 1 1 (fun _ _ => 3)); ad := 1 |}.
Theorem C72_example : valid ex_a 2 /\ minimiser ex_a 2 [1; 2] /\ NoDup [0%Z] /\ chol_contract (fun Q => Ok (ident 1 (nr Q))) (ident 1 2).
Proof.
  split; [|split; [|split]].
  - constructor; cbn; auto; try discriminate; try tauto.
    + split; auto. exists 2%nat. auto.
    + intros Q H. injection H as <-. cbn. split; auto. split; auto. intros i j. cbn. rewrite Nat.eqb_sym. auto.
    + split; auto. constructor; [lia|constructor].
    + right. left. discriminate.
  - assert (U : forall u, length u = 2%nat -> feasible ex_a u -> u = [1; 2]).
    { intros [|u0 [|u1 [|]]] L (F1 & F2); try discriminate L. specialize (F1 _ _ eq_refl eq_refl 0%nat ltac:(cbn; lia)). specialize (F2 _ _ eq_refl eq_refl 0%nat ltac:(cbn; lia)). unfold mv, sumn in F2. cbn in F1, F2. f_equal; [|f_equal]; lra. }
    split; auto. split; [|intros u' L F; rewrite (U u' L F); lra]. split.
    + intros k y Ek Ey j Hj. cbn in Ek, Ey. injection Ek as <-. injection Ey as <-. cbn in Hj. destruct j; [|lia]. reflexivity.
    + intros A b EA EB i Hi. cbn in EA, EB. injection EA as <-. injection EB as <-. cbn in Hi. destruct i; [|lia]. unfold mv, sumn. cbn. lra.
  - repeat constructor. intros [].
  - exists (ident 1 2). split; auto. split; auto. intros i j Hi Hj. cbn in Hi, Hj. destruct i as [|[|]]; [| |lia]; (destruct j as [|[|]]; [| |lia]); unfold sumn; cbn; lra.
Qed.
