From Coq Require Import List Arith ZArith Lia Bool Reals Lra Psatz.
From Verif Require Import PyExn MatModel NumpyModel TopoModel Vec GeomModel GeomSpec MatProofs GeomProofs Geom2Proofs Subdiv3Proofs ElastModel ElastProofs BiharmProofs Biharm2Proofs SolveModel SolveProofs P_Solve P_Elast ElDynModel.
Import ListNotations.
Open Scope R_scope.

(** B(x,y) = x' Q y *)
Definition B2 (n : nat) (Q : matrix) (x y : nat -> R) : R := sumn n (fun i => x i * sumn n (fun j => Q i j * y j)).
Lemma B2_ext n Q x y x' y' : (forall i, (i < n)%nat -> x i = x' i) -> (forall i, (i < n)%nat -> y i = y' i) -> B2 n Q x y = B2 n Q x' y'.
Proof. intros H G. apply sumn_ext. intros i Hi. rewrite H by auto. f_equal. apply sumn_ext. intros j Hj. rewrite G by auto. auto. Qed.
Lemma B2_addr n Q x y z : B2 n Q x (fun i => y i + z i) = B2 n Q x y + B2 n Q x z.
Proof. unfold B2. rewrite <- sumn_plus. apply sumn_ext. intros i _. rewrite <- Rmult_plus_distr_l, <- sumn_plus. f_equal. apply sumn_ext. intros; ring. Qed.
Lemma B2_scalr n Q x y c : B2 n Q x (fun i => c * y i) = c * B2 n Q x y.
Proof. unfold B2. rewrite <- sumn_scal. apply sumn_ext. intros i _. rewrite (sumn_ext n _ (fun j => c * (Q i j * y j))) by (intros; ring). rewrite sumn_scal. ring. Qed.
Lemma B2_addl n Q x y z : B2 n Q (fun i => x i + y i) z = B2 n Q x z + B2 n Q y z.
Proof. unfold B2. rewrite <- sumn_plus. apply sumn_ext. intros i _. ring. Qed.
Lemma B2_scall n Q x y c : B2 n Q (fun i => c * x i) y = c * B2 n Q x y.
Proof. unfold B2. rewrite <- sumn_scal. apply sumn_ext. intros i _. ring. Qed.
Lemma B2_sym n Q x y : (forall i j, (i < n)%nat -> (j < n)%nat -> Q i j = Q j i) -> B2 n Q x y = B2 n Q y x.
Proof.
  intros S. unfold B2. transitivity (sumn n (fun i => sumn n (fun j => x i * Q i j * y j))). { apply sumn_ext. intros. rewrite <- sumn_scal. apply sumn_ext. intros. ring. }
  rewrite sumn_swap. apply sumn_ext. intros j Hj. rewrite <- sumn_scal. apply sumn_ext. intros i Hi. rewrite (S i j) by auto. ring.
Qed.
Lemma B2_plus n P Q x y : B2 n (fun i j => P i j + Q i j) x y = B2 n P x y + B2 n Q x y.
Proof. unfold B2. rewrite <- sumn_plus. apply sumn_ext. intros i _. rewrite <- Rmult_plus_distr_l, <- sumn_plus. f_equal. apply sumn_ext. intros; ring. Qed.
Lemma B2_scalQ n c Q x y : B2 n (fun i j => c * Q i j) x y = c * B2 n Q x y.
Proof. unfold B2. rewrite <- sumn_scal. apply sumn_ext. intros i _. rewrite (sumn_ext n _ (fun j => c * (Q i j * y j))) by (intros; ring). rewrite sumn_scal. ring. Qed.

Lemma quad_pos_lin g q : (forall t, 0 <= t * g + t * t * q) -> 0 <= q -> g = 0.
Proof.
  intros H Q. destruct (Req_dec q 0) as [->|N]; [specialize (H (- g)); nra|]. assert (P : 0 < q) by lra. specialize (H (- g / (2 * q))).
  replace (- g / (2 * q) * g + - g / (2 * q) * (- g / (2 * q)) * q) with (- (g * g / (4 * q))) in H by (field; lra).
  assert (0 <= g * g / (4 * q)). { apply Rmult_le_pos; [nra|]. apply Rlt_le, Rinv_0_lt_compat. lra. }
  assert (E : g * g / (4 * q) = 0) by lra. apply Rmult_integral in E as [E|E]; [nra|]. apply Rinv_neq_0_compat in E; [tauto|lra].
Qed.
(** first-order condition of a minimiser *)
Lemma first_order n Q c u w : psd n Q -> (forall i j, (i < n)%nat -> (j < n)%nat -> Q i j = Q j i) ->
  (forall t, energy n Q c u <= energy n Q c (fun i => u i + t * w i)) -> B2 n Q w u + sumn n (fun i => c i * w i) = 0.
Proof.
  intros P S H. apply quad_pos_lin with (q := / 2 * B2 n Q w w); [|pose proof (P w) as X; fold (B2 n Q w w) in X; lra].
  intros t. specialize (H t). unfold energy in H. fold (B2 n Q u u) in H. fold (B2 n Q (fun i => u i + t * w i) (fun i => u i + t * w i)) in H.
  rewrite B2_addr, !B2_addl, !B2_scalr, !B2_scall in H. rewrite (B2_sym n Q u w S) in H.
  rewrite (sumn_ext n (fun i => c i * (u i + t * w i)) (fun i => c i * u i + t * (c i * w i))) in H by (intros; ring). rewrite sumn_plus, sumn_scal in H. nra.
Qed.

(** the block mass matrix *)
Lemma bd_B2 n M0 x y : nr M0 = n -> nc M0 = n ->
  B2 (n + n) (at_ (block_diag2 M0 M0)) x y = sumn n (fun i => sumn n (fun j => at_ M0 i j * (x i * y j + x (n + i)%nat * y (n + j)%nat))).
Proof.
  intros R C.
  assert (ZS : forall f, (forall j, (j < n)%nat -> f j = 0) -> sumn n f = 0) by (intros f H; unfold sumn; apply sumf_zero; intros j I; apply in_seq in I; apply H; lia).
  assert (I1 : forall i, (i < n)%nat -> sumn (n + n) (fun j => at_ (block_diag2 M0 M0) i j * y j) = sumn n (fun j => at_ M0 i j * y j)).
  { intros i Hi. rewrite sumn_app. rewrite (ZS (fun j => at_ (block_diag2 M0 M0) i (n + j)%nat * y (n + j)%nat)).
    - rewrite Rplus_0_r. apply sumn_ext. intros j Hj. unfold block_diag2. cbn [at_]. rewrite R, C. ltbs. auto.
    - intros j Hj. unfold block_diag2. cbn [at_]. rewrite R, C. ltbs. ring. }
  assert (I2 : forall i, (i < n)%nat -> sumn (n + n) (fun j => at_ (block_diag2 M0 M0) (n + i)%nat j * y j) = sumn n (fun j => at_ M0 i j * y (n + j)%nat)).
  { intros i Hi. rewrite sumn_app. rewrite (ZS (fun j => at_ (block_diag2 M0 M0) (n + i)%nat j * y j)).
    - rewrite Rplus_0_l. apply sumn_ext. intros j Hj. unfold block_diag2. cbn [at_]. rewrite R, C. ltbs. replace (n + i - n)%nat with i by lia. replace (n + j - n)%nat with j by lia. auto.
    - intros j Hj. unfold block_diag2. cbn [at_]. rewrite R, C. ltbs. ring. }
  unfold B2. rewrite sumn_app, <- sumn_plus. apply sumn_ext. intros i Hi. rewrite I1, I2 by auto. rewrite <- !sumn_scal, <- sumn_plus. apply sumn_ext. intros; ring.
Qed.
