(** Lemmas for P_Rfs (reach_for_the_spheres) *)
From Coq Require Import List Arith ZArith Lia Bool Reals Lra.
From Verif Require Import PyExn NumpyModel TopoModel MatModel MatProofs Subdiv3Proofs SolveModel SolveProofs P_Solve BiharmProofs Psr3Proofs RfsModel.
Import ListNotations.
Open Scope R_scope.

Lemma sumn_plus n f g : sumn n (fun i => f i + g i) = sumn n f + sumn n g.
Proof. unfold sumn. apply sumf_plus. Qed.
Lemma sumn_minus n f g : sumn n (fun i => f i - g i) = sumn n f - sumn n g.
Proof. unfold sumn. apply sumf_minus. Qed.

(** one implicit step with some rows held fixed *)
Lemma implicit_step n m (M x y : nat -> R) (A : nat -> nat -> R) (c : nat -> R) (t rho : R) (fixed : nat -> Prop) :
  (forall i, (i < n)%nat -> fixed i \/ ~ fixed i) ->
  (forall i, (i < n)%nat -> fixed i -> y i = x i) ->
  (forall i, (i < n)%nat -> ~ fixed i -> sumn n (fun j => ((if Nat.eqb i j then M i else 0) + t * sumn m (fun r => A r i * (rho * A r j))) * y j) = M i * x i + t * sumn m (fun r => A r i * (rho * c r))) ->
  t * rho * sumn m (fun r => (sumn n (fun j => A r j * x j) - c r) ^ 2)
  = t * rho * sumn m (fun r => (sumn n (fun j => A r j * y j) - c r) ^ 2)
    + 2 * sumn n (fun i => M i * (x i - y i) ^ 2) + t * rho * sumn m (fun r => sumn n (fun j => A r j * (x j - y j)) ^ 2).
Proof.
  intros DEC FX EQ. set (ry := fun r => sumn n (fun j => A r j * y j) - c r). set (aw := fun r => sumn n (fun j => A r j * (x j - y j))).
  assert (RX : forall r, sumn n (fun j => A r j * x j) - c r = ry r + aw r).
  { intros r. unfold ry, aw. rewrite (sumn_ext n (fun j => A r j * (x j - y j)) (fun j => A r j * x j - A r j * y j)) by (intros; ring). rewrite sumn_minus. ring. }
  assert (K : t * rho * sumn m (fun r => aw r * ry r) = sumn n (fun i => M i * (x i - y i) ^ 2)).
  { transitivity (sumn n (fun i => (x i - y i) * (t * rho * sumn m (fun r => A r i * ry r)))).
    - rewrite (sumn_ext n _ (fun i => t * rho * sumn m (fun r => (x i - y i) * (A r i * ry r)))) by (intros; rewrite sumn_scal; ring).
      rewrite sumn_scal. f_equal. rewrite sumn_swap. apply sumn_ext. intros r _. unfold aw. rewrite <- sumn_scal_r. apply sumn_ext. intros; ring.
    - apply sumn_ext. intros i Hi. destruct (DEC i Hi) as [f|f].
      + rewrite (FX i Hi f). ring.
      + pose proof (EQ i Hi f) as E. 
        rewrite (sumn_ext n _ (fun j => (if Nat.eqb i j then 1 else 0) * (M i * y j) + t * rho * sumn m (fun r => A r i * (A r j * y j)))) in E.
        2:{ intros j Hj. rewrite (sumn_ext m (fun r => A r i * (rho * A r j)) (fun r => rho * (A r i * A r j))) by (intros; ring). rewrite sumn_scal.
            rewrite (sumn_ext m (fun r => A r i * (A r j * y j)) (fun r => (A r i * A r j) * y j)) by (intros; ring). rewrite sumn_scal_r. destruct (Nat.eqb i j); ring. }
        rewrite sumn_plus, sumn_delta, sumn_scal, sumn_swap in E by auto.
        rewrite (sumn_ext m (fun r => A r i * (rho * c r)) (fun r => rho * (A r i * c r))) in E by (intros; ring). rewrite sumn_scal in E.
        unfold ry. rewrite (sumn_ext m _ (fun r => A r i * sumn n (fun j => A r j * y j) - A r i * c r)) by (intros; ring). rewrite sumn_minus.
        rewrite (sumn_ext m (fun j => sumn n (fun i0 => A j i * (A j i0 * y i0))) (fun r => A r i * sumn n (fun j => A r j * y j))) in E by (intros; apply sumn_scal).
        replace (t * rho * _) with (M i * (x i - y i)) by lra. ring. }
  rewrite (sumn_ext m _ (fun r => ry r ^ 2 + (2 * (aw r * ry r) + aw r ^ 2))) by (intros; rewrite RX; ring).
  rewrite !sumn_plus, sumn_scal, <- K. unfold ry, aw. ring.
Qed.

Lemma implicit_descent n m M x y A c t rho fixed : 0 < t -> 0 <= rho -> (forall i, (i < n)%nat -> 0 <= M i) ->
  (forall i, (i < n)%nat -> fixed i \/ ~ fixed i) ->
  (forall i, (i < n)%nat -> fixed i -> y i = x i) ->
  (forall i, (i < n)%nat -> ~ fixed i -> sumn n (fun j => ((if Nat.eqb i j then M i else 0) + t * sumn m (fun r => A r i * (rho * A r j))) * y j) = M i * x i + t * sumn m (fun r => A r i * (rho * c r))) ->
  rho * sumn m (fun r => (sumn n (fun j => A r j * y j) - c r) ^ 2) <= rho * sumn m (fun r => (sumn n (fun j => A r j * x j) - c r) ^ 2).
Proof.
  intros T R0 MP DEC FX EQ. pose proof (implicit_step n m M x y A c t rho fixed DEC FX EQ) as E.
  assert (P1 : 0 <= sumn n (fun i => M i * (x i - y i) ^ 2)) by (apply sumn_nonneg; intros; apply Rmult_le_pos; [auto|apply pow2_ge_0]).
  assert (P2 : 0 <= sumn m (fun r => sumn n (fun j => A r j * (x j - y j)) ^ 2)) by (apply sumn_nonneg; intros; apply pow2_ge_0).
  assert (0 <= t * rho * sumn m (fun r => sumn n (fun j => A r j * (x j - y j)) ^ 2)) by (apply Rmult_le_pos; [apply Rmult_le_pos; lra|exact P2]).
  apply Rmult_le_reg_l with t; auto. rewrite <- !Rmult_assoc. lra.
Qed.

(** the row of A times a column of the vertices is the weighted blend *)
Lemma row_blend n t (x : nat -> R) : (forall i, In i (tf t) -> (i < n)%nat) ->
  sumn n (fun j => a_entry t j * x j) = tw t * sumf (fun p => snd p * x (fst p)) (combine (tf t) (tb t)).
Proof.
  intros H. unfold a_entry. 
  assert (G : forall l : list (nat * R), (forall p, In p l -> (fst p < n)%nat) ->
     sumn n (fun j => sumf (fun p => if Nat.eqb (fst p) j then tw t * snd p else 0) l * x j) = tw t * sumf (fun p => snd p * x (fst p)) l).
  { induction l as [|[i b] l IH]; intros HL.
    - cbn. rewrite Rmult_0_r. unfold sumn. apply sumf_zero. intros; ring.
    - cbn [sumf fst snd].
      rewrite (sumn_ext n _ (fun j => (if Nat.eqb i j then 1 else 0) * (tw t * b * x j) + sumf (fun p => if Nat.eqb (fst p) j then tw t * snd p else 0) l * x j)) by (intros j _; destruct (Nat.eqb i j); ring).
      rewrite sumn_plus, sumn_delta by (apply (HL (i, b)); left; auto). rewrite IH by (intros; apply HL; right; auto). ring. }
  apply G. intros [i b] I. apply H. eapply in_combine_l; eauto.
Qed.
