From Coq Require Import Reals Lra Psatz ZArith List Bool Lia.
From Verif Require Import PyExn Vec MatModel MatProofs Subdiv3Proofs ElastModel ElastProofs BiharmProofs Biharm2Proofs MatFunModel P_MatFun SolveModel SqExpModel SqExpProofs GpModel.
Import ListNotations.
Open Scope R_scope.

Definition dotn (n : nat) (x y : nat -> R) : R := sumn n (fun i => x i * y i).
Definition app (n : nat) (M : matrix) (x : nat -> R) : nat -> R := fun i => sumn n (fun j => M i j * x j).
Definition form (n : nat) (M : matrix) (x : nat -> R) : R := dotn n x (app n M x).
Definition symm (n : nat) (M : matrix) : Prop := forall i j, (i < n)%nat -> (j < n)%nat -> M i j = M j i.
Definition pd (n : nat) (M : matrix) : Prop := forall x, 0 <= form n M x /\ (form n M x = 0 -> forall i, (i < n)%nat -> x i = 0).

Lemma app_ext n M x y i : (forall j, (j < n)%nat -> x j = y j) -> app n M x i = app n M y i.
Proof. intro H. apply sumn_ext. intros. rewrite H by auto. reflexivity. Qed.
Lemma dotn_ext n x y x' y' : (forall j, (j < n)%nat -> x j = x' j) -> (forall j, (j < n)%nat -> y j = y' j) -> dotn n x y = dotn n x' y'.
Proof. intros H G. apply sumn_ext. intros. rewrite H, G by auto. reflexivity. Qed.
Lemma dotn_sym n x y : dotn n x y = dotn n y x.
Proof. apply sumn_ext. intros. ring. Qed.
Lemma app_add n M x y i : app n M (fun j => x j + y j) i = app n M x i + app n M y i.
Proof. unfold app. rewrite <- sumn_plus. apply sumn_ext. intros. ring. Qed.
Lemma app_scal n M c x i : app n M (fun j => c * x j) i = c * app n M x i.
Proof. unfold app. rewrite <- sumn_scal. apply sumn_ext. intros. ring. Qed.
Lemma app_sub n M x y i : app n M (fun j => x j - y j) i = app n M x i - app n M y i.
Proof. rewrite (app_ext n M _ (fun j => x j + (-1) * y j)) by (intros; ring). rewrite app_add, app_scal. ring. Qed.
Lemma app_symm n M x y : symm n M -> dotn n x (app n M y) = dotn n y (app n M x).
Proof.
  intro S. unfold dotn, app. transitivity (sumn n (fun i => sumn n (fun j => x i * M i j * y j))). { apply sumn_ext. intros. rewrite <- sumn_scal. apply sumn_ext. intros. ring. }
  rewrite sumn_swap. apply sumn_ext. intros j Hj. rewrite <- sumn_scal. apply sumn_ext. intros i Hi. rewrite (S i j) by auto. ring.
Qed.
Lemma pd_inj n M x y : pd n M -> (forall i, (i < n)%nat -> app n M x i = app n M y i) -> forall i, (i < n)%nat -> x i = y i.
Proof.
  intros P H i Hi. assert (forall j, (j < n)%nat -> x j - y j = 0) as Z; [|specialize (Z i Hi); lra]. apply (P (fun j => x j - y j)). unfold form, dotn. apply sumf_zero. intros j Hj. apply in_seq in Hj. rewrite app_sub, H by lia. ring.
Qed.

(** ** elimination without pivoting: solves every positive definite system *)
Definition schur (n : nat) (M : matrix) : matrix := fun i j => M i j - M i n * M n j / M n n.
Fixpoint elim (n : nat) (M : matrix) : option ((nat -> R) -> nat -> R) :=
  match n with
  | O => Some (fun _ _ => 0)
  | S n => if Req_EM_T (M n n) 0 then None else
      match elim n (schur n M) with
      | None => None
      | Some f => Some (fun b => let x := f (fun i => b i - M i n * b n / M n n) in
          fun i => if Nat.eqb i n then (b n - sumn n (fun j => M n j * x j)) / M n n else x i) end
  end.
Lemma elim_ok n : forall M f, elim n M = Some f -> forall b i, (i < n)%nat -> sumn n (fun j => M i j * f b j) = b i.
Proof.
  induction n as [|n IH]; intros M f E b i Hi; [lia|]. cbn in E. destruct (Req_EM_T (M n n) 0) as [|NZ]; [discriminate|]. destruct (elim n (schur n M)) as [g|] eqn:Eg; [|discriminate]. injection E as <-.
  set (x := g (fun i => b i - M i n * b n / M n n)). rewrite sumn_S, Nat.eqb_refl.
  rewrite (sumn_ext n _ (fun j => M i j * x j)) by (intros j Hj; destruct (Nat.eqb_spec j n); [lia|reflexivity]).
  destruct (Nat.eq_dec i n) as [ -> | NE ]; [field; exact NZ|].
  pose proof (IH _ _ Eg (fun i => b i - M i n * b n / M n n) i ltac:(lia)) as S0. fold x in S0. unfold schur in S0.
  rewrite (sumn_ext n _ (fun j => M i j * x j + (- (M i n / M n n)) * (M n j * x j))) in S0 by (intros; field; exact NZ). rewrite sumn_plus, sumn_scal in S0.
  set (s1 := sumn n (fun j => M i j * x j)) in *. set (s2 := sumn n (fun j => M n j * x j)) in *. apply (Rmult_eq_reg_r 1); [|lra]. replace (s1 + M i n * ((b n - s2) / M n n)) with ((s1 + - (M i n / M n n) * s2) + M i n * b n / M n n) by (field; exact NZ). rewrite S0. field. exact NZ.
Qed.
Lemma form_S n M x : form (S n) M x = form n M x + x n * sumn n (fun j => M n j * x j) + x n * sumn n (fun i => M i n * x i) + x n * M n n * x n.
Proof.
  unfold form, dotn, app. rewrite sumn_S. rewrite (sumn_ext n _ (fun i => x i * sumn n (fun j => M i j * x j) + x n * (M i n * x i))) by (intros; rewrite sumn_S; ring). rewrite sumn_plus, sumn_scal, sumn_S. ring.
Qed.
Lemma pd_pivot n M : pd (S n) M -> 0 < M n n.
Proof.
  intro P. destruct (P (fun i => if Nat.eqb i n then 1 else 0)) as [H1 H2].
  assert (form (S n) M (fun i => if Nat.eqb i n then 1 else 0) = M n n) as E.
  { rewrite form_S, Nat.eqb_refl. assert (forall f : nat -> R, sumn n (fun i => f i * (if Nat.eqb i n then 1 else 0)) = 0) as Z by (intro f; apply sumf_zero; intros j Hj; apply in_seq in Hj; destruct (Nat.eqb_spec j n); [lia|ring]).
    unfold form, dotn. rewrite (sumn_ext n _ (fun i => app n M (fun i => if Nat.eqb i n then 1 else 0) i * (if Nat.eqb i n then 1 else 0))) by (intros; ring). rewrite !Z. ring. }
  rewrite E in *. destruct H1 as [H1|H1]; [exact H1|]. symmetry in H1. specialize (H2 H1 n ltac:(lia)). rewrite Nat.eqb_refl in H2. lra.
Qed.
Lemma schur_pd n M : symm (S n) M -> pd (S n) M -> symm n (schur n M) /\ pd n (schur n M).
Proof.
  intros S P. pose proof (pd_pivot n M P) as PP. split.
  - intros i j Hi Hj. unfold schur. rewrite (S i j), (S i n), (S n j) by lia. field. lra.
  - intro x. set (xn := - sumn n (fun j => M n j * x j) / M n n). set (z := fun i => if Nat.eqb i n then xn else x i).
    assert (form (Datatypes.S n) M z = form n (schur n M) x) as E.
    { rewrite form_S. unfold z at 2 4 6 7. rewrite !Nat.eqb_refl.
      assert (forall f : nat -> R, sumn n (fun j => f j * z j) = sumn n (fun j => f j * x j)) as Z by (intro f; apply sumn_ext; intros j Hj; unfold z; destruct (Nat.eqb_spec j n); [lia|reflexivity]).
      rewrite !Z. assert (form n M z = form n M x) as -> by (unfold form; apply dotn_ext; intros j Hj; [|apply app_ext; intros k Hk]; unfold z; match goal with |- (if Nat.eqb ?a n then _ else _) = _ => destruct (Nat.eqb_spec a n); [lia|reflexivity] end).
      rewrite (sumn_ext n (fun i => M i n * x i) (fun j => M n j * x j)) by (intros j Hj; rewrite (S j n) by lia; reflexivity).
      assert (form n (schur n M) x = form n M x - sumn n (fun j => M n j * x j) * sumn n (fun j => M n j * x j) / M n n) as ->.
      { unfold form, dotn, app. set (s := sumn n (fun j => M n j * x j)).
        rewrite (sumn_ext n (fun i => x i * sumn n (fun j => schur n M i j * x j)) (fun i => x i * sumn n (fun j => M i j * x j) + (- (s / M n n)) * (M n i * x i))).
        - rewrite sumn_plus, sumn_scal. fold s. field. lra.
        - intros i Hi. unfold schur. rewrite (sumn_ext n _ (fun j => M i j * x j + (- (M i n / M n n)) * (M n j * x j))) by (intros; field; lra). rewrite sumn_plus, sumn_scal. fold s. rewrite (S i n) by lia. field. lra. }
      unfold xn. field. lra. }
    destruct (P z) as [P1 P2]. rewrite E in *. split; [exact P1|]. intros Z i Hi. specialize (P2 Z i ltac:(lia)). unfold z in P2. destruct (Nat.eqb_spec i n); [lia|exact P2].
Qed.
Lemma elim_pd n : forall M, symm n M -> pd n M -> exists f, elim n M = Some f.
Proof.
  induction n as [|n IH]; intros M S P; [eexists; reflexivity|]. cbn. pose proof (pd_pivot n M P). destruct (Req_EM_T (M n n) 0); [lra|]. destruct (schur_pd n M S P) as [S' P']. destruct (IH _ S' P') as (f & ->). eauto.
Qed.
