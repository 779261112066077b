(** lemmas for C78: the bilinear forms assembled by the code *)
From Coq Require Import Reals Lra Lia ZArith List Bool Psatz Permutation.
From Verif Require Import NumpyModel NumpyProofs PyExn Vec MatModel MatProofs SubdivModel MatFunModel P_MatFun GridMeshModel GridMeshProofs GridNbModel GridNbProofs FdModel FdProofs P_Fd
  KernelModel KernelSpec KernelProofs P_Kernel EigModel SolveModel LoopSubProofs BiharmProofs Biharm2Proofs Subdiv3Proofs CutProofs PsrModel PsrSpec PsrNbProofs PsrProofs Psr2Proofs Psr3Proofs Psr4Proofs.
Import ListNotations.
Open Scope R_scope.

Lemma bsize_app a b : bsize (a ++ b) = (bsize a + bsize b)%nat.
Proof. unfold bsize. induction a; cbn; auto. rewrite IHa. lia. Qed.
Lemma firstn_S_nth {A} (l : list A) d x : nth_error l d = Some x -> firstn (S d) l = firstn d l ++ [x].
Proof. revert d. induction l as [|y l IH]; intros [|d] E; cbn in *; try discriminate; [injection E as ->; auto|]. rewrite <- IH; auto. Qed.
Lemma edge_sum_ext gs f f' : (forall d idx, (d < length gs)%nat -> on_grid (fewer d gs) idx -> f d idx = f' d idx) -> edge_sum gs f = edge_sum gs f'.
Proof. intros H. unfold edge_sum. apply sumn_ext. intros d Hd. apply grid_sum_ext. intros. auto. Qed.
Lemma Forall2_seq {A} (Q : nat -> A -> Prop) n l : Forall2 Q (seq 0 n) l -> length l = n /\ forall d b, nth_error l d = Some b -> Q d b.
Proof.
  assert (G : forall s n l, Forall2 Q (seq s n) l -> length l = n /\ forall d b, nth_error l d = Some b -> Q (s + d)%nat b).
  { intros s k. revert s. induction k as [|k IH]; intros s l' F; inversion F as [|? y ? l'' Q1 F1]; subst; [split; auto; intros [|d] b E; discriminate|]. apply IH in F1 as [L H]. split; [cbn; lia|].
    intros [|d] b E; cbn in E; [injection E as <-; rewrite Nat.add_0_r; auto|]. apply H in E. replace (s + S d)%nat with (S s + d)%nat by lia. auto. }
  apply G.
Qed.

Section FORM.
  Variables (gs : list Z) (h : list R) (bs : list block) (G : list trip).
  Hypotheses (Gp : Forall (fun g => (0 < g)%Z) gs) (Lb : length bs = length gs) (Sz : forall d b, nth_error bs d = Some b -> fst (fst b) = Z.to_nat (zprod (fewer d gs)))
    (HG : forall f d idx, (d < length gs)%nat -> on_grid (fewer d gs) idx -> mulv (Z.to_nat (zprod gs)) G f (eoff gs d + ravelF (fewer d gs) idx) = diff d h (fun idx => f (ravelF gs idx)) idx).
  Let n := Z.to_nat (zprod gs).
  Let m := bsize bs.
  Let g r j := entry G (Z.of_nat r) (Z.of_nat j).
  Definition fl (w : nat -> R) : list Z -> R := fun idx => w (Z.to_nat (ravelF gs idx)).
  Definition enat d idx := (bsize (firstn d bs) + Z.to_nat (ravelF (fewer d gs) idx))%nat.
  Lemma Fn d : Forall (fun g => (0 <= g)%Z) (fewer d gs).
  Proof. apply fewer_ge. auto. Qed.
  Lemma Gn : Forall (fun g => (0 <= g)%Z) gs.
  Proof. eapply Forall_impl; [|exact Gp]. cbn. lia. Qed.
  Lemma off_eq d : (d <= length gs)%nat -> Z.of_nat (bsize (firstn d bs)) = eoff gs d.
  Proof.
    induction d as [|d IH]; intros H; [reflexivity|]. cbn [eoff]. rewrite <- IH by lia. assert (Hd : (d < length bs)%nat) by lia. destruct (nth_error bs d) as [b|] eqn:E; [|apply nth_error_None in E; lia].
    rewrite (firstn_S_nth _ _ _ E), bsize_app. cbn [bsize fold_right]. rewrite (Sz d b E). pose proof (zprod_nonneg _ (Fn d)). lia.
  Qed.
  Lemma Gw w d idx : (d < length gs)%nat -> on_grid (fewer d gs) idx -> sumn n (fun j => g (enat d idx) j * w j) = diff d h (fl w) idx.
  Proof.
    intros Hd Gi. pose proof (ravel_bound _ _ Gi). unfold g, enat. rewrite Nat2Z.inj_add, off_eq, Z2Nat.id by lia.
    transitivity (mulv n G (fun z => w (Z.to_nat z)) (eoff gs d + ravelF (fewer d gs) idx)); [unfold mulv; apply sumn_ext; intros; rewrite Nat2Z.id; auto|]. unfold n. rewrite HG by auto. reflexivity.
  Qed.
  Lemma esum f : sumn m f = edge_sum gs (fun d idx => f (enat d idx)).
  Proof.
    unfold m. rewrite sumn_blocks. unfold edge_sum. rewrite Lb. apply sumn_ext. intros d Hd. destruct (nth_error bs d) as [b|] eqn:E; [|apply nth_error_None in E; lia].
    rewrite (nth_error_nth _ _ _ E), (Sz d b E). rewrite flat_sum by apply Fn. reflexivity.
  Qed.
  Lemma swap_mul (k : nat -> R) w : sumn n (fun j => sumn m (fun r => g r j * k r) * w j) = sumn m (fun r => k r * sumn n (fun j => g r j * w j)).
  Proof.
    rewrite (sumn_ext n _ (fun j => sumn m (fun r => g r j * k r * w j))) by (intros; rewrite sumn_scal_r; auto). rewrite sumn_swap. apply sumn_ext. intros r _. rewrite <- sumn_scal. apply sumn_ext. intros. ring.
  Qed.
  Lemma form_b v w : sumn n (fun j => sumn m (fun r => g r j * v r) * w j) = edge_sum gs (fun d idx => v (enat d idx) * diff d h (fl w) idx).
  Proof. rewrite swap_mul, esum. apply edge_sum_ext. intros d idx Hd Gi. rewrite Gw by auto. reflexivity. Qed.
  Let A : matrix := fun i j => sumn m (fun r => g r i * g r j) + small * (if Nat.eqb i j then 1 else 0).
  Lemma A_apply u i : (i < n)%nat -> sumn n (fun j => A i j * u j) = sumn m (fun r => g r i * sumn n (fun j => g r j * u j)) + small * u i.
  Proof.
    intros Hi. unfold A. rewrite (sumn_ext n _ (fun j => sumn m (fun r => g r i * g r j) * u j + small * ((if Nat.eqb i j then 1 else 0) * u j))) by (intros; ring).
    rewrite sumn_plus, sumn_scal, sumn_delta by auto. f_equal.
    rewrite (sumn_ext n _ (fun j => sumn m (fun r => g r i * g r j * u j))) by (intros; rewrite sumn_scal_r; auto). rewrite sumn_swap. apply sumn_ext. intros r _. rewrite <- sumn_scal. apply sumn_ext. intros. ring.
  Qed.
  Lemma form_A u w : sumn n (fun i => sumn n (fun j => A i j * u j) * w i) = poisson small gs h (fl u) (fl w).
  Proof.
    rewrite (sumn_ext n _ (fun i => sumn m (fun r => g r i * sumn n (fun j => g r j * u j)) * w i + small * (u i * w i))) by (intros i Hi; rewrite A_apply by auto; ring).
    rewrite sumn_plus, sumn_scal. unfold poisson. f_equal.
    - rewrite (swap_mul (fun r => sumn n (fun j => g r j * u j)) w), esum. apply edge_sum_ext. intros d idx Hd Gi. rewrite !Gw by auto. reflexivity.
    - f_equal. unfold n. rewrite flat_sum by apply Gn. reflexivity.
  Qed.
  Lemma A_sym i j : A i j = A j i.
  Proof. unfold A. rewrite Nat.eqb_sym. f_equal. apply sumn_ext. intros. ring. Qed.
  Lemma form_M S u w : sumn n (fun j => sumn n (fun i => u i * sumn m (fun r => sumn m (fun s => g r i * S r s * g s j))) * w j)
    = edge_sum gs (fun d a => edge_sum gs (fun d' b => S (enat d a) (enat d' b) * diff d h (fl u) a * diff d' h (fl w) b)).
  Proof.
    rewrite (sumn_ext n _ (fun j => sumn m (fun s => g s j * sumn m (fun r => S r s * sumn n (fun i => g r i * u i))) * w j)).
    2:{ intros j _. f_equal. rewrite (sumn_ext n _ (fun i => sumn m (fun r => sumn m (fun s => u i * (g r i * S r s * g s j))))).
        2:{ intros i _. rewrite <- sumn_scal. apply sumn_ext. intros r _. rewrite <- sumn_scal. auto. }
        rewrite sumn_swap. rewrite (sumn_ext m _ (fun r => sumn m (fun s => g s j * (S r s * sumn n (fun i => g r i * u i))))).
        - rewrite sumn_swap. apply sumn_ext. intros s _. rewrite <- sumn_scal. auto.
        - intros r _. rewrite sumn_swap. apply sumn_ext. intros s _. rewrite <- !sumn_scal. apply sumn_ext. intros. ring. }
    rewrite (swap_mul (fun s => sumn m (fun r => S r s * sumn n (fun i => g r i * u i))) w).
    rewrite (sumn_ext m _ (fun s => sumn m (fun r => S r s * sumn n (fun i => g r i * u i) * sumn n (fun j => g s j * w j)))) by (intros; rewrite sumn_scal_r; auto).
    rewrite sumn_swap, esum. apply edge_sum_ext. intros d a Hd Ga. rewrite esum. apply edge_sum_ext. intros d' b Hd' Gb. rewrite !Gw by auto. reflexivity.
  Qed.
  (** a covariance without correlation between the blocks *)
  Lemma form_diag sc (C : nat -> list Z -> list Z -> R) u w : (forall d b, nth_error bs d = Some b -> forall x y, on_grid (fewer d gs) x -> on_grid (fewer d gs) y -> snd b (Z.to_nat (ravelF (fewer d gs) x)) (Z.to_nat (ravelF (fewer d gs) y)) = C d x y) ->
    edge_sum gs (fun d a => edge_sum gs (fun d' b => sc * block_diag_v bs (enat d a) (enat d' b) * diff d h u a * diff d' h w b)) = cov_form gs h (fun d a b => sc * C d a b) u w.
  Proof.
    intros HC. unfold cov_form. apply edge_sum_ext. intros d a Hd Ga. unfold edge_sum.
    rewrite (sumn_ext _ _ (fun d' => (if Nat.eqb d d' then 1 else 0) * grid_sum (fewer d' gs) (fun b => sc * C d a b * diff d h u a * diff d h w b))).
    - rewrite (sumn_delta (length gs) d (fun d' => grid_sum (fewer d' gs) (fun b => sc * C d a b * diff d h u a * diff d h w b)) Hd). reflexivity.
    - intros d' Hd'. rewrite <- grid_sum_scal. apply grid_sum_ext. intros b Gb.
      destruct (nth_error bs d) as [[[n1 f1] g1]|] eqn:E; [|apply nth_error_None in E; lia]. destruct (nth_error bs d') as [[[n2 f2] g2]|] eqn:E'; [|apply nth_error_None in E'; lia].
      pose proof (Sz d _ E) as S1. pose proof (Sz d' _ E') as S2. cbn [fst] in S1, S2. pose proof (ravel_bound _ _ Ga). pose proof (ravel_bound _ _ Gb).
      unfold enat. rewrite (diag_at bs d d' n1 f1 g1 n2 f2 g2) by (auto; lia). destruct (Nat.eqb_spec d d') as [<-|N]; [|ring].
      pose proof (HC d _ E a b Ga Gb) as Q. cbn [snd] in Q. rewrite Q. ring.
  Qed.
End FORM.
