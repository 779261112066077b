From Coq Require Import Reals Lra Psatz ZArith List Bool Lia.
From Verif Require Import PyExn Vec MatModel MatProofs Subdiv3Proofs BiharmProofs Biharm2Proofs SubdivModel SqExpModel.
Import ListNotations.
Open Scope R_scope.

Lemma dotl_sum d : forall u v, length u = d -> length v = d -> dotl u v = sumn d (fun i => nth i u 0 * nth i v 0).
Proof.
  induction d as [|d IH]; intros u v Hu Hv; destruct u as [|a u], v as [|b v]; try discriminate; [reflexivity|]. cbn [dotl]. rewrite (IH u v) by (cbn in *; lia).
  replace (S d) with (1 + d)%nat by lia. rewrite sumn_app. f_equal. unfold sumn. cbn. ring.
Qed.
Lemma dotl_comm u : forall v, dotl u v = dotl v u.
Proof. induction u as [|a u IH]; intros [|b v]; cbn; try reflexivity. rewrite IH. ring. Qed.
Lemma subl_sq u : forall v, length u = length v -> dotl (subl u v) (subl u v) = dotl u u + dotl v v - 2 * dotl u v.
Proof. induction u as [|a u IH]; intros [|b v] H; try discriminate; cbn; [ring|]. rewrite IH by (cbn in H; lia). ring. Qed.
Lemma dotl_nonneg u : 0 <= dotl u u.
Proof. induction u as [|a u IH]; cbn; [lra|]. pose proof (Rle_0_sqr a). unfold Rsqr in *. lra. Qed.

Section PSD.
  Variables (n d : nat) (x : nat -> list R).
  Hypothesis Hx : forall a, (a < n)%nat -> length (x a) = d.
  Definition Qf (k : nat) (c : nat -> R) : R := sumn n (fun a => sumn n (fun b => c a * c b * dotl (x a) (x b) ^ k)).
  Lemma Qf_0 c : Qf 0 c = sumn n c * sumn n c.
  Proof. unfold Qf. rewrite <- sumn_scal_r. apply sumn_ext. intros a _. rewrite <- sumn_scal. apply sumn_ext. intros b _. cbn. ring. Qed.
  Lemma Qf_S k c : Qf (S k) c = sumn d (fun i => Qf k (fun a => c a * nth i (x a) 0)).
  Proof using Hx.
    unfold Qf. symmetry. rewrite sumn_swap. apply sumn_ext. intros a Ha. rewrite sumn_swap. apply sumn_ext. intros b Hb.
    cbn [pow]. set (P := dotl (x a) (x b) ^ k). rewrite (dotl_sum d (x a) (x b)) by auto. rewrite <- sumn_scal_r, <- sumn_scal. apply sumn_ext. intros i _. ring.
  Qed.
  Lemma Qf_nonneg k : forall c, 0 <= Qf k c.
  Proof using Hx.
    induction k as [|k IH]; intro c; [rewrite Qf_0; apply Rle_0_sqr|]. rewrite Qf_S. apply sumf_nonneg. intros. apply IH.
  Qed.
  Lemma Qf_plus k c e : Qf k (fun a => c a + e a) + Qf k (fun a => c a - e a) = 2 * Qf k c + 2 * Qf k e.
  Proof.
    unfold Qf. rewrite <- !sumn_scal, <- !sumn_plus. apply sumn_ext. intros a _. rewrite <- !sumn_scal, <- !sumn_plus. apply sumn_ext. intros b _. ring.
  Qed.
  Lemma Qf_scal k c s : Qf k (fun a => s * c a) = s * s * Qf k c.
  Proof. unfold Qf. rewrite <- sumn_scal. apply sumn_ext. intros a _. rewrite <- sumn_scal. apply sumn_ext. intros b _. ring. Qed.
  Lemma Qf_ext k c e : (forall a, (a < n)%nat -> c a = e a) -> Qf k c = Qf k e.
  Proof. intro H. unfold Qf. apply sumn_ext. intros a Ha. apply sumn_ext. intros b Hb. rewrite !H by auto. reflexivity. Qed.
  Definition killed (c : nat -> R) : Prop := forall k, Qf k c = 0.
  Lemma killed_sum c : killed c -> sumn n c = 0.
  Proof. intro H. specialize (H 0%nat). rewrite Qf_0 in H. apply Rsqr_0_uniq. exact H. Qed.
  Lemma killed_coord c i : killed c -> (i < d)%nat -> killed (fun a => c a * nth i (x a) 0).
  Proof using Hx.
    intros H Hi k. specialize (H (S k)). rewrite Qf_S in H. unfold sumn in H.
    assert (forall l, (forall j, In j l -> 0 <= Qf k (fun a => c a * nth j (x a) 0)) -> sumf (fun j => Qf k (fun a => c a * nth j (x a) 0)) l = 0 -> In i l -> Qf k (fun a => c a * nth i (x a) 0) = 0) as G.
    { induction l as [|j l IH]; intros P S0 I; [destruct I|]. cbn [sumf] in S0. pose proof (P j (or_introl eq_refl)). assert (0 <= sumf (fun j => Qf k (fun a => c a * nth j (x a) 0)) l) by (apply sumf_nonneg; intros; apply P; now right).
      destruct I as [ -> | I ]; [lra|]. apply IH; auto; [intros; apply P; now right|lra]. }
    apply (G (seq 0 d)); [intros; apply Qf_nonneg|exact H|apply in_seq; lia].
  Qed.
  Lemma killed_factor c i v : killed c -> (i < d)%nat -> killed (fun a => c a * (nth i (x a) 0 - v)).
  Proof using Hx.
    intros H Hi k. pose proof (Qf_plus k (fun a => c a * nth i (x a) 0) (fun a => v * c a)) as E. rewrite Qf_scal, (H k), (killed_coord c i H Hi k) in E.
    pose proof (Qf_nonneg k (fun a => c a * nth i (x a) 0 + v * c a)). pose proof (Qf_nonneg k (fun a => c a * nth i (x a) 0 - v * c a)) as P2.
    rewrite (Qf_ext k _ (fun a => c a * nth i (x a) 0 - v * c a)) by (intros; ring). lra.
  Qed.
  Lemma killed_prod (l : list (nat * R)) : forall c, killed c -> (forall p, In p l -> (fst p < d)%nat) -> killed (fun a => c a * fold_right Rmult 1 (map (fun p => nth (fst p) (x a) 0 - snd p) l)).
  Proof using Hx.
    induction l as [|p l IH]; intros c H Hl; cbn [map fold_right].
    - intro k. rewrite (Qf_ext k _ c) by (intros; ring). apply H.
    - intro k. specialize (IH _ (killed_factor c (fst p) (snd p) H (Hl p (or_introl eq_refl))) (fun q Hq => Hl q (or_intror Hq)) k). etransitivity; [|exact IH]. apply Qf_ext. intros. ring.
  Qed.
  Lemma list_diff (u v : list R) : length u = d -> length v = d -> u <> v -> exists i, (i < d)%nat /\ nth i u 0 <> nth i v 0.
  Proof.
    clear Hx. revert u v. induction d as [|e IH]; intros u v Hu Hv N; destruct u as [|a u], v as [|b v]; try discriminate; [congruence|].
    destruct (Req_dec a b) as [ -> | E ]; [|exists 0%nat; split; [lia|exact E]]. destruct (IH u v) as (i & Hi & D); [cbn in *; lia|cbn in *; lia|congruence|]. exists (S i). split; [lia|exact D].
  Qed.
  Lemma killed_zero c : killed c -> (forall a b, (a < n)%nat -> (b < n)%nat -> x a = x b -> a = b) -> forall a, (a < n)%nat -> c a = 0.
  Proof using Hx.
    intros H D a Ha.
    assert (exists l : list (nat * R), (forall p, In p l -> (fst p < d)%nat) /\ (forall p, In p l -> nth (fst p) (x a) 0 - snd p <> 0) /\ forall b, (b < n)%nat -> b <> a -> exists p, In p l /\ nth (fst p) (x b) 0 - snd p = 0) as (l & L1 & L2 & L3).
    { assert (forall m, (m <= n)%nat -> exists l : list (nat * R), (forall p, In p l -> (fst p < d)%nat) /\ (forall p, In p l -> nth (fst p) (x a) 0 - snd p <> 0) /\ forall b, (b < m)%nat -> b <> a -> exists p, In p l /\ nth (fst p) (x b) 0 - snd p = 0) as G.
      { induction m as [|m IH]; intro Hm; [exists []; split; [intros ? []|split; [intros ? []|intros; lia]]|]. destruct IH as (l & L1 & L2 & L3); [lia|].
        destruct (Nat.eq_dec m a) as [ -> | NE ]; [exists l; split; [exact L1|split; [exact L2|intros b Hb Nb; apply L3; lia]]|].
        destruct (list_diff (x a) (x m)) as (i & Hi & Di); [apply Hx; lia|apply Hx; lia|intro E; apply NE; symmetry; apply D; auto; lia|].
        exists ((i, nth i (x m) 0) :: l). split; [|split].
        - intros p [ <- | Hp ]; [exact Hi|apply L1, Hp].
        - intros p [ <- | Hp ]; [cbn; lra|apply L2, Hp].
        - intros b Hb Nb. destruct (Nat.eq_dec b m) as [ -> | Nm ]; [eexists; split; [left; reflexivity|cbn; ring]|]. destruct (L3 b) as (p & Hp & E); [lia|exact Nb|]. exists p. split; [now right|exact E]. }
      apply (G n); lia. }
    pose proof (killed_sum _ (killed_prod l c H L1)) as S0.
    assert (forall b, (b < n)%nat -> c b * fold_right Rmult 1 (map (fun p => nth (fst p) (x b) 0 - snd p) l) = (c b * fold_right Rmult 1 (map (fun p => nth (fst p) (x b) 0 - snd p) l)) * (if Nat.eqb b a then 1 else 0)) as E.
    { intros b Hb. destruct (Nat.eqb_spec b a) as [ -> | NE ]; [ring|]. destruct (L3 b Hb NE) as (p & Hp & Z).
      assert (fold_right Rmult 1 (map (fun p => nth (fst p) (x b) 0 - snd p) l) = 0) as ->; [|ring]. clear - Hp Z. induction l as [|q l IH]; [destruct Hp|]. cbn. destruct Hp as [ -> | Hp ]; [rewrite Z; ring|rewrite IH by exact Hp; ring]. }
    rewrite (sumn_ext n _ _ E) in S0. rewrite ElastProofs.pick in S0 by exact Ha. rewrite Rmult_1_r in S0. apply Rmult_integral in S0 as [S0|S0]; [exact S0|]. exfalso.
    revert S0. clear - L2. induction l as [|q l IH]; cbn; [lra|]. intro E. apply Rmult_integral in E as [E|E]; [apply (L2 q); [now left|exact E]|]. apply IH; [intros; apply L2; now right|exact E].
  Qed.
End PSD.

(** limits of finite sums *)
Lemma cv_const c : Un_cv (fun _ => c) c.
Proof. intros e He. exists 0%nat. intros. unfold R_dist. rewrite Rminus_eq_0, Rabs_R0. exact He. Qed.
Lemma cv_sumn m (f : nat -> nat -> R) (l : nat -> R) : (forall i, (i < m)%nat -> Un_cv (f i) (l i)) -> Un_cv (fun N => sumn m (fun i => f i N)) (sumn m l).
Proof.
  induction m as [|m IH]; intro H.
  - apply (cv_const 0).
  - apply (Un_cv_ext (fun N => sumn m (fun i => f i N) + f m N)); [intro N; rewrite (sumn_S m (fun i => f i N)); reflexivity|]. rewrite sumn_S. apply CV_plus; [apply IH; intros; apply H; lia|apply H; lia].
Qed.
Lemma cv_scal c u l : Un_cv u l -> Un_cv (fun N => c * u N) (c * l).
Proof. intro H. apply (CV_mult (fun _ => c) u); [apply cv_const|exact H]. Qed.
Lemma exp_cv t : Un_cv (sum_f_R0 (fun k => / INR (fact k) * t ^ k)) (exp t).
Proof. unfold exp. destruct (exist_exp t) as [e H]. exact H. Qed.

Section EXP.
  Variables (n d : nat) (x : nat -> list R) (g : R).
  Hypothesis Hx : forall a, (a < n)%nat -> length (x a) = d.
  Hypothesis Hg : 0 < g.
  Let E (c : nat -> R) : R := sumn n (fun a => sumn n (fun b => c a * c b * exp (g * dotl (x a) (x b)))).
  Let P (c : nat -> R) (N : nat) : R := sum_f_R0 (fun k => / INR (fact k) * g ^ k * Qf n x k c) N.
  Lemma P_cv c : Un_cv (P c) (E c).
  Proof.
    apply (Un_cv_ext (fun N => sumn n (fun a => sumn n (fun b => c a * c b * sum_f_R0 (fun k => / INR (fact k) * (g * dotl (x a) (x b)) ^ k) N)))).
    - intro N. unfold P. induction N as [|N IH].
      + cbn [sum_f_R0]. unfold Qf. rewrite <- sumn_scal. apply sumn_ext. intros a _. rewrite <- sumn_scal. apply sumn_ext. intros b _. cbn. ring.
      + cbn [sum_f_R0]. rewrite <- IH. unfold Qf. rewrite <- sumn_scal, <- sumn_plus. apply sumn_ext. intros a _. rewrite <- sumn_scal, <- sumn_plus. apply sumn_ext. intros b _. rewrite Rpow_mult_distr. ring.
    - apply cv_sumn. intros a _. apply cv_sumn. intros b _. apply cv_scal, exp_cv.
  Qed.
  Lemma term_nonneg c k : 0 <= / INR (fact k) * g ^ k * Qf n x k c.
  Proof using Hx Hg. apply Rmult_le_pos; [|apply (Qf_nonneg n d x Hx)]. apply Rmult_le_pos; [left; apply Rinv_0_lt_compat, INR_fact_lt_0|left; apply pow_lt, Hg]. Qed.
  Lemma P_le c N : P c N <= E c.
  Proof using Hx Hg. apply growing_ineq; [|apply P_cv]. intro k. unfold P. cbn [sum_f_R0]. pose proof (term_nonneg c (S k)). lra. Qed.
  Lemma P_term c k : / INR (fact k) * g ^ k * Qf n x k c <= P c k.
  Proof using Hx Hg.
    unfold P. destruct k as [|k]; [cbn [sum_f_R0]; lra|]. cbn [sum_f_R0]. assert (0 <= sum_f_R0 (fun k => / INR (fact k) * g ^ k * Qf n x k c) k) by (apply cond_pos_sum; intro; apply term_nonneg). lra.
  Qed.
  Lemma E_nonneg c : 0 <= E c.
  Proof using Hx Hg. pose proof (P_le c 0). pose proof (P_term c 0). pose proof (term_nonneg c 0). lra. Qed.
  Lemma E_zero c : E c = 0 -> killed n x c.
  Proof using Hx Hg.
    intros Z k. pose proof (P_le c k). pose proof (P_term c k). pose proof (term_nonneg c k) as T. pose proof (Qf_nonneg n d x Hx k c) as Q.
    assert (0 < / INR (fact k) * g ^ k) as K by (apply Rmult_lt_0_compat; [apply Rinv_0_lt_compat, INR_fact_lt_0|apply pow_lt, Hg]).
    assert (/ INR (fact k) * g ^ k * Qf n x k c = 0) as Z2 by lra. apply Rmult_integral in Z2 as [Z2|Z2]; lra.
  Qed.
End EXP.

(** the kernel *)
Section KER.
  Variables (n d : nat) (x : nat -> list R) (len scale : R).
  Hypothesis Hx : forall a, (a < n)%nat -> length (x a) = d.
  Hypothesis Hl : len <> 0.
  Hypothesis Hs : 0 < scale.
  Definition kform (c : nat -> R) : R := sumn n (fun a => c a * sumn n (fun b => sek_val (subl (x a) (x b)) len scale * c b)).
  Let w (a : nat) : R := exp (- (1/2) * dotl (x a) (x a) / len ^ 2).
  Lemma len2_pos : 0 < / len ^ 2.
  Proof using Hl. apply Rinv_0_lt_compat. pose proof (Rsqr_pos_lt len Hl). unfold Rsqr in *. cbn. lra. Qed.
  Lemma kform_eq c : kform c = scale * sumn n (fun a => sumn n (fun b => (c a * w a) * (c b * w b) * exp (/ len ^ 2 * dotl (x a) (x b)))).
  Proof using Hx Hl.
    unfold kform. rewrite <- sumn_scal. apply sumn_ext. intros a Ha. rewrite <- sumn_scal, <- sumn_scal. apply sumn_ext. intros b Hb. unfold sek_val, w.
    rewrite subl_sq by (rewrite !Hx by auto; reflexivity).
    replace (- (1 / 2) * (dotl (x a) (x a) + dotl (x b) (x b) - 2 * dotl (x a) (x b)) / len ^ 2) with (- (1/2) * dotl (x a) (x a) / len ^ 2 + - (1/2) * dotl (x b) (x b) / len ^ 2 + / len ^ 2 * dotl (x a) (x b)) by (field; exact Hl).
    rewrite !exp_plus. ring.
  Qed.
  Lemma kform_nonneg c : 0 <= kform c.
  Proof using Hx Hl Hs. rewrite kform_eq. apply Rmult_le_pos; [lra|]. apply (E_nonneg n d x (/ len ^ 2) Hx len2_pos (fun a => c a * w a)). Qed.
  Lemma kform_definite c : (forall a b, (a < n)%nat -> (b < n)%nat -> x a = x b -> a = b) -> kform c = 0 -> forall a, (a < n)%nat -> c a = 0.
  Proof using Hx Hl Hs.
    intros D Z a Ha. rewrite kform_eq in Z. apply Rmult_integral in Z as [Z|Z]; [lra|].
    pose proof (E_zero n d x (/ len ^ 2) Hx len2_pos (fun a => c a * w a) Z) as K. pose proof (killed_zero n d x Hx _ K D a Ha) as W. cbn in W.
    apply Rmult_integral in W as [W|W]; [exact W|]. exfalso. unfold w in W. pose proof (exp_pos (- (1 / 2) * dotl (x a) (x a) / len ^ 2)). lra.
  Qed.
End KER.
