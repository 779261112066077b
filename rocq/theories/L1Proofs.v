From Coq Require Import Reals Lra Psatz.
From Verif Require Import MatModel MatProofs Subdiv3Proofs BiharmProofs Biharm2Proofs NumpyModel PyExn ElastModel L1Model.
Open Scope R_scope.

Definition rowsum (M : mat) (x : nat -> R) (i : nat) : R := sumn (nc M) (fun j => at_ M i j * x j).
Lemma hs_ok A B : nr A = nr B -> exists C, hstack2 A B = Ok C /\ nr C = nr A /\ nc C = (nc A + nc B)%nat /\
  (forall x i, rowsum C x i = rowsum A x i + rowsum B (fun j => x (nc A + j)%nat) i).
Proof.
  intros E. unfold hstack2. rewrite E, Nat.eqb_refl. eexists. split; [reflexivity|]. cbn [nr nc]. split; [auto|]. split; [auto|]. intros x i. unfold rowsum. cbn [nc at_].
  rewrite sumn_app. f_equal; apply sumn_ext; intros j Hj.
  - destruct (Nat.ltb_spec j (nc A)); [auto|lia].
  - destruct (Nat.ltb_spec (nc A + j) (nc A)); [lia|]. do 2 f_equal. lia.
Qed.
Lemma vs_ok A B : nc A = nc B -> exists C, vstack2 A B = Ok C /\ nr C = (nr A + nr B)%nat /\ nc C = nc A /\
  (forall x i, (i < nr A)%nat -> rowsum C x i = rowsum A x i) /\ (forall x i, rowsum C x (nr A + i)%nat = rowsum B x i).
Proof.
  intros E. unfold vstack2. rewrite E, Nat.eqb_refl. eexists. split; [reflexivity|]. cbn [nr nc]. split; [auto|]. split; [auto|].
  split; intros x i; unfold rowsum; cbn [nc at_]; rewrite ?E; intros; apply sumn_ext; intros j Hj.
  - destruct (Nat.ltb_spec i (nr A)); [auto|lia].
  - destruct (Nat.ltb_spec (nr A + i) (nr A)); [lia|]. do 2 f_equal. lia.
Qed.
Lemma rs_zeros r c x i : rowsum (zeros r c) x i = 0.
Proof. unfold rowsum, zeros. cbn. unfold sumn. apply sumf_zero. intros. ring. Qed.
Lemma rs_neg A x i : rowsum (neg A) x i = - rowsum A x i.
Proof. unfold rowsum, neg. cbn. unfold sumn. rewrite <- sumf_opp. apply sumf_ext. intros. ring. Qed.
Lemma sumn_delta n i (f : nat -> R) : (i < n)%nat -> sumn n (fun j => (if Nat.eqb i j then 1 else 0) * f j) = f i.
Proof.
  induction n as [|n IH]; intros H; [lia|]. rewrite sumn_S. destruct (Nat.eq_dec i n) as [->|N].
  - rewrite Nat.eqb_refl. unfold sumn. rewrite sumf_zero; [ring|]. intros j Hj. apply in_seq in Hj. destruct (Nat.eqb_spec n j); [lia|ring].
  - rewrite IH by lia. destruct (Nat.eqb_spec i n); [lia|ring].
Qed.
Lemma rs_ident m x i : (i < m)%nat -> rowsum (ident 1 m) x i = x i.
Proof. intros H. unfold rowsum, ident. cbn. apply sumn_delta; auto. Qed.
Lemma rs_ext A x y i : (forall j, (j < nc A)%nat -> x j = y j) -> rowsum A x i = rowsum A y i.
Proof. intros H. apply sumn_ext. intros j Hj. rewrite H; auto. Qed.
Lemma rs_bd A B x i : rowsum (block_diag2 A B) x i = if Nat.ltb i (nr A) then rowsum A x i else rowsum B (fun j => x (nc A + j)%nat) (i - nr A).
Proof.
  unfold rowsum, block_diag2. cbn [nc at_]. rewrite sumn_app. destruct (Nat.ltb_spec i (nr A)).
  - rewrite (sumn_ext (nc B) _ (fun _ => 0)). 2:{ intros j Hj. destruct (Nat.ltb_spec (nc A + j) (nc A)); [lia|ring]. }
    unfold sumn at 2. rewrite sumf_zero by auto. rewrite Rplus_0_r. apply sumn_ext. intros j Hj. destruct (Nat.ltb_spec j (nc A)); [auto|lia].
  - rewrite (sumn_ext (nc A) _ (fun _ => 0)). 2:{ intros j Hj. destruct (Nat.ltb_spec j (nc A)); [ring|lia]. }
    unfold sumn at 1. rewrite sumf_zero by auto. rewrite Rplus_0_l. apply sumn_ext. intros j Hj. destruct (Nat.ltb_spec (nc A + j) (nc A)); [lia|]. do 2 f_equal. lia.
Qed.
Lemma rs_pick l M x i : rowsum (pick_rows l M) x i = rowsum M x (nth i l 0%nat).
Proof. reflexivity. Qed.
Lemma rs_krows n k K x i : k_rows n k = Ok K -> (i < length k)%nat -> nr K = length k /\ nc K = n /\ rowsum K x i = x (Z.to_nat (nth i k 0%Z)) /\ (Z.to_nat (nth i k 0%Z) < n)%nat.
Proof.
  unfold k_rows. destruct (forallb _ k) eqn:E; [|discriminate]. intros Q H. injection Q as <-. rewrite forallb_forall in E.
  assert (I : In (nth i k 0%Z) k) by (apply nth_In; auto). apply E in I. apply andb_prop in I as [I1 I2]. apply Z.leb_le in I1. apply Z.ltb_lt in I2.
  cbn. split; auto. split; auto. split; [|lia]. unfold rowsum. cbn. apply sumn_delta. lia.
Qed.

Lemma gperm_nth d m i j : (i < m)%nat -> (j < d + 1)%nat -> nth (i * (d + 1) + j) (gperm d m) 0%nat = (match j with O => d * m + i | S j => d * i + j end)%nat.
Proof.
  unfold gperm. intros Hi Hj. set (h := fun i => (d * m + i)%nat :: map (fun j => (d * i + j)%nat) (seq 0 d)).
  assert (G : forall s k, (i < k)%nat -> nth (i * (d + 1) + j) (flat_map h (seq s k)) 0%nat = nth j (h (s + i)%nat) 0%nat).
  { clear Hi. induction i as [|i IH]; intros s k Hk; (destruct k as [|k]; [lia|]); cbn [seq flat_map].
    - rewrite app_nth1 by (cbn; rewrite map_length, seq_length; lia). cbn [Nat.mul Nat.add]. rewrite Nat.add_0_r. auto.
    - assert (LH : length (h s) = (d + 1)%nat) by (cbn; rewrite map_length, seq_length; lia).
      rewrite app_nth2 by (rewrite LH; lia). rewrite LH. replace (S i * (d + 1) + j - (d + 1))%nat with (i * (d + 1) + j)%nat by lia. rewrite (IH (S s) k) by lia. f_equal. f_equal. lia. }
  rewrite (G 0%nat m Hi). cbn [Nat.add]. destruct j as [|j]; [reflexivity|]. unfold h. cbn [nth]. rewrite (nth_indep _ _ (d * i + 0)%nat) by (rewrite map_length, seq_length; lia).
  rewrite (map_nth (fun j => (d * i + j)%nat)), seq_nth by lia. auto.
Qed.
Lemma gperm_len d m : length (gperm d m) = (m * (d + 1))%nat.
Proof.
  unfold gperm. assert (G : forall s, length (flat_map (fun i => (d * m + i)%nat :: map (fun j => (d * i + j)%nat) (seq 0 d)) (seq s m)) = (m * (d + 1))%nat); [|apply G].
  generalize (d * m)%nat. intros z. induction m as [|m IH]; intros s; cbn [seq flat_map]; auto. rewrite app_length, IH. cbn. rewrite map_length, seq_length. lia.
Qed.

(** ** what the solvers are told *)
Definition X (x : list R) (i : nat) : R := nth i x 0.
Definition dotn (n : nat) (c : list R) (x : nat -> R) : R := sumn n (fun i => nth i c 0 * x i).
Definition qform (Q : mat) (x : nat -> R) : R := sumn (nr Q) (fun i => x i * rowsum Q x i).
Definition norm_of (k : nat) (v : nat -> R) : R := sqrt (sumn k (fun j => v j * v j)).
