From Verif Require Import MatModel.
From Coq Require Import Permutation.
Open Scope R_scope.

Section Sum.
  Context {A : Type}.
  Implicit Types (f g : A -> R) (l : list A).
  Lemma sumf_app f l1 l2 : sumf f (l1 ++ l2) = sumf f l1 + sumf f l2.
  Proof. induction l1; cbn; [lra | rewrite IHl1; lra]. Qed.
  Lemma sumf_ext f g l : (forall x, In x l -> f x = g x) -> sumf f l = sumf g l.
  Proof. induction l; cbn; intros Q; auto. rewrite Q, IHl; auto. Qed.
  Lemma sumf_zero f l : (forall x, In x l -> f x = 0) -> sumf f l = 0.
  Proof. induction l; cbn; intros Q; auto. rewrite Q, IHl; auto; lra. Qed.
  Lemma sumf_plus f g l : sumf (fun x => f x + g x) l = sumf f l + sumf g l.
  Proof. induction l; cbn; [lra | rewrite IHl; lra]. Qed.
  Lemma sumf_minus f g l : sumf (fun x => f x - g x) l = sumf f l - sumf g l.
  Proof. induction l; cbn; [lra | rewrite IHl; lra]. Qed.
  Lemma sumf_scal c f l : sumf (fun x => c * f x) l = c * sumf f l.
  Proof. induction l; cbn; [lra | rewrite IHl; lra]. Qed.
  Lemma sumf_scal_r c f l : sumf (fun x => f x * c) l = sumf f l * c.
  Proof. induction l; cbn; [lra | rewrite IHl; lra]. Qed.
  Lemma sumf_opp f l : sumf (fun x => - f x) l = - sumf f l.
  Proof. induction l; cbn; [lra | rewrite IHl; lra]. Qed.
  Lemma sumf_const c l : sumf (fun _ => c) l = INR (length l) * c.
  Proof. induction l; [cbn; lra|]. cbn [sumf length]. rewrite S_INR, IHl; lra. Qed.
  Lemma sumf_nonneg f l : (forall x, In x l -> 0 <= f x) -> 0 <= sumf f l.
  Proof. induction l; cbn; intros Q; [lra|]. apply Rplus_le_le_0_compat; auto. Qed.
  Lemma sumf_le f g l : (forall x, In x l -> f x <= g x) -> sumf f l <= sumf g l.
  Proof. induction l; cbn; intros Q; [lra|]. apply Rplus_le_compat; auto. Qed.
  Lemma sumf_perm f l l' : Permutation l l' -> sumf f l = sumf f l'.
  Proof. induction 1; cbn; lra. Qed.
  Lemma sumf_filter f (p : A -> bool) l : sumf f (filter p l) = sumf (fun x => if p x then f x else 0) l.
  Proof. induction l as [|x l IH]; cbn; auto. destruct (p x); cbn; rewrite IH; lra. Qed.
  Lemma sumf_map {B} (h : B -> A) f (l : list B) : sumf f (map h l) = sumf (fun x => f (h x)) l.
  Proof. induction l; cbn; auto. rewrite IHl; auto. Qed.
  Lemma sumf_flat_map {B} (h : B -> list A) f (l : list B) : sumf f (flat_map h l) = sumf (fun x => sumf f (h x)) l.
  Proof. induction l; cbn; auto. rewrite sumf_app, IHl; auto. Qed.
  Lemma sumf_concat f (ll : list (list A)) : sumf f (concat ll) = sumf (sumf f) ll.
  Proof. induction ll; cbn; auto. rewrite sumf_app, IHll; auto. Qed.
End Sum.
Lemma sumf_swap {A B} (h : A -> B -> R) l l' :
  sumf (fun a => sumf (h a) l') l = sumf (fun b => sumf (fun a => h a b) l) l'.
Proof.
  induction l as [|a l IH]; cbn.
  - symmetry. apply sumf_zero; auto.
  - rewrite IH, <- sumf_plus. apply sumf_ext; auto.
Qed.

(** picking one index out of 0..n-1 *)
Lemma sumn_pick n (c : Z) (g : Z -> R) : (0 <= c < Z.of_nat n)%Z ->
  sumn n (fun j => if (c =? Z.of_nat j)%Z then g (Z.of_nat j) else 0) = g c.
Proof.
  unfold sumn. intros H.
  assert (G : forall s k, sumf (fun j => if (c =? Z.of_nat j)%Z then g (Z.of_nat j) else 0) (seq s k)
     = if ((Z.of_nat s <=? c) && (c <? Z.of_nat (s + k)))%Z then g c else 0).
  { intros s k; revert s; induction k as [|k IH]; intros s; cbn.
    - destruct (Z.leb_spec (Z.of_nat s) c), (Z.ltb_spec c (Z.of_nat (s+0))); cbn; auto; lia.
    - rewrite IH. destruct (Z.eqb_spec c (Z.of_nat s)) as [->|N].
      + destruct (Z.leb_spec (Z.of_nat (S s)) (Z.of_nat s)); [lia|]. cbn [andb].
        destruct (Z.leb_spec (Z.of_nat s) (Z.of_nat s)); [|lia]. cbn [andb].
        destruct (Z.ltb_spec (Z.of_nat s) (Z.of_nat (s + S k))); [lra|lia].
      + rewrite Rplus_0_l.
        destruct (Z.leb_spec (Z.of_nat (S s)) c), (Z.leb_spec (Z.of_nat s) c),
          (Z.ltb_spec c (Z.of_nat (S s + k))), (Z.ltb_spec c (Z.of_nat (s + S k))); cbn; auto; lia. }
  rewrite G. destruct (Z.leb_spec (Z.of_nat 0) c), (Z.ltb_spec c (Z.of_nat (0 + n))); cbn; auto; lia.
Qed.

Definition cols_in (n : nat) (M : list trip) := forall t, In t M -> (0 <= tcol t < Z.of_nat n)%Z.
Definition rows_in (n : nat) (M : list trip) := forall t, In t M -> (0 <= trow t < Z.of_nat n)%Z.

(** triplet form of the matrix-vector product *)
Lemma mulv_trip n M x i : cols_in n M ->
  mulv n M x i = sumf (fun t => if (trow t =? i)%Z then tval t * x (tcol t) else 0) M.
Proof.
  intros C. unfold mulv, sumn.
  transitivity (sumf (fun j => sumf (fun t => if ((trow t =? i) && (tcol t =? Z.of_nat j))%Z then tval t * x (Z.of_nat j) else 0) M) (seq 0 n)).
  { apply sumf_ext. intros j _. unfold entry. rewrite <- sumf_scal_r. apply sumf_ext. intros t _.
    destruct ((trow t =? i) && (tcol t =? Z.of_nat j))%Z; lra. }
  rewrite sumf_swap. apply sumf_ext. intros t It. destruct (trow t =? i)%Z; cbn [andb].
  - apply (sumn_pick n (tcol t) (fun j => tval t * x j)); auto.
  - apply sumf_zero; auto.
Qed.

Lemma matmul_trip n A B i j : cols_in n A ->
  matmul n A B i j = sumf (fun t => if (trow t =? i)%Z then tval t * entry B (tcol t) j else 0) A.
Proof. intros C. exact (mulv_trip n A (fun k => entry B k j) i C). Qed.

Lemma quadform_trip n M x : cols_in n M -> rows_in n M ->
  quadform n M x = sumf (fun t => tval t * x (trow t) * x (tcol t)) M.
Proof.
  intros C Rw. unfold quadform, sumn.
  transitivity (sumf (fun i => sumf (fun t => if (trow t =? Z.of_nat i)%Z then x (Z.of_nat i) * (tval t * x (tcol t)) else 0) M) (seq 0 n)).
  { apply sumf_ext. intros i _. rewrite mulv_trip by auto. rewrite <- sumf_scal. apply sumf_ext. intros t _.
    destruct (trow t =? Z.of_nat i)%Z; lra. }
  rewrite sumf_swap. apply sumf_ext. intros t It.
  etransitivity; [apply (sumn_pick n (trow t) (fun i => x i * (tval t * x (tcol t)))); auto|]. cbn. ring.
Qed.

Lemma entry_app A B i j : entry (A ++ B) i j = entry A i j + entry B i j.
Proof. apply sumf_app. Qed.
Lemma csr_ok rows cols l : (forall t, In t l -> (0 <= trow t < rows)%Z /\ (0 <= tcol t < cols)%Z) -> csr rows cols l = Ok l.
Proof.
  intros Q. unfold csr. rewrite (proj2 (forallb_forall _ _)); auto. intros t I. unfold in_shape. destruct (Q t I).
  rewrite !andb_true_iff, !Z.leb_le, !Z.ltb_lt. lia.
Qed.
Lemma csr_inv rows cols l M : csr rows cols l = Ok M -> M = l /\ forall t, In t l -> (0 <= trow t < rows)%Z /\ (0 <= tcol t < cols)%Z.
Proof.
  unfold csr. destruct (forallb _ l) eqn:E; [|discriminate]. intros Q; injection Q as <-. split; auto.
  intros t I. rewrite forallb_forall in E. specialize (E t I). unfold in_shape in E.
  rewrite !andb_true_iff, !Z.leb_le, !Z.ltb_lt in E. lia.
Qed.

(** total of all entries *)
Lemma total_trip n M : cols_in n M -> rows_in n M ->
  sumn n (fun i => sumn n (fun j => entry M (Z.of_nat i) (Z.of_nat j))) = sumf tval M.
Proof.
  intros C Rw. pose proof (quadform_trip n M (fun _ => 1) C Rw) as Q. unfold quadform, mulv in Q.
  etransitivity; [|etransitivity; [exact Q|]].
  - unfold sumn. apply sumf_ext. intros i _. rewrite Rmult_1_l. apply sumf_ext. intros. lra.
  - apply sumf_ext. intros. lra.
Qed.
