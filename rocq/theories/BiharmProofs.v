From Coq Require Import Reals Psatz.
From Verif Require Import NumpyModel TopoSpec TopoModel TopoProofs.
From Verif Require Import PyExn Vec MatModel MatProofs GeomSpec GeomModel GeomProofs Geom2Proofs ElastModel ElastProofs BiharmModel.
Open Scope R_scope.

Definition mv (M : mat) (y : nat -> R) (i : nat) : R := sumn (nc M) (fun j => at_ M i j * y j).
Lemma sumn_ext n f g : (forall i, (i < n)%nat -> f i = g i) -> sumn n f = sumn n g.
Proof. intro H. unfold sumn. apply sumf_ext. intros i Hi. apply in_seq in Hi. apply H. lia. Qed.
Lemma sumn_swap n m (h : nat -> nat -> R) : sumn n (fun i => sumn m (fun j => h i j)) = sumn m (fun j => sumn n (fun i => h i j)).
Proof. unfold sumn. apply sumf_swap. Qed.
Lemma sumn_scal n c f : sumn n (fun i => c * f i) = c * sumn n f.
Proof. apply sumf_scal. Qed.
Lemma sumn_scal_r n c f : sumn n (fun i => f i * c) = sumn n f * c.
Proof. apply sumf_scal_r. Qed.
Lemma mv_ext M x y i : (forall j, (j < nc M)%nat -> x j = y j) -> mv M x i = mv M y i.
Proof. intro H. apply sumn_ext. intros j Hj. rewrite H by auto. reflexivity. Qed.
Lemma mul_ok A B : nc A = nr B -> exists C, mul A B = Ok C /\ nr C = nr A /\ nc C = nc B /\ forall y i, mv C y i = mv A (mv B y) i.
Proof.
  intro H. unfold mul. rewrite H, Nat.eqb_refl. eexists. split; [reflexivity|]. split; [reflexivity|]. split; [reflexivity|]. intros y i. unfold mv. cbn [nc at_].
  transitivity (sumn (nc B) (fun j => sumn (nr B) (fun k => at_ A i k * at_ B k j * y j))). { apply sumn_ext. intros j _. rewrite <- sumn_scal_r. reflexivity. }
  rewrite sumn_swap, H. apply sumn_ext. intros k _. rewrite <- sumn_scal. apply sumn_ext. intros. ring.
Qed.
Lemma adjoint M x z : sumn (nc M) (fun i => x i * mv (transpose M) z i) = sumn (nr M) (fun k => mv M x k * z k).
Proof.
  unfold mv, transpose. cbn [nc nr at_]. transitivity (sumn (nc M) (fun i => sumn (nr M) (fun k => at_ M k i * x i * z k))).
  { apply sumn_ext. intros i _. rewrite <- sumn_scal. apply sumn_ext. intros. ring. } rewrite sumn_swap. apply sumn_ext. intros k _. rewrite sumn_scal_r. reflexivity.
Qed.
Lemma mv_diag v y i : (i < length v)%nat -> mv (diag v) y i = nth i v 0 * y i.
Proof.
  intro H. unfold mv, diag. cbn [nc at_]. rewrite <- (pick (length v) y i (nth i v 0) H) at 1 || idtac.
  transitivity (sumn (length v) (fun k => y k * (if Nat.eqb k i then nth i v 0 else 0))). { apply sumn_ext. intros k _. rewrite Nat.eqb_sym. destruct (Nat.eqb k i); ring. } rewrite pick by auto. ring.
Qed.
(** x' Q y *)
Definition bil (Q : mat) (x y : nat -> R) : R := sumn (nr Q) (fun i => x i * mv Q y i).
Lemma bil_entry Q i j : (i < nr Q)%nat -> (j < nc Q)%nat -> at_ Q i j = bil Q (fun k => if Nat.eqb k i then 1 else 0) (fun k => if Nat.eqb k j then 1 else 0).
Proof.
  intros Hi Hj. unfold bil. transitivity (sumn (nr Q) (fun k => mv Q (fun k0 => if Nat.eqb k0 j then 1 else 0) k * (if Nat.eqb k i then 1 else 0))).
  2:{ apply sumn_ext. intros. ring. } rewrite pick by auto. unfold mv. rewrite pick by auto. ring.
Qed.
Lemma mv_unit Q y i : (i < nr Q)%nat -> mv Q y i = bil Q (fun k => if Nat.eqb k i then 1 else 0) y.
Proof.
  intro Hi. unfold bil. transitivity (sumn (nr Q) (fun k => mv Q y k * (if Nat.eqb k i then 1 else 0))). { rewrite pick by auto. ring. } apply sumn_ext. intros. ring.
Qed.
(** a matrix of the form sum_j w_j h_j h_j' *)
Lemma gram_sym Q N w (h : (nat -> R) -> nat -> R) : nr Q = nc Q -> (forall x y, bil Q x y = sumn N (fun j => w j * h x j * h y j)) -> forall i j, (i < nr Q)%nat -> (j < nr Q)%nat -> at_ Q i j = at_ Q j i.
Proof. intros S H i j Hi Hj. rewrite !bil_entry by congruence. rewrite !H. apply sumn_ext. intros. ring. Qed.
Lemma gram_psd Q N w (h : (nat -> R) -> nat -> R) : (forall x y, bil Q x y = sumn N (fun j => w j * h x j * h y j)) -> (forall j, (j < N)%nat -> 0 <= w j) -> forall x, 0 <= bil Q x x.
Proof. intros H W x. rewrite H. apply sumf_nonneg. intros j Hj. apply in_seq in Hj. rewrite Rmult_assoc. apply Rmult_le_pos; [apply W; lia|]. apply Rle_0_sqr. Qed.
Lemma gram_kernel Q N w (h : (nat -> R) -> nat -> R) : (forall x y, bil Q x y = sumn N (fun j => w j * h x j * h y j)) -> forall y, (forall j, (j < N)%nat -> h y j = 0) -> forall i, (i < nr Q)%nat -> mv Q y i = 0.
Proof. intros H y K i Hi. rewrite mv_unit by auto. rewrite H. apply sumf_zero. intros j Hj. apply in_seq in Hj. rewrite K by lia. ring. Qed.

Lemma product7_ok G v D w : length v = nr G -> length v = nr D -> length w = nc D ->
  exists Q, product7 G (diag v) D (diag w) = Ok Q /\ nr Q = nc G /\ nc Q = nc G /\
  forall x y, bil Q x y = sumn (nc D) (fun j => nth j w 0 * mv (transpose D) (fun k => nth k v 0 * mv G x k) j * mv (transpose D) (fun k => nth k v 0 * mv G y k) j).
Proof.
  intros H1 H2 H3. unfold product7.
  destruct (mul_ok (transpose G) (diag v)) as (m1 & -> & R1 & C1 & E1); [cbn; auto|]. cbn [bind].
  destruct (mul_ok m1 D) as (m2 & -> & R2 & C2 & E2); [cbn in *; congruence|]. cbn [bind].
  destruct (mul_ok m2 (diag w)) as (m3 & -> & R3 & C3 & E3); [cbn in *; congruence|]. cbn [bind].
  destruct (mul_ok m3 (transpose D)) as (m4 & -> & R4 & C4 & E4); [cbn in *; congruence|]. cbn [bind].
  destruct (mul_ok m4 (diag v)) as (m5 & -> & R5 & C5 & E5); [cbn in *; congruence|]. cbn [bind].
  destruct (mul_ok m5 G) as (m6 & -> & R6 & C6 & E6); [cbn in *; congruence|].
  exists m6. split; [reflexivity|]. cbn [transpose diag nr nc] in *. split; [congruence|]. split; [congruence|]. intros x y.
  unfold bil. assert (nr m6 = nc G) as -> by congruence.
  set (h := fun x => mv (transpose D) (fun k => nth k v 0 * mv G x k)).
  assert (forall i, mv m6 y i = mv (transpose G) (mv (diag v) (mv D (mv (diag w) (h y)))) i) as E.
  { intro i. rewrite E6, E5, E4, E3, E2, E1. apply mv_ext. intros k Hk. apply mv_ext. intros k' Hk'. apply mv_ext. intros k2 Hk2. apply mv_ext. intros k3 Hk3. unfold h. apply mv_ext. intros k4 Hk4. apply mv_diag. cbn in Hk4. congruence. }
  transitivity (sumn (nc G) (fun i => x i * mv (transpose G) (mv (diag v) (mv D (mv (diag w) (h y)))) i)). { apply sumn_ext. intros. rewrite E. reflexivity. }
  rewrite adjoint.
  transitivity (sumn (nr D) (fun k => (nth k v 0 * mv G x k) * mv D (mv (diag w) (h y)) k)).
  { rewrite <- H1, H2. apply sumn_ext. intros k Hk. rewrite mv_diag by congruence. ring. }
  assert (sumn (nr D) (fun k => (nth k v 0 * mv G x k) * mv D (mv (diag w) (h y)) k) = sumn (nc D) (fun j => h x j * mv (diag w) (h y) j)) as A2.
  { pose proof (adjoint (transpose D) (fun k => nth k v 0 * mv G x k) (mv (diag w) (h y))) as AD. cbn [transpose nc nr] in AD. exact AD. }
  rewrite A2. apply sumn_ext. intros j Hj. rewrite mv_diag by congruence. unfold h. ring.
Qed.
