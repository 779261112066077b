(** Proofs for linear_elasticity_stiffness *)
From Coq Require Import List Arith ZArith Lia Bool Reals Lra.
From Verif Require Import MatModel NumpyModel TopoModel Vec GeomModel GeomSpec MatProofs GeomProofs Geom2Proofs Subdiv3Proofs LoopSubProofs ElastModel.
Open Scope R_scope.

Lemma pick m f r c : (r < m)%nat -> sumn m (fun k => f k * (if Nat.eqb k r then c else 0)) = f r * c.
Proof.
  intros L. unfold sumn. rewrite (sumf_ext _ (fun k => if Nat.eqb k r then f k * c else 0)).
  2:{ intros k _. destruct (Nat.eqb k r); ring. }
  rewrite (sumf_unique (fun k => Nat.eqb k r) (fun k => f k * c) (seq 0 m) r); auto.
  - apply seq_NoDup.
  - apply in_seq; lia.
  - apply Nat.eqb_refl.
  - intros x _ E. now apply Nat.eqb_eq in E.
Qed.

Definition cmat (l mu : R) (b b' : nat) : R :=
  match b, b' with
  | 0%nat, 0%nat | 1%nat, 1%nat => l + 2 * mu
  | 0%nat, 1%nat | 1%nat, 0%nat => l
  | 2%nat, 2%nat => mu
  | _, _ => 0 end.

(** D A C strain, entry by entry, for block-diagonal A and block C *)
Section Prod.
  Variables (m : nat) (S A C : nat -> nat -> R) (a : nat -> R) (l mu : R).
  Hypothesis HA : forall b b' r r', (b < 3)%nat -> (b' < 3)%nat -> (r < m)%nat -> (r' < m)%nat ->
     A (b * m + r)%nat (b' * m + r')%nat = if (Nat.eqb b b') then (if Nat.eqb r r' then a r else 0) else 0.
  Hypothesis HC : forall b b' r r', (b < 3)%nat -> (b' < 3)%nat -> (r < m)%nat -> (r' < m)%nat ->
     C (b * m + r)%nat (b' * m + r')%nat = if Nat.eqb r r' then cmat l mu b b' else 0.

  Lemma sum3 f : sumn (m + m + m) f = sumn m (fun r => f (0 * m + r)%nat) + sumn m (fun r => f (1 * m + r)%nat) + sumn m (fun r => f (2 * m + r)%nat).
  Proof.
    rewrite !sumn_app. f_equal; [f_equal|]; unfold sumn; apply sumf_ext; intros k _; f_equal; lia.
  Qed.
  Lemma DA_eq i b r : (b < 3)%nat -> (r < m)%nat ->
    sumn (m + m + m) (fun k => S k i * A k (b * m + r)%nat) = S (b * m + r)%nat i * a r.
  Proof using HA.
    intros Hb Hr. rewrite sum3.
    assert (P : forall b', (b' < 3)%nat -> sumn m (fun r0 => S (b' * m + r0)%nat i * A (b' * m + r0)%nat (b * m + r)%nat) = if Nat.eqb b' b then S (b * m + r)%nat i * a r else 0).
    { intros b' Hb'. unfold sumn. rewrite (sumf_ext _ (fun k => S (b' * m + k)%nat i * (if Nat.eqb k r then (if Nat.eqb b' b then a r else 0) else 0))).
      2:{ intros k I. apply in_seq in I. rewrite HA by lia. destruct (Nat.eqb_spec b' b), (Nat.eqb_spec k r); subst; ring. }
      fold (sumn m (fun k => S (b' * m + k)%nat i * (if Nat.eqb k r then (if Nat.eqb b' b then a r else 0) else 0))).
      rewrite (pick m (fun k => S (b' * m + k)%nat i)) by auto. destruct (Nat.eqb_spec b' b); subst; ring. }
    rewrite !P by lia. destruct b as [|[|[|]]]; try lia; cbn [Nat.eqb]; ring.
  Qed.
  Lemma DAC_eq i b r : (b < 3)%nat -> (r < m)%nat ->
    sumn (m + m + m) (fun k => sumn (m + m + m) (fun k' => S k' i * A k' k) * C k (b * m + r)%nat)
    = a r * (S (0 * m + r)%nat i * cmat l mu 0 b + S (1 * m + r)%nat i * cmat l mu 1 b + S (2 * m + r)%nat i * cmat l mu 2 b).
  Proof using HA HC.
    intros Hb Hr. rewrite sum3.
    assert (P : forall b', (b' < 3)%nat -> sumn m (fun r0 => sumn (m + m + m) (fun k' => S k' i * A k' (b' * m + r0)%nat) * C (b' * m + r0)%nat (b * m + r)%nat) = S (b' * m + r)%nat i * a r * cmat l mu b' b).
    { intros b' Hb'. unfold sumn at 1. rewrite (sumf_ext _ (fun k => (S (b' * m + k)%nat i * a k) * (if Nat.eqb k r then cmat l mu b' b else 0))).
      2:{ intros k I. apply in_seq in I. rewrite DA_eq, HC by lia. reflexivity. }
      fold (sumn m (fun k => (S (b' * m + k)%nat i * a k) * (if Nat.eqb k r then cmat l mu b' b else 0))).
      rewrite (pick m (fun k => S (b' * m + k)%nat i * a k)) by auto. reflexivity. }
    rewrite !P by lia. ring.
  Qed.
  (** the bilinear form of the element matrix *)
  Definition cform (e0 e1 e2 d0 d1 d2 : R) : R := (l + 2 * mu) * (e0 * d0 + e1 * d1) + l * (e0 * d1 + e1 * d0) + mu * (e2 * d2).
  Lemma K_eq i j :
    sumn (m + m + m) (fun k => sumn (m + m + m) (fun k1 => sumn (m + m + m) (fun k2 => S k2 i * A k2 k1) * C k1 k) * S k j)
    = sumn m (fun r => a r * cform (S r i) (S (m + r)%nat i) (S (m + m + r)%nat i) (S r j) (S (m + r)%nat j) (S (m + m + r)%nat j)).
  Proof using HA HC.
    rewrite sum3. unfold sumn at 1 4 7. rewrite <- !sumf_plus. apply sumf_ext. intros r I. apply in_seq in I.
    rewrite !DAC_eq by lia. unfold cform, cmat.
    replace (0 * m + r)%nat with r by lia. replace (1 * m + r)%nat with (m + r)%nat by lia. replace (2 * m + r)%nat with (m + m + r)%nat by lia. ring.
  Qed.
End Prod.

(** the strain matrix of a mesh with face gradients g0 (x) and g1 (y) *)
Definition smat (n m : nat) (g : nat -> nat -> R) (k j : nat) : R :=
  if Nat.ltb k m then (if Nat.ltb j n then g k j else 0)
  else if Nat.ltb k (m + m) then (if Nat.ltb j n then 0 else g k (j - n)%nat)
  else if Nat.ltb j n then g (k - m)%nat j else g (k - (m + m))%nat (j - n)%nat.

Lemma vols_len V F volumes : length (match volumes with None => map (fun t => doublearea (fun i => row_of2 (V i)) t * (1 / 2)) F | Some v => v end : list R)
   = match volumes with None => length F | Some v => length v end.
Proof. destruct volumes; auto. apply map_length. Qed.

Definition areas (V : Z -> vec2) (F : list tri) (volumes : option (list R)) : list R :=
  match volumes with None => map (fun t => doublearea (fun i => row_of2 (V i)) t * (1 / 2)) F | Some v => v end.

Lemma of_trips_slice n m Gr : (n <= 2 * m)%nat ->
  let G := slice (of_trips (3 * m) n Gr) 0 (2 * m) (2 * m) in
  nr G = (2 * m)%nat /\ nc G = n.
Proof. intros H. unfold slice, of_trips; cbn [nr nc]. lia. Qed.

Ltac ltbs := repeat match goal with
  | |- context[Nat.ltb ?a ?b] => destruct (Nat.ltb_spec a b); try lia
  | |- context[Nat.eqb ?a ?b] => destruct (Nat.eqb_spec a b); try lia end.

Lemma elast_full V n F Kb mu volumes mass : valid (Z.of_nat n) F -> (n <= 2 * length F)%nat ->
  match volumes with None => True | Some v => length v = length F end ->
  exists Gr KK C S A M M0, grad3 (fun i => (fst (V i), snd (V i), 0)) (Z.of_nat n) F = Ok Gr
    /\ linear_elasticity_stiffness V n F Kb mu volumes mass = Ok (KK, C, S, A, M)
    /\ nr KK = (n + n)%nat /\ nc KK = (n + n)%nat
    /\ (match mass with None => do Mt <- massmatrix (fun i => row_of2 (V i)) (Z.of_nat n) F Voronoi; Ok (of_trips n n Mt) | Some M => Ok M end) = Ok M0 /\ M = block_diag2 M0 M0
    /\ nr C = (length F + length F + length F)%nat /\ nc C = (length F + length F + length F)%nat /\ nr S = (length F + length F + length F)%nat /\ nc S = (n + n)%nat
    /\ (forall k j, (k < length F + length F + length F)%nat -> (j < n + n)%nat -> at_ S k j = smat n (length F) (fun r j => entry Gr (Z.of_nat r) (Z.of_nat j)) k j)
    /\ (forall b b' r r', (b < 3)%nat -> (b' < 3)%nat -> (r < length F)%nat -> (r' < length F)%nat ->
         at_ C (b * length F + r)%nat (b' * length F + r')%nat = if Nat.eqb r r' then cmat (Kb - (2/3) * mu) mu b b' else 0)
    /\ forall i j, (i < n + n)%nat -> (j < n + n)%nat -> at_ KK i j =
       let m := length F in let s := smat n m (fun r j => entry Gr (Z.of_nat r) (Z.of_nat j)) in
       sumn m (fun r => nth r (areas V F volumes) 0 * cform (Kb - (2/3) * mu) mu (s r i) (s (m + r)%nat i) (s (m + m + r)%nat i) (s r j) (s (m + r)%nat j) (s (m + m + r)%nat j)).
Proof.
  intros Va Hn HV. destruct (grad3_ok (fun i => (fst (V i), snd (V i), 0)) n F Va) as (Gr & QG & _).
  set (m := length F) in *. set (l := Kb - (2/3) * mu).
  assert (QM : exists M, (match mass with
          | None => do Mt <- massmatrix (fun i => row_of2 (V i)) (Z.of_nat n) F Voronoi; Ok (of_trips n n Mt)
          | Some M => Ok M end) = Ok M).
  { destruct mass as [M|]; [eauto|]. unfold massmatrix. rewrite mass_is; [|rewrite with_lsq_fst; auto|discriminate]. cbn [bind]. eauto. }
  destruct QM as (M0 & QM).
  assert (AL : length (areas V F volumes) = m).
  { unfold areas. destruct volumes; [exact HV|apply map_length]. }
  unfold linear_elasticity_stiffness. fold m. fold l. rewrite QG. cbn [bind].
  set (G := slice (of_trips (3 * m) n Gr) 0 (2 * m) (2 * m)).
  destruct (of_trips_slice n m Gr Hn) as (GR & GC). fold G in GR, GC.
  set (G0 := slice G 0 m (nc G)). set (G1 := slice G m (2 * m) (nc G)).
  assert (G0R : nr G0 = m) by (unfold G0, slice; cbn [nr]; lia).
  assert (G1R : nr G1 = m) by (unfold G1, slice; cbn [nr]; lia).
  assert (G0C : nc G0 = n) by (unfold G0, slice at 1; cbn [nc]; lia).
  assert (G1C : nc G1 = n) by (unfold G1, slice at 1; cbn [nc]; lia).
  assert (G0E : forall r j, at_ G0 r j = entry Gr (Z.of_nat r) (Z.of_nat j)) by reflexivity.
  assert (G1E : forall r j, at_ G1 r j = entry Gr (Z.of_nat (m + r)) (Z.of_nat j)) by reflexivity.
  clearbody G0 G1. clear G GR GC.
  unfold hstack2 at 1. cbn [zeros nr nc at_]. rewrite G0R, Nat.eqb_refl. cbn [bind].
  unfold hstack2 at 1. cbn [zeros nr nc at_]. rewrite G1R, Nat.eqb_refl. cbn [bind].
  unfold hstack2 at 1. rewrite G0R, G1R, Nat.eqb_refl. cbn [bind].
  unfold vstack3, vstack2. cbn [nr nc at_]. rewrite G0C, G1C, Nat.eqb_refl. cbn [bind nr nc at_]. rewrite Nat.eqb_refl. cbn [bind].
  unfold hstack3, hstack2. cbn [ident nr nc at_]. rewrite Nat.eqb_refl. cbn [bind nr nc at_]. rewrite Nat.eqb_refl. cbn [bind nr nc at_].
  rewrite Nat.eqb_refl. cbn [bind nr nc at_].
  set (C := mkmat (m + m + m) (m + m + m) _). set (S := mkmat (m + m + m) (n + n) _).
  assert (SE : forall k j, (k < m + m + m)%nat -> (j < n + n)%nat -> at_ S k j = smat n m (fun r j => entry Gr (Z.of_nat r) (Z.of_nat j)) k j).
  { intros k j Hk Hj. unfold S, smat; cbn [at_ nc]. ltbs; rewrite ?G0E, ?G1E; auto; try (f_equal; lia). }
  assert (CE : forall b b' r r', (b < 3)%nat -> (b' < 3)%nat -> (r < m)%nat -> (r' < m)%nat ->
     at_ C (b * m + r)%nat (b' * m + r')%nat = if Nat.eqb r r' then cmat l mu b b' else 0).
  { intros b b' r r' Hb Hb' Hr Hr'. unfold C; cbn [at_].
    destruct b as [|[|[|]]]; try lia; destruct b' as [|[|[|]]]; try lia; unfold cmat; ltbs; auto. }
  set (A1 := match volumes with None => _ | Some v => diag v end).
  assert (A1E : A1 = diag (areas V F volumes)) by (unfold A1, areas; destruct volumes; reflexivity).
  clearbody A1. subst A1.
  set (A := block_diag2 _ (diag (areas V F volumes))).
  assert (AR : nr A = (m + m + m)%nat) by (unfold A; cbn [block_diag2 nr diag]; rewrite AL; auto).
  assert (AC : nc A = (m + m + m)%nat) by (unfold A; cbn [block_diag2 nc diag]; rewrite AL; auto).
  assert (AE : forall b b' r r', (b < 3)%nat -> (b' < 3)%nat -> (r < m)%nat -> (r' < m)%nat ->
     at_ A (b * m + r)%nat (b' * m + r')%nat = if (Nat.eqb b b') then (if Nat.eqb r r' then nth r (areas V F volumes) 0 else 0) else 0).
  { intros b b' r r' Hb Hb' Hr Hr'. unfold A; cbn [at_ block_diag2 nr nc diag]. rewrite AL.
    destruct b as [|[|[|]]]; try lia; destruct b' as [|[|[|]]]; try lia; cbn [Nat.eqb]; ltbs; auto; f_equal; lia. }
  rewrite QM. cbn [bind]. unfold mul, transpose. cbn [nr nc at_]. rewrite AR, AC, Nat.eqb_refl. cbn [bind nr nc at_].
  change (nr C) with (m + m + m)%nat. change (nc C) with (m + m + m)%nat. change (nr S) with (m + m + m)%nat. change (nc S) with (n + n)%nat. repeat (rewrite Nat.eqb_refl; cbn [bind nr nc at_]).
  do 7 eexists. split; [reflexivity|]. split; [reflexivity|]. split; [reflexivity|]. split; [reflexivity|].
  split; [reflexivity|]. split; [reflexivity|]. split; [reflexivity|]. split; [reflexivity|]. split; [reflexivity|]. split; [reflexivity|]. split; [exact SE|]. split; [exact CE|].
  intros i j Hi Hj. cbn [at_]. cbn zeta.
  rewrite (K_eq m (at_ S) (at_ A) (at_ C) (fun r => nth r (areas V F volumes) 0) l mu AE CE).
  unfold sumn. apply sumf_ext. intros r I. apply in_seq in I. rewrite !SE by lia. reflexivity.
Qed.

Lemma elast_ok V n F Kb mu volumes mass : valid (Z.of_nat n) F -> (n <= 2 * length F)%nat ->
  match volumes with None => True | Some v => length v = length F end ->
  exists Gr KK C S A M, grad3 (fun i => (fst (V i), snd (V i), 0)) (Z.of_nat n) F = Ok Gr
    /\ linear_elasticity_stiffness V n F Kb mu volumes mass = Ok (KK, C, S, A, M)
    /\ nr KK = (n + n)%nat /\ nc KK = (n + n)%nat
    /\ forall i j, (i < n + n)%nat -> (j < n + n)%nat -> at_ KK i j =
       let m := length F in let s := smat n m (fun r j => entry Gr (Z.of_nat r) (Z.of_nat j)) in
       sumn m (fun r => nth r (areas V F volumes) 0 * cform (Kb - (2/3) * mu) mu (s r i) (s (m + r)%nat i) (s (m + m + r)%nat i) (s r j) (s (m + r)%nat j) (s (m + m + r)%nat j)).
Proof.
  intros Va Hn HV. destruct (elast_full V n F Kb mu volumes mass Va Hn HV) as (Gr & KK & C & S & A & M & M0 & H1 & H2 & H3 & H4 & _ & _ & _ & _ & _ & _ & _ & _ & H5).
  exists Gr, KK, C, S, A, M. auto.
Qed.

(** with too few faces the column slice of :68 makes the rows of the strain matrix uneven *)
Lemma elast_bad V n F Kb mu volumes mass : valid (Z.of_nat n) F -> (2 * length F < n)%nat ->
  linear_elasticity_stiffness V n F Kb mu volumes mass = Err ValueError.
Proof.
  intros Va Hn. destruct (grad3_ok (fun i => (fst (V i), snd (V i), 0)) n F Va) as (Gr & QG & _).
  unfold linear_elasticity_stiffness. rewrite QG. cbn [bind]. set (m := length F) in *.
  set (G := slice (of_trips (3 * m) n Gr) 0 (2 * m) (2 * m)).
  assert (GR : nr G = (2 * m)%nat) by (unfold G, slice; cbn [nr of_trips]; lia).
  assert (GC : nc G = (2 * m)%nat) by (unfold G, slice; cbn [nc of_trips]; lia).
  unfold hstack2 at 1. unfold slice at 1, zeros at 1; cbn [nr nc]. replace (Nat.eqb _ m) with true by (symmetry; apply Nat.eqb_eq; lia). cbn [bind].
  unfold hstack2 at 1. unfold zeros at 1, slice at 1; cbn [nr nc]. replace (Nat.eqb m _) with true by (symmetry; apply Nat.eqb_eq; lia). cbn [bind].
  unfold hstack2 at 1. unfold slice at 1 2; cbn [nr nc]. replace (Nat.eqb _ _) with true by (symmetry; apply Nat.eqb_eq; lia). cbn [bind].
  unfold vstack3, vstack2 at 1. cbn [nr nc slice zeros]. replace (Nat.eqb _ _) with true by (symmetry; apply Nat.eqb_eq; lia). cbn [bind].
  unfold vstack2 at 1. cbn [nr nc slice zeros]. replace (Nat.eqb _ _) with false by (symmetry; apply Nat.eqb_neq; lia). reflexivity.
Qed.

Lemma smat_mul n m g u k : (k < m)%nat ->
  sumn (n + n) (fun j => smat n m g k j * u j) = sumn n (fun j => g k j * u j)
  /\ sumn (n + n) (fun j => smat n m g (m + k)%nat j * u j) = sumn n (fun j => g (m + k)%nat j * u (n + j)%nat)
  /\ sumn (n + n) (fun j => smat n m g (m + m + k)%nat j * u j) = sumn n (fun j => g (m + k)%nat j * u j) + sumn n (fun j => g k j * u (n + j)%nat).
Proof.
  intros H. rewrite !sumn_app. unfold sumn. repeat split.
  - rewrite (sumf_ext (fun i => smat n m g k (n + i) * u (n + i)%nat) (fun _ => 0)).
    2:{ intros j I. apply in_seq in I. unfold smat. ltbs. ring. }
    rewrite sumf_const, Rmult_0_r, Rplus_0_r. apply sumf_ext. intros j I. apply in_seq in I. unfold smat. ltbs. ring.
  - rewrite (sumf_ext (fun i => smat n m g (m + k) i * u i) (fun _ => 0)).
    2:{ intros j I. apply in_seq in I. unfold smat. ltbs. ring. }
    rewrite sumf_const, Rmult_0_r, Rplus_0_l. apply sumf_ext. intros j I. apply in_seq in I. unfold smat. ltbs. do 2 f_equal; lia.
  - f_equal; apply sumf_ext; intros j I; apply in_seq in I; unfold smat; ltbs; do 2 f_equal; lia.
Qed.

Lemma row_mul (n m : nat) (a : nat -> R) l mu (s : nat -> nat -> R) (e0 e1 e2 : nat -> R) (w : nat -> R) N :
  sumn N (fun j => sumn m (fun r => a r * cform l mu (e0 r) (e1 r) (e2 r) (s r j) (s (m + r)%nat j) (s (m + m + r)%nat j)) * w j)
  = sumn m (fun r => a r * cform l mu (e0 r) (e1 r) (e2 r) (sumn N (fun j => s r j * w j)) (sumn N (fun j => s (m + r)%nat j * w j)) (sumn N (fun j => s (m + m + r)%nat j * w j))).
Proof.
  unfold sumn. rewrite (sumf_ext _ (fun j => sumf (fun r => a r * cform l mu (e0 r) (e1 r) (e2 r) (s r j) (s (m + r)%nat j) (s (m + m + r)%nat j) * w j) (seq 0 m))).
  2:{ intros. now rewrite sumf_scal_r. }
  rewrite sumf_swap. apply sumf_ext. intros r _. unfold cform.
  rewrite (sumf_ext _ (fun j => a r * (((l + 2 * mu) * e0 r + l * e1 r) * (s r j * w j) + ((l + 2 * mu) * e1 r + l * e0 r) * (s (m + r)%nat j * w j) + mu * e2 r * (s (m + m + r)%nat j * w j)))).
  2:{ intros. ring. }
  rewrite sumf_scal. f_equal. rewrite !sumf_plus, !sumf_scal. ring.
Qed.

Lemma col_mul (n m : nat) (a : nat -> R) l mu (s : nat -> nat -> R) (d0 d1 d2 : nat -> R) (u : nat -> R) N :
  sumn N (fun i => u i * sumn m (fun r => a r * cform l mu (s r i) (s (m + r)%nat i) (s (m + m + r)%nat i) (d0 r) (d1 r) (d2 r)))
  = sumn m (fun r => a r * cform l mu (sumn N (fun j => s r j * u j)) (sumn N (fun j => s (m + r)%nat j * u j)) (sumn N (fun j => s (m + m + r)%nat j * u j)) (d0 r) (d1 r) (d2 r)).
Proof.
  unfold sumn at 1. rewrite (sumf_ext (A:=nat) _ (fun i => sumn m (fun r => a r * cform l mu (d0 r) (d1 r) (d2 r) (s r i) (s (m + r)%nat i) (s (m + m + r)%nat i)) * u i)).
  2:{ intros i _. rewrite Rmult_comm. f_equal. unfold sumn. apply sumf_ext. intros r _. unfold cform. ring. }
  fold (sumn N (fun i => sumn m (fun r => a r * cform l mu (d0 r) (d1 r) (d2 r) (s r i) (s (m + r)%nat i) (s (m + m + r)%nat i)) * u i)).
  rewrite (row_mul n). unfold sumn. apply sumf_ext. intros r _. unfold cform. ring.
Qed.
