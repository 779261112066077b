(** C55: linear_elasticity_stiffness *)
From Coq Require Import List Arith ZArith Lia Bool Reals Lra.
From Verif Require Import MatModel NumpyModel TopoModel Vec GeomModel GeomSpec MatProofs GeomProofs Geom2Proofs Subdiv3Proofs ElastModel ElastProofs.
Open Scope R_scope.

(** -- specification -- *)
(** D r is the (constant) Jacobian ((d_x u_x, d_y u_x), (d_x u_y, d_y u_y)) on face r of the piecewise linear displacement with value (u i, u (n+i)) at vertex i *)
Definition jacobian (V : Z -> vec2) (n : nat) (F : list tri) (u : nat -> R) (D : nat -> vec2 * vec2) : Prop :=
  forall r t, nth_error F r = Some t ->
    forall c, (c = c1 t \/ c = c2 t) ->
      let e := sub2 (V c) (V (c0 t)) in
      dot2 (fst (D r)) e = u (Z.to_nat c) - u (Z.to_nat (c0 t)) /\ dot2 (snd (D r)) e = u (n + Z.to_nat c)%nat - u (n + Z.to_nat (c0 t))%nat.
(** isotropic energy density  lambda tr(e) tr(d) + 2 mu e:d  of the symmetric parts e, d of two Jacobians *)
Definition density (l mu : R) (P Q : vec2 * vec2) : R :=
  let e11 := fst (fst P) in let e22 := snd (snd P) in let e12 := (snd (fst P) + fst (snd P)) / 2 in
  let d11 := fst (fst Q) in let d22 := snd (snd Q) in let d12 := (snd (fst Q) + fst (snd Q)) / 2 in
  l * (e11 + e22) * (d11 + d22) + 2 * mu * (e11 * d11 + e22 * d22 + e12 * d12 + e12 * d12).
Definition nondegenerate (V : Z -> vec2) (F : list tri) : Prop :=
  forall t, In t F -> det2 (sub2 (V (c1 t)) (V (c0 t))) (sub2 (V (c2 t)) (V (c0 t))) <> 0.
(** area of a planar triangle *)
Definition tri_area (V : Z -> vec2) (t : tri) : R := Rabs (det2 (sub2 (V (c1 t)) (V (c0 t))) (sub2 (V (c2 t)) (V (c0 t)))) / 2.
(** y = infinitesimal rigid motion: translation (a,b) plus rotation w *)
Definition rigid (V : Z -> vec2) (n : nat) (a b w : R) (i : nat) : R :=
  if Nat.ltb i n then a - w * snd (V (Z.of_nat i)) else b + w * fst (V (Z.of_nat (i - n))).
Definition weight (V : Z -> vec2) (F : list tri) (volumes : option (list R)) (r : nat) : R :=
  match volumes with Some v => nth r v 0 | None => match nth_error F r with Some t => tri_area V t | None => 0 end end.

(** -- proofs -- *)
Lemma cramer a b c d x y x' y' : a * d - b * c <> 0 -> x * a + y * b = x' * a + y' * b -> x * c + y * d = x' * c + y' * d -> x = x' /\ y = y'.
Proof.
  intros N A B. split.
  - apply (Rmult_eq_reg_l (a * d - b * c)); auto. replace ((a * d - b * c) * x) with (d * (x * a + y * b) - b * (x * c + y * d)) by ring. rewrite A, B. ring.
  - apply (Rmult_eq_reg_l (a * d - b * c)); auto. replace ((a * d - b * c) * y) with (a * (x * c + y * d) - c * (x * a + y * b)) by ring. rewrite A, B. ring.
Qed.

Lemma areas_weight V F volumes r : (r < length F)%nat -> nondegenerate V F -> nth r (areas V F volumes) 0 = weight V F volumes r.
Proof.
  intros H N. unfold areas, weight. destruct volumes; auto.
  destruct (nth_error F r) as [t|] eqn:E; [|apply nth_error_None in E; lia].
  rewrite (nth_indep _ 0 (doublearea (fun i => row_of2 (V i)) t * (1/2))) by (rewrite map_length; auto).
  rewrite (map_nth (fun t => doublearea (fun i => row_of2 (V i)) t * (1/2))). rewrite (nth_error_nth F r t E).
  rewrite doublearea_2d. unfold tri_area. lra.
Qed.

Section Q.
  Variables (V : Z -> vec2) (n : nat) (F : list tri) (Gr : list trip).
  Hypothesis Va : valid (Z.of_nat n) F.
  Hypothesis QG : grad3 (fun i => (fst (V i), snd (V i), 0)) (Z.of_nat n) F = Ok Gr.
  Hypothesis ND : nondegenerate V F.

  Lemma face_jac (x : Z -> R) r t (g : vec2) : nth_error F r = Some t ->
    dot2 g (sub2 (V (c1 t)) (V (c0 t))) = x (c1 t) - x (c0 t) -> dot2 g (sub2 (V (c2 t)) (V (c0 t))) = x (c2 t) - x (c0 t) ->
    mulv n Gr x (Z.of_nat r) = fst g /\ mulv n Gr x (Z.of_nat (length F + r)) = snd g.
  Proof using Va QG ND.
    intros E A B. destruct (grad3_ok (fun i => (fst (V i), snd (V i), 0)) n F Va) as (G' & Q' & H). rewrite QG in Q'. injection Q' as <-.
    pose proof (ND t (nth_error_In _ _ E)) as N.
    assert (FN : fnormal (fun i => (fst (V i), snd (V i), 0)) t <> zero3).
    { intros Z0. apply N. unfold fnormal, cross3, sub3, zero3, X, Y, Zc in Z0; cbn in Z0. injection Z0 as _ _ Z1. unfold det2, sub2; cbn. lra. }
    destruct (H x r t E FN) as (w & W & P1 & P2 & _).
    unfold dot3, sub3, X, Y, Zc in P1, P2; subst w; cbn [fst snd] in P1, P2.
    unfold dot2, sub2 in A, B; cbn [fst snd] in A, B. unfold det2, sub2 in N; cbn [fst snd] in N.
    eapply cramer; [exact N|lra|lra].
  Qed.

  Lemma strain_of u D r t : jacobian V n F u D -> nth_error F r = Some t ->
    let m := length F in let s := smat n m (fun r j => entry Gr (Z.of_nat r) (Z.of_nat j)) in
    sumn (n + n) (fun j => s r j * u j) = fst (fst (D r))
    /\ sumn (n + n) (fun j => s (m + r)%nat j * u j) = snd (snd (D r))
    /\ sumn (n + n) (fun j => s (m + m + r)%nat j * u j) = snd (fst (D r)) + fst (snd (D r)).
  Proof using Va QG ND.
    intros J E m s. assert (L : (r < m)%nat) by (unfold m; apply nth_error_Some; congruence).
    destruct (smat_mul n m (fun r j => entry Gr (Z.of_nat r) (Z.of_nat j)) u r L) as (E1 & E2 & E3). fold s in E1, E2, E3. rewrite E1, E2, E3.
    destruct (J r t E (c1 t) (or_introl eq_refl)) as (A1 & B1). destruct (J r t E (c2 t) (or_intror eq_refl)) as (A2 & B2).
    destruct (face_jac (fun z => u (Z.to_nat z)) r t (fst (D r)) E A1 A2) as (X1 & Y1).
    destruct (face_jac (fun z => u (n + Z.to_nat z)%nat) r t (snd (D r)) E B1 B2) as (X2 & Y2).
    fold m in Y1, Y2.
    assert (W : forall k (f : nat -> R), sumn n (fun j => entry Gr (Z.of_nat k) (Z.of_nat j) * f j) = mulv n Gr (fun z => f (Z.to_nat z)) (Z.of_nat k)).
    { intros k f. unfold mulv, sumn. apply sumf_ext. intros j _. rewrite Nat2Z.id. auto. }
    rewrite !W. cbv beta. rewrite X1, Y1, X2, Y2. auto.
  Qed.
End Q.

Lemma jac_exists V n F u : valid (Z.of_nat n) F -> nondegenerate V F -> exists D, jacobian V n F u D.
Proof.
  intros Va ND. destruct (grad3_ok (fun i => (fst (V i), snd (V i), 0)) n F Va) as (G & QG & H).
  exists (fun r => ((mulv n G (fun z => u (Z.to_nat z)) (Z.of_nat r), mulv n G (fun z => u (Z.to_nat z)) (Z.of_nat (length F + r))),
                    (mulv n G (fun z => u (n + Z.to_nat z)%nat) (Z.of_nat r), mulv n G (fun z => u (n + Z.to_nat z)%nat) (Z.of_nat (length F + r))))).
  intros r t E. pose proof (ND t (nth_error_In _ _ E)) as N.
  assert (FN : fnormal (fun i => (fst (V i), snd (V i), 0)) t <> zero3).
  { intros Z0. apply N. unfold fnormal, cross3, sub3, zero3, X, Y, Zc in Z0; cbn in Z0. injection Z0 as _ _ Z1. unfold det2, sub2; cbn. lra. }
  destruct (H (fun z => u (Z.to_nat z)) r t E FN) as (w & W & P1 & P2 & _).
  destruct (H (fun z => u (n + Z.to_nat z)%nat) r t E FN) as (w' & W' & P1' & P2' & _).
  unfold dot3, sub3, X, Y, Zc in P1, P2, P1', P2'; subst w w'; cbn [fst snd] in P1, P2, P1', P2'.
  intros c [-> | ->]; unfold dot2, sub2; cbn [fst snd]; lra.
Qed.

(** For planar meshes of non-degenerate triangles with at most twice as many vertices as faces, the operator is the isotropic elastic
    energy of piecewise linear displacements; it is symmetric, annihilates rigid motions and is positive semi-definite. *)
Theorem C55_elastic_energy_partial : forall (V : Z -> vec2) (n : nat) (F : list tri) (Kb mu : R) (volumes : option (list R)) (mass : option mat),
  valid (Z.of_nat n) F -> nondegenerate V F -> (n <= 2 * length F)%nat ->
  match volumes with None => True | Some v => length v = length F end ->
  exists KK C S A M, linear_elasticity_stiffness V n F Kb mu volumes mass = Ok (KK, C, S, A, M)
    /\ nr KK = (2 * n)%nat /\ nc KK = (2 * n)%nat
    /\ (forall u w Du Dw, jacobian V n F u Du -> jacobian V n F w Dw ->
          sumn (2 * n) (fun i => u i * sumn (2 * n) (fun j => at_ KK i j * w j))
          = sumn (length F) (fun r => weight V F volumes r * density (Kb - 2 / 3 * mu) mu (Du r) (Dw r)))
    /\ (forall i j, (i < 2 * n)%nat -> (j < 2 * n)%nat -> at_ KK i j = at_ KK j i)
    /\ (forall a b w i, (i < 2 * n)%nat -> sumn (2 * n) (fun j => at_ KK i j * rigid V n a b w j) = 0)
    /\ (0 <= mu -> 0 <= Kb + mu / 3 -> (forall r, (r < length F)%nat -> 0 <= weight V F volumes r) ->
          forall u, 0 <= sumn (2 * n) (fun i => u i * sumn (2 * n) (fun j => at_ KK i j * u j))).
Proof.
  intros V n F Kb mu volumes mass Va ND Hn HV.
  destruct (elast_ok V n F Kb mu volumes mass Va Hn HV) as (Gr & KK & C & S & A & M & QG & Q & R1 & R2 & E). cbn zeta in E.
  exists KK, C, S, A, M. replace (2 * n)%nat with (n + n)%nat by lia. split; [exact Q|]. split; [auto|]. split; [auto|].
  set (m := length F) in *. set (s := smat n m (fun r j => entry Gr (Z.of_nat r) (Z.of_nat j))) in *. set (l := Kb - 2 / 3 * mu) in *.
  set (a := fun r => nth r (areas V F volumes) 0).
  assert (ROW : forall i w, (i < n + n)%nat -> sumn (n + n) (fun j => at_ KK i j * w j)
     = sumn m (fun r => a r * cform l mu (s r i) (s (m + r)%nat i) (s (m + m + r)%nat i) (sumn (n + n) (fun j => s r j * w j)) (sumn (n + n) (fun j => s (m + r)%nat j * w j)) (sumn (n + n) (fun j => s (m + m + r)%nat j * w j)))).
  { intros i w Hi. rewrite <- (row_mul n m a l mu s (fun r => s r i) (fun r => s (m + r)%nat i) (fun r => s (m + m + r)%nat i) w (n + n)).
    unfold sumn at 1 2. apply sumf_ext. intros j I. apply in_seq in I. rewrite E by lia. reflexivity. }
  assert (BIL : forall u w, sumn (n + n) (fun i => u i * sumn (n + n) (fun j => at_ KK i j * w j))
     = sumn m (fun r => a r * cform l mu (sumn (n + n) (fun j => s r j * u j)) (sumn (n + n) (fun j => s (m + r)%nat j * u j)) (sumn (n + n) (fun j => s (m + m + r)%nat j * u j))
                              (sumn (n + n) (fun j => s r j * w j)) (sumn (n + n) (fun j => s (m + r)%nat j * w j)) (sumn (n + n) (fun j => s (m + m + r)%nat j * w j)))).
  { intros u w. rewrite <- (col_mul n m a l mu s _ _ _ u (n + n)). unfold sumn at 1 3. apply sumf_ext. intros i I. apply in_seq in I. rewrite ROW by lia. reflexivity. }
  assert (FORM : forall u w Du Dw, jacobian V n F u Du -> jacobian V n F w Dw ->
          sumn (n + n) (fun i => u i * sumn (n + n) (fun j => at_ KK i j * w j))
          = sumn m (fun r => weight V F volumes r * density l mu (Du r) (Dw r))).
  { intros u w Du Dw Ju Jw. rewrite BIL. unfold sumn at 1 8. apply sumf_ext. intros r I. apply in_seq in I.
    destruct (nth_error F r) as [t|] eqn:Et; [|apply nth_error_None in Et; fold m in Et; lia].
    destruct (strain_of V n F Gr Va QG ND u Du r t Ju Et) as (U0 & U1 & U2).
    destruct (strain_of V n F Gr Va QG ND w Dw r t Jw Et) as (W0 & W1 & W2). fold m in U0, U1, U2, W0, W1, W2. fold s in U0, U1, U2, W0, W1, W2.
    rewrite U0, U1, U2, W0, W1, W2. unfold a. rewrite areas_weight by (auto; fold m; lia). f_equal. unfold cform, density. field. }
  split; [exact FORM|]. split; [|split].
  - intros i j Hi Hj. rewrite !E by lia. unfold sumn. apply sumf_ext. intros r _. unfold cform. ring.
  - intros p q w i Hi. rewrite ROW by auto. unfold sumn at 1. apply sumf_zero. intros r I. apply in_seq in I.
    destruct (nth_error F r) as [t|] eqn:Et; [|apply nth_error_None in Et; fold m in Et; lia].
    assert (J : jacobian V n F (rigid V n p q w) (fun _ => ((0, - w), (w, 0)))).
    { intros r' t' E' c Hc. destruct (Va t' (nth_error_In _ _ E')) as (V0 & V1 & V2).
      assert (Vc : (0 <= c < Z.of_nat n)%Z) by (destruct Hc; subst; auto).
      unfold rigid, dot2, sub2; cbn [fst snd]. ltbs.
      replace (n + Z.to_nat c - n)%nat with (Z.to_nat c) by lia. replace (n + Z.to_nat (c0 t') - n)%nat with (Z.to_nat (c0 t')) by lia.
      rewrite !Z2Nat.id by lia. split; ring. }
    destruct (strain_of V n F Gr Va QG ND _ _ r t J Et) as (U0 & U1 & U2). fold m in U0, U1, U2. fold s in U0, U1, U2.
    rewrite U0, U1, U2. cbn [fst snd]. unfold cform. ring.
  - intros Hmu HK Hw u. destruct (jac_exists V n F u Va ND) as (D & J). rewrite (FORM u u D D J J). unfold sumn. apply sumf_nonneg.
    intros r I. apply in_seq in I. apply Rmult_le_pos; [apply Hw; fold m; lia|].
    unfold density. destruct (D r) as [[x y] [z v]]; cbn [fst snd]. unfold l.
    replace (_ + _) with ((Kb + mu / 3) * ((x + v) * (x + v)) + mu * ((x - v) * (x - v)) + mu * ((y + z) * (y + z))) by field.
    pose proof (Rle_0_sqr (x + v)). pose proof (Rle_0_sqr (x - v)). pose proof (Rle_0_sqr (y + z)). unfold Rsqr in *.
    repeat apply Rplus_le_le_0_compat; apply Rmult_le_pos; auto.
Qed.

(** with the default volumes the weights are non-negative areas *)
Lemma weight_default_nonneg V F r : 0 <= weight V F None r.
Proof. unfold weight. destruct (nth_error F r) as [t|]; [|lra]. unfold tri_area. pose proof (Rabs_pos (det2 (sub2 (V (c1 t)) (V (c0 t))) (sub2 (V (c2 t)) (V (c0 t))))). lra. Qed.

(** C55 fails for every mesh with more than twice as many vertices as faces, e.g. a single triangle *)
Theorem C55_needs_many_faces_refuted : forall (V : Z -> vec2) (n : nat) (F : list tri) (Kb mu : R) (volumes : option (list R)) (mass : option mat),
  F <> [] -> valid (Z.of_nat n) F -> (2 * length F < n)%nat -> linear_elasticity_stiffness V n F Kb mu volumes mass = Err ValueError.
Proof. intros. apply elast_bad; auto. Qed.

(** hypotheses met: the unit square cut into two triangles; and one triangle for the refutation *)
Definition sqV (i : Z) : vec2 := if (i =? 0)%Z then (0, 0) else if (i =? 1)%Z then (1, 0) else if (i =? 2)%Z then (1, 1) else (0, 1).
Example C55_example : valid (Z.of_nat 4) [(0,1,2)%Z; (0,2,3)%Z] /\ nondegenerate sqV [(0,1,2)%Z; (0,2,3)%Z] /\ (4 <= 2 * length [(0,1,2)%Z; (0,2,3)%Z])%nat
  /\ valid (Z.of_nat 3) [(0,1,2)%Z] /\ (2 * length [(0,1,2)%Z] < 3)%nat.
Proof.
  split; [|split; [|split; [|split]]]; cbn; try lia.
  - intros t [<- | [<- | []]]; cbn; lia.
  - intros t [<- | [<- | []]]; cbn; unfold det2, sub2; cbn; lra.
  - intros t [<- | []]; cbn; lia.
Qed.
Print Assumptions C55_elastic_energy_partial.
Print Assumptions C55_needs_many_faces_refuted.
