(** C68: biharmonic energies.  Code: BiharmModel.v; vocabulary: GeomSpec.v, MatModel.v, TopoSpec.v *)
From Coq Require Import Reals Psatz Permutation.
From Verif Require Import NumpyModel TopoSpec TopoModel TopoProofs.
From Verif Require Import PyExn Vec MatModel MatProofs GeomSpec GeomModel GeomProofs Geom2Proofs Subdiv3Proofs ElastModel ElastProofs BiharmModel BiharmProofs Biharm2Proofs P_Topo P_Geom WindModel P_Wind P_Defect.
Open Scope R_scope.

(** x' Q y for vertex functions x, y on n vertices; row i of Q x *)
Definition energy (n : nat) (Q : mat) (x y : Z -> R) : R := sumn n (fun i => x (Z.of_nat i) * sumn n (fun j => at_ Q i j * y (Z.of_nat j))).
Definition apply_row (n : nat) (Q : mat) (x : Z -> R) (i : nat) : R := sumn n (fun j => at_ Q i j * x (Z.of_nat j)).
Definition referenced (F : list tri) (v : Z) : Prop := exists t i, In t F /\ corner t i = v.

Lemma energy_bil n Q x y : nr Q = n -> nc Q = n -> energy n Q x y = bil Q (fun i => x (Z.of_nat i)) (fun i => y (Z.of_nat i)).
Proof. intros <- E. unfold energy, bil, mv. rewrite E. reflexivity. Qed.
Lemma apply_mv n Q x i : nc Q = n -> apply_row n Q x i = mv Q (fun i => x (Z.of_nat i)) i.
Proof. intros <-. reflexivity. Qed.
Lemma mulv_mv n m M x i : mulv n M x (Z.of_nat i) = mv (of_trips m n M) (fun i => x (Z.of_nat i)) i.
Proof. reflexivity. Qed.

Lemma voronoi_pos l : nondeg l -> let q := voronoi_quads l in 0 < X q /\ 0 < Y q /\ 0 < Zc q.
Proof.
  intro ND. destruct (voronoi_quads_ok l ND) as (_ & _ & _ & _ & H0 & H1 & H2 & H3). cbv zeta in *. destruct l as [[a b] c]. destruct ND as (Ha & Hb & Hc & N). pose proof (dblA_nonneg (a, b, c)) as PA. assert (0 < dblA (a, b, c)) as P by lra.
  pose proof (dblA_pos_heron a b c Ha Hb Hc N) as HP. destruct (heron_pos_sides a b c Ha Hb Hc HP) as (Pa & Pb & Pc).
  unfold X, Y, Zc in *. cbn [fst snd] in *.
  destruct (Rlt_dec (c + b - a) 0) as [O|O]; [rewrite H1 by lra; cbn; lra|].
  destruct (Rlt_dec (a + c - b) 0) as [O1|O1]; [rewrite H2 by lra; cbn; lra|].
  destruct (Rlt_dec (a + b - c) 0) as [O2|O2]; [rewrite H3 by lra; cbn; lra|].
  destruct H0 as (E0 & E1 & E2); try lra. rewrite E0, E1, E2. clear E0 E1 E2. unfold cotw. unfold X, Y, Zc. cbn [fst snd]. set (A := dblA (a, b, c)) in *.
  assert (0 < / A) as IA by (apply Rinv_0_lt_compat; lra).
  assert (forall u v : R, (b * (0.25 * u / A) + c * (0.25 * v / A)) / 4 = (b * u + c * v) * (/ A / 16)) as K1 by (intros; replace 0.25 with (/4) by lra; field; lra).
  assert (forall u v : R, (c * (0.25 * u / A) + a * (0.25 * v / A)) / 4 = (c * u + a * v) * (/ A / 16)) as K2 by (intros; replace 0.25 with (/4) by lra; field; lra).
  assert (forall u v : R, (a * (0.25 * u / A) + b * (0.25 * v / A)) / 4 = (a * u + b * v) * (/ A / 16)) as K3 by (intros; replace 0.25 with (/4) by lra; field; lra).
  rewrite K1, K2, K3. split; [|split]; (apply Rmult_lt_0_compat; [|lra]).
  - destruct (Req_dec (c + a - b) 0); [assert (0 < a + b - c) by lra; nra|assert (0 < c + a - b) by lra; assert (0 <= a + b - c) by lra; nra].
  - destruct (Req_dec (a + b - c) 0); [assert (0 < b + c - a) by lra; nra|assert (0 < a + b - c) by lra; assert (0 <= b + c - a) by lra; nra].
  - destruct (Req_dec (b + c - a) 0); [assert (0 < c + a - b) by lra; nra|assert (0 < b + c - a) by lra; assert (0 <= c + a - b) by lra; nra].
Qed.
Lemma voronoi_mass_pos L t0 i0 : (forall p, In p L -> nondeg (snd p)) -> In t0 (map fst L) -> forall M n, massmatrix_intrinsic L n Voronoi = Ok M -> valid n (map fst L) ->
  0 < entry M (corner t0 i0) (corner t0 i0).
Proof.
  intros ND Ht M n EM Va. rewrite mass_is in EM by (auto; discriminate). injection EM as <-. apply in_map_iff in Ht as ([t l] & <- & Hp). cbn [fst].
  assert (forall u, In u (mass_blocks L Voronoi) -> 0 < tval u) as POS.
  { intros u I. unfold mass_blocks in I. in_blocks I; unfold tval; cbn [fst snd]; match goal with H : In ?p L |- _ => destruct (voronoi_pos _ (ND _ H)) as (? & ? & ?); auto end. }
  assert (exists u, In u (mass_blocks L Voronoi) /\ trow u = corner t i0 /\ tcol u = corner t i0) as (u & Hu & Hr & Hc).
  { unfold mass_blocks. unfold corner. destruct t as [[a b] c]. destruct (Nat.modulo i0 3) as [|[|r]] eqn:E.
    - exists (a, a, X (voronoi_quads l)). split; [|auto]. rewrite !in_app_iff, !in_map_iff. left. exists ((a,b,c), l). auto.
    - exists (b, b, Y (voronoi_quads l)). split; [|auto]. rewrite !in_app_iff, !in_map_iff. right; left. exists ((a,b,c), l). auto.
    - exists (c, c, Zc (voronoi_quads l)). split; [|auto]. rewrite !in_app_iff, !in_map_iff. right; right. exists ((a,b,c), l). auto. }
  change (0 < entry (mass_blocks L Voronoi) (corner t i0) (corner t i0)). set (v := corner t i0) in *. clearbody v. revert POS Hu. unfold entry. generalize (mass_blocks L Voronoi). induction l0 as [|w r IH]; intros POS Hu; [destruct Hu|].
  cbn [sumf]. assert (forall z, In z (w :: r) -> 0 <= (if ((trow z =? v) && (tcol z =? v))%Z then tval z else 0)) as NN by (intros z Hz; pose proof (POS z Hz); destruct (_ && _); lra).
  destruct Hu as [ E | Hu ].
  - subst w. rewrite Hr, Hc, Z.eqb_refl. cbn [andb]. pose proof (POS u (or_introl eq_refl)). assert (0 <= sumf (fun z => if ((trow z =? v) && (tcol z =? v))%Z then tval z else 0) r) by (apply sumf_nonneg; intros; apply NN; now right). lra.
  - pose proof (NN w (or_introl eq_refl)). specialize (IH (fun z Hz => POS z (or_intror Hz)) Hu). lra.
Qed.
Lemma pow2_gt_0 x : x <> 0 -> 0 < x ^ 2.
Proof. intro H. pose proof (Rsqr_pos_lt x H) as P. unfold Rsqr in P. lra. Qed.
Lemma face_energy_zero l x0 x1 x2 : nondeg l -> face_energy l x0 x1 x2 = 0 -> x0 = x1 /\ x1 = x2.
Proof.
  destruct l as [[a b] c]. intros (Ha & Hb & Hc & N). unfold X, Y, Zc in Ha, Hb, Hc; cbn in Ha, Hb, Hc.
  pose proof (dblA_pos_heron a b c Ha Hb Hc N) as H. destruct (heron_pos_sides a b c Ha Hb Hc H) as (Pa & Pb & Pc).
  pose proof (dblA_nonneg (a,b,c)) as P. unfold face_energy, cotw, X, Y, Zc; cbn [fst snd].
  set (A := dblA (a,b,c)) in *. assert (PA : 0 < A) by lra. assert (0 < / A) as IA by (apply Rinv_0_lt_compat; lra).
  set (p := x0 - x1). set (q := x1 - x2). replace (x2 - x0) with (-(p+q)) by (unfold p, q; ring). intro E.
  replace (0.25 * (a + b - c) / A * p ^ 2 + 0.25 * (b + c - a) / A * q ^ 2 + 0.25 * (c + a - b) / A * (- (p + q)) ^ 2)
    with ((/ A / a / 4) * (2*(a*p + (c+a-b)/2*q)^2 + heron a b c/2 * q^2)) in E by (unfold heron; replace 0.25 with (/4) by lra; field; lra).
  assert (0 < / A / a / 4) as K by (unfold Rdiv; repeat apply Rmult_lt_0_compat; try lra; apply Rinv_0_lt_compat; lra).
  assert (2*(a*p + (c+a-b)/2*q)^2 + heron a b c/2 * q^2 = 0) as E2 by (apply (Rmult_eq_reg_l (/ A / a / 4)); lra).
  assert (0 <= (a*p + (c+a-b)/2*q)^2) as S1 by apply pow2_ge_0. assert (0 <= q^2) as S2 by apply pow2_ge_0.
  assert (q = 0) as Q0. { destruct (Req_dec q 0) as [|Nq]; [assumption|]. assert (0 < q^2) by (apply pow2_gt_0; assumption). nra. }
  rewrite Q0 in E2. assert (p = 0) as P0. { destruct (Req_dec p 0) as [|Np]; [assumption|]. assert (0 < (a * p)^2) by (apply pow2_gt_0; apply Rmult_integral_contrapositive; split; lra). replace (a * p + (c + a - b) / 2 * 0) with (a * p) in E2 by ring. nra. }
  unfold p, q in *. split; lra.
Qed.

(** ** the default energy: x' L M^-1 L y *)
Theorem C68_mixed : forall L n, valid (Z.of_nat n) (map fst L) -> (forall p, In p L -> triangle_lengths (snd p)) ->
  exists Lap M Q, cotangent_laplacian_intrinsic L (Z.of_nat n) = Ok Lap /\ massmatrix_intrinsic L (Z.of_nat n) Voronoi = Ok M /\
    mixedfem_energy L n = Ok Q /\ nr Q = n /\ nc Q = n /\
    (forall v, referenced (map fst L) v -> 0 < entry M v v) /\
    (forall v x, ~ referenced (map fst L) v -> mulv n Lap x v = 0) /\
    (forall x y, energy n Q x y = sumn n (fun i => let v := Z.of_nat i in mulv n Lap x v * mulv n Lap y v / entry M v v)) /\
    (forall i j, (i < n)%nat -> (j < n)%nat -> at_ Q i j = at_ Q j i) /\
    (forall x, 0 <= energy n Q x x) /\
    (forall x, energy n Q x x = 0 <-> forall t, In t (map fst L) -> x (c0 t) = x (c1 t) /\ x (c1 t) = x (c2 t)) /\
    (forall x, (forall t, In t (map fst L) -> x (c0 t) = x (c1 t) /\ x (c1 t) = x (c2 t)) -> forall i, (i < n)%nat -> apply_row n Q x i = 0).
Proof.
  intros L n Va TL. assert (forall p, In p L -> nondeg (snd p)) as ND by (intros p I; apply triangle_nondeg; auto).
  destruct (C41_intrinsic n L Voronoi Va ltac:(discriminate) TL) as (M & EM & _ & _ & NNM & OFF).
  exists (lap_blocks L), M.
  assert (cotangent_laplacian_intrinsic L (Z.of_nat n) = Ok (lap_blocks L)) as EL by (apply csr_ok, lap_shape, Va).
  assert (forall v, referenced (map fst L) v -> 0 < entry M v v) as MP. { intros v (t & i & Ht & <-). eapply voronoi_mass_pos; eauto. }
  assert (forall u, In u M -> trow u = tcol u /\ referenced (map fst L) (trow u)) as MS.
  { intros u Hu. pose proof EM as EM2. rewrite mass_is in EM2 by (auto; discriminate). injection EM2 as <-. unfold mass_blocks in Hu. in_blocks Hu; cbn [fst snd]; (split; [reflexivity|]); match goal with H : In ?p L |- _ => pose proof (in_map fst _ _ H) as HI end; unfold trow; cbn [fst snd].
    - exists (fst x), 0%nat. split; [exact HI|]. destruct (fst x) as [[? ?] ?]. reflexivity.
    - exists (fst x), 1%nat. split; [exact HI|]. destruct (fst x) as [[? ?] ?]. reflexivity.
    - exists (fst x), 2%nat. split; [exact HI|]. destruct (fst x) as [[? ?] ?]. reflexivity. }
  assert (forall v, referenced (map fst L) v -> exists u, In u M /\ trow u = v /\ tcol u = v) as MR.
  { intros v (t & i & Ht & <-). pose proof EM as EM2. rewrite mass_is in EM2 by (auto; discriminate). injection EM2 as <-. apply in_map_iff in Ht as ([t' l] & Q & Hp). cbn in Q. subst t'.
    unfold mass_blocks, corner. destruct t as [[a b] c]. destruct (Nat.modulo i 3) as [|[|r]] eqn:E.
    - exists (a, a, X (voronoi_quads l)). split; [|auto]. rewrite !in_app_iff, !in_map_iff. left. exists ((a,b,c), l). auto.
    - exists (b, b, Y (voronoi_quads l)). split; [|auto]. rewrite !in_app_iff, !in_map_iff. right; left. exists ((a,b,c), l). auto.
    - exists (c, c, Zc (voronoi_quads l)). split; [|auto]. rewrite !in_app_iff, !in_map_iff. right; right. exists ((a,b,c), l). auto. }
  assert (forall v x, ~ referenced (map fst L) v -> mulv n (lap_blocks L) x v = 0) as LZ.
  { intros v x NR. rewrite mulv_trip by (intros t I; apply (lap_shape _ _ Va t I)). rewrite sum_blocks9. apply sumf_zero. intros [t l] Hp. cbn zeta. cbn [fst snd]. unfold trow; cbn [fst snd].
    pose proof (in_map fst _ _ Hp) as HI. cbn in HI.
    assert (c0 t <> v) by (intro Q; apply NR; exists t, 0%nat; split; [exact HI|]; destruct t as [[? ?] ?]; exact Q).
    assert (c1 t <> v) by (intro Q; apply NR; exists t, 1%nat; split; [exact HI|]; destruct t as [[? ?] ?]; exact Q).
    assert (c2 t <> v) by (intro Q; apply NR; exists t, 2%nat; split; [exact HI|]; destruct t as [[? ?] ?]; exact Q).
    destruct (Z.eqb_spec (c0 t) v), (Z.eqb_spec (c1 t) v), (Z.eqb_spec (c2 t) v); try contradiction. ring. }
  assert (power_inv n M = Ok (mkmat n n (fun i j => if existsb (fun t => (trow t =? Z.of_nat i)%Z && (tcol t =? Z.of_nat j)%Z) M then / entry M (Z.of_nat i) (Z.of_nat j) else 0))) as EP.
  { unfold power_inv. replace (existsb _ M) with false; [reflexivity|]. symmetry. apply Bool.not_true_is_false. intro Q. apply existsb_exists in Q as (u & Hu & Q). destruct (MS u Hu) as [E R0]. rewrite <- E in Q. destruct (Req_EM_T (entry M (trow u) (trow u)) 0) as [Z|]; [|discriminate]. pose proof (MP _ R0). lra. }
  unfold mixedfem_energy. rewrite EL. cbn [bind]. rewrite EM. cbn [bind]. rewrite EP. cbn [bind].
  set (Mi := mkmat n n _). set (Lm := of_trips n n (lap_blocks L)).
  destruct (mul_ok (transpose Lm) Mi) as (A & -> & RA & CA & EA); [reflexivity|]. cbn [bind].
  destruct (mul_ok A Lm) as (Q & -> & RQ & CQ & EQ); [rewrite CA; reflexivity|]. cbn in RA, CA, RQ, CQ.
  exists Q. split; [reflexivity|]. split; [first [exact EM|reflexivity]|]. split; [reflexivity|]. split; [congruence|]. split; [congruence|]. split; [exact MP|]. split; [exact LZ|].
  assert (forall y i, (i < n)%nat -> (forall v, ~ referenced (map fst L) (Z.of_nat v) -> y v = 0) -> mv Mi y i = / entry M (Z.of_nat i) (Z.of_nat i) * y i) as EMi.
  { intros y i Hi Hy. unfold mv, Mi. cbn [nc at_]. transitivity (sumn n (fun j => y j * (if Nat.eqb j i then / entry M (Z.of_nat i) (Z.of_nat i) else 0))); [|rewrite pick by auto; ring]. apply sumn_ext. intros j Hj.
    destruct (Nat.eqb_spec j i) as [ -> | NE ].
    - destruct (existsb _ M) eqn:Ex; [ring|]. rewrite (Hy i); [ring|]. intro R0. destruct (MR _ R0) as (u & Hu & Hr & Hc). assert (existsb (fun t => (trow t =? Z.of_nat i)%Z && (tcol t =? Z.of_nat i)%Z) M = true) as T by (apply existsb_exists; exists u; split; [exact Hu|]; rewrite Hr, Hc, Z.eqb_refl; reflexivity). congruence.
    - destruct (existsb _ M) eqn:Ex; [|ring]. apply existsb_exists in Ex as (u & Hu & T). apply andb_true_iff in T as [T1 T2]. apply Z.eqb_eq in T1, T2. destruct (MS u Hu) as [E _]. exfalso. apply NE. lia. }
  assert (forall x y, bil Q x y = sumn n (fun j => / entry M (Z.of_nat j) (Z.of_nat j) * mv Lm x j * mv Lm y j)) as B.
  { intros x y. unfold bil. rewrite RQ, RA. transitivity (sumn (nc Lm) (fun i => x i * mv (transpose Lm) (mv Mi (mv Lm y)) i)). { apply sumn_ext. intros i _. rewrite EQ, EA. reflexivity. }
    rewrite adjoint. cbn [Lm of_trips nr]. apply sumn_ext. intros k Hk. rewrite EMi; [ring|exact Hk|]. intros v NR. pose proof (LZ _ (fun z => y (Z.to_nat z)) NR) as Z0. rewrite (mulv_mv n n) in Z0. fold Lm in Z0. rewrite <- Z0. apply mv_ext. intros j _. rewrite Nat2Z.id. reflexivity. }
  assert (nr Q = n) as RQn by congruence. assert (nc Q = n) as CQn by congruence.
  assert (forall j, (j < n)%nat -> 0 <= / entry M (Z.of_nat j) (Z.of_nat j) \/ forall x, mv Lm x j = 0) as W.
  { intros j _. destruct (Req_dec (entry M (Z.of_nat j) (Z.of_nat j)) 0) as [Z|NZ].
    - right. intro x. pose proof (LZ (Z.of_nat j) (fun z => x (Z.to_nat z))) as Z0. rewrite (mulv_mv n n) in Z0. fold Lm in Z0. rewrite <- Z0; [apply mv_ext; intros; rewrite Nat2Z.id; reflexivity|]. intro R0. pose proof (MP _ R0). lra.
    - left. pose proof (NNM (Z.of_nat j) (Z.of_nat j)). left. apply Rinv_0_lt_compat. lra. }
  split. { intros x y. rewrite energy_bil, B by assumption. apply sumn_ext. intros i _. cbv zeta. rewrite !(mulv_mv n n). fold Lm. unfold Rdiv. ring. }
  split. { intros i j Hi Hj. apply (gram_sym Q n (fun j => / entry M (Z.of_nat j) (Z.of_nat j)) (mv Lm)); [congruence|exact B|congruence|congruence]. }
  assert (forall x j, (j < n)%nat -> 0 <= / entry M (Z.of_nat j) (Z.of_nat j) * mv Lm x j * mv Lm x j) as TP.
  { intros x j Hj. destruct (W j Hj) as [P|Z]; [rewrite Rmult_assoc; apply Rmult_le_pos; [exact P|apply Rle_0_sqr]|rewrite Z; lra]. }
  split. { intro x. rewrite energy_bil, B by assumption. apply sumf_nonneg. intros j Hj. apply in_seq in Hj. apply TP. lia. }
  assert (forall x, (forall t, In t (map fst L) -> x (c0 t) = x (c1 t) /\ x (c1 t) = x (c2 t)) -> forall v, mulv n (lap_blocks L) x v = 0) as KC.
  { intros x H v. rewrite mulv_trip by (intros t I; apply (lap_shape _ _ Va t I)). rewrite sum_blocks9. apply sumf_zero. intros [t l] Hp. destruct (H t (in_map fst _ _ Hp)) as [H0 H1]. cbn zeta; cbn [fst snd]. unfold trow, tcol, tval; cbn [fst snd]. rewrite H0, H1. destruct (c0 t =? v)%Z, (c1 t =? v)%Z, (c2 t =? v)%Z; ring. }
  split.
  - intro x. rewrite energy_bil, B by assumption. split.
    + intros E t Ht.
      assert (forall j, (j < n)%nat -> mv Lm (fun i => x (Z.of_nat i)) j = 0) as LX.
      { assert (forall l, (forall j, In j l -> (j < n)%nat) -> sumf (fun j => / entry M (Z.of_nat j) (Z.of_nat j) * mv Lm (fun i => x (Z.of_nat i)) j * mv Lm (fun i => x (Z.of_nat i)) j) l = 0 -> forall j, In j l -> mv Lm (fun i => x (Z.of_nat i)) j = 0) as G.
        { induction l as [|k l IH]; intros B1 S j Hj; [destruct Hj|]. cbn [sumf] in S. pose proof (TP (fun i => x (Z.of_nat i)) k (B1 k (or_introl eq_refl))) as T1.
          assert (0 <= sumf (fun j => / entry M (Z.of_nat j) (Z.of_nat j) * mv Lm (fun i => x (Z.of_nat i)) j * mv Lm (fun i => x (Z.of_nat i)) j) l) as T2 by (apply sumf_nonneg; intros; apply TP, B1; now right).
          destruct Hj as [ <- | Hj ]; [|apply IH; auto; [intros; apply B1; now right|lra]].
          destruct (Req_dec (entry M (Z.of_nat k) (Z.of_nat k)) 0) as [Z|NZ]. { destruct (W k (B1 k (or_introl eq_refl))) as [_|Z2]; [|apply Z2]. pose proof (LZ (Z.of_nat k) x) as Z0. rewrite (mulv_mv n n) in Z0. apply Z0. intro R0. pose proof (MP _ R0). lra. }
          pose proof (NNM (Z.of_nat k) (Z.of_nat k)). assert (0 < / entry M (Z.of_nat k) (Z.of_nat k)) as IP by (apply Rinv_0_lt_compat; lra). set (z := mv Lm _ k) in *.
          assert (z * z = 0) as ZZ by (apply (Rmult_eq_reg_l (/ entry M (Z.of_nat k) (Z.of_nat k))); lra). apply Rsqr_0_uniq. exact ZZ. }
        intros j Hj. apply (G (seq 0 n)); [intros k Hk; apply in_seq in Hk; lia|exact E|apply in_seq; lia]. }
      assert (quadform n (lap_blocks L) x = 0) as QF. { unfold quadform. apply sumf_zero. intros i Hi. apply in_seq in Hi. rewrite (mulv_mv n n). fold Lm. rewrite LX by lia. ring. }
      rewrite lap_quad in QF by exact Va. apply in_map_iff in Ht as ([t' l] & E1 & Hp). cbn in E1. subst t'.
      assert (forall K, (forall p, In p K -> nondeg (snd p)) -> sumf (fun p => face_energy (snd p) (x (c0 (fst p))) (x (c1 (fst p))) (x (c2 (fst p)))) K = 0 -> In (t, l) K -> face_energy l (x (c0 t)) (x (c1 t)) (x (c2 t)) = 0) as G.
      { induction K as [|p K IH]; intros NK S Hin; [destruct Hin|]. cbn [sumf] in S. pose proof (face_energy_nonneg (snd p) (x (c0 (fst p))) (x (c1 (fst p))) (x (c2 (fst p))) (NK p (or_introl eq_refl))).
        assert (0 <= sumf (fun p => face_energy (snd p) (x (c0 (fst p))) (x (c1 (fst p))) (x (c2 (fst p)))) K) by (apply sumf_nonneg; intros; apply face_energy_nonneg, NK; now right).
        destruct Hin as [ -> | Hin ]; [cbn in *; lra|]. apply IH; [intros; apply NK; now right|lra|exact Hin]. }
      apply (face_energy_zero l _ _ _ (ND _ Hp)). apply (G L); assumption.
    + intro H. apply sumf_zero. intros j Hj. pose proof (KC x H (Z.of_nat j)) as Z0. rewrite (mulv_mv n n) in Z0. fold Lm in Z0. rewrite Z0. ring.
  - intros x H i Hi. rewrite apply_mv by exact CQn. apply (gram_kernel Q n (fun j => / entry M (Z.of_nat j) (Z.of_nat j)) (mv Lm)); [exact B| |congruence]. intros j Hj. pose proof (KC x H (Z.of_nat j)) as Z0. rewrite (mulv_mv n n) in Z0. exact Z0.
Qed.
Print Assumptions C68_mixed.

(** ** the planar / flat Hessian energy *)
(** hat function of a vertex, area of a face *)
Definition hat (v : nat) : Z -> R := fun u => if (u =? Z.of_nat v)%Z then 1 else 0.
Definition area2 (V : Z -> vec2) (t : tri) : R := Rabs (det2 (sub2 (V (c1 t)) (V (c0 t))) (sub2 (V (c2 t)) (V (c0 t)))) / 2.
Definition area3 (V : Z -> vec3) (t : tri) : R := norm3 (fnormal V t) / 2.
(** G a gradient matrix with one row per component and face (C42): the integral over the mesh of
    (d hat_v / dx_c) (d x / dx_b), the weak second derivative of x at vertex v *)
Definition weak_hessian (n : nat) (areas : list R) (G : list trip) (x : Z -> R) (b c v : nat) : R :=
  let m := length areas in
  sumn m (fun f => nth f areas 0 * mulv n G (hat v) (Z.of_nat (c * m + f)) * mulv n G x (Z.of_nat (b * m + f))).

Lemma sumn_faces (F : list tri) g h : (forall f t, nth_error F f = Some t -> g f = h t) -> sumn (length F) g = sumf h F.
Proof.
  revert g. induction F as [|t F IH]; intros g H; [reflexivity|]. cbn [length sumf]. replace (S (length F)) with (1 + length F)%nat by lia. rewrite sumn_app. f_equal.
  - unfold sumn. cbn. rewrite (H 0%nat t) by reflexivity. ring.
  - apply IH. intros f u E. apply H. exact E.
Qed.
Lemma entry_hat n M i v : (v < n)%nat -> entry M i (Z.of_nat v) = mulv n M (hat v) i.
Proof.
  intro Hv. unfold mulv, hat. transitivity (sumn n (fun j => entry M i (Z.of_nat j) * (if Nat.eqb j v then 1 else 0))); [rewrite pick by auto; ring|].
  apply sumn_ext. intros j _. f_equal. destruct (Nat.eqb_spec j v), (Z.eqb_spec (Z.of_nat j) (Z.of_nat v)); try reflexivity; lia.
Qed.
Lemma grad3_rows V n F x k f t : valid (Z.of_nat n) F -> nth_error F f = Some t -> (k < 3)%nat ->
  mulv n (grad_blocks V F) x (Z.of_nat (k * length F + f)) = grad_comp k (face_grad V x t).
Proof. intros Va E K. rewrite mulv_trip by (intros u I; apply (grad_shape V F _ Va u I)). apply grad_row_sum; assumption. Qed.
Definition grad2_blocks (V : Z -> vec2) (F : list tri) := filter (fun t => (trow t <? 2 * Z.of_nat (length F))%Z) (grad_blocks (fun i => pad (V i)) F).
Lemma grad2_is V n F : valid (Z.of_nat n) F -> grad2 V (Z.of_nat n) F = Ok (grad2_blocks V F).
Proof.
  intro Va. unfold grad2. change (fun i => (fst (V i), snd (V i), 0)) with (fun i => pad (V i)).
  assert (grad3 (fun i => pad (V i)) (Z.of_nat n) F = Ok (grad_blocks (fun i => pad (V i)) F)) as -> by (apply csr_ok, grad_shape, Va). reflexivity.
Qed.
Lemma grad3_is V n F : valid (Z.of_nat n) F -> grad3 V (Z.of_nat n) F = Ok (grad_blocks V F).
Proof. intro Va. apply csr_ok, grad_shape, Va. Qed.
Lemma grad2_rows V n F x k f t : valid (Z.of_nat n) F -> nth_error F f = Some t -> (k < 2)%nat ->
  mulv n (grad2_blocks V F) x (Z.of_nat (k * length F + f)) = grad_comp k (face_grad (fun i => pad (V i)) x t).
Proof.
  intros Va E K. rewrite <- (grad3_rows _ n F x k f t Va E ltac:(lia)). unfold mulv. apply sumn_ext. intros j _. f_equal. apply entry_filter. intros u _ Ru. apply Z.ltb_lt.
  assert (f < length F)%nat by (apply nth_error_Some; congruence). nia.
Qed.
Lemma face_grad_const V c t k : grad_comp k (face_grad V (fun _ => c) t) = 0.
Proof. unfold face_grad, grad_comp, add3, scal3, X, Y, Zc. destruct k as [|[|k]]; cbn; ring. Qed.
Lemma face_grad_hat V v t k : ~ (c0 t = Z.of_nat v \/ c1 t = Z.of_nat v \/ c2 t = Z.of_nat v) -> grad_comp k (face_grad V (hat v) t) = 0.
Proof.
  intro H. unfold face_grad, hat. destruct (Z.eqb_spec (c0 t) (Z.of_nat v)); [tauto|]. destruct (Z.eqb_spec (c1 t) (Z.of_nat v)); [tauto|]. destruct (Z.eqb_spec (c2 t) (Z.of_nat v)); [tauto|].
  unfold grad_comp, add3, scal3, X, Y, Zc. destruct k as [|[|k]]; cbn; ring.
Qed.
Lemma nth_face (F : list tri) f : (f < length F)%nat -> exists t, nth_error F f = Some t /\ In t F.
Proof. intro H. destruct (nth_error F f) as [t|] eqn:E; [|apply nth_error_None in E; lia]. exists t. split; [reflexivity|]. eapply nth_error_In; eauto. Qed.
Lemma interior_spec n F b : (forall v, In v b <-> on_boundary F v) -> NoDup (interior_ids n b) /\ forall k, In k (interior_ids n b) <-> (k < n)%nat /\ ~ on_boundary F (Z.of_nat k).
Proof.
  intro H. split; [apply NoDup_filter, seq_NoDup|]. intro k. unfold interior_ids. rewrite filter_In, in_seq, Bool.negb_true_iff. split.
  - intros [L E]. split; [lia|]. intro B. apply H in B. assert (existsb (Z.eqb (Z.of_nat k)) b = true) by (apply existsb_exists; exists (Z.of_nat k); rewrite Z.eqb_refl; auto). congruence.
  - intros [L E]. split; [lia|]. apply Bool.not_true_is_false. intro Q. apply existsb_exists in Q as (z & Hz & Q). apply Z.eqb_eq in Q. subst z. apply E, H, Hz.
Qed.

(** what the formula for the energy entails *)
Lemma hess_props d n (F : list tri) areas G M Q ids : nr Q = n -> nc Q = n ->
  (forall k, In k ids -> 0 < entry M (Z.of_nat k) (Z.of_nat k) \/ forall x b c, (b < d)%nat -> (c < d)%nat -> weak_hessian n areas G x b c k = 0) ->
  (forall a f b, (f < length areas)%nat -> (b < d)%nat -> mulv n G (fun _ => a) (Z.of_nat (b * length areas + f)) = 0) ->
  (forall x y, energy n Q x y = sumf (fun k => / entry M (Z.of_nat k) (Z.of_nat k) * sumn d (fun b => sumn d (fun c => weak_hessian n areas G x b c k * weak_hessian n areas G y b c k))) ids) ->
  (forall i j, (i < n)%nat -> (j < n)%nat -> at_ Q i j = at_ Q j i) /\ (forall x, 0 <= energy n Q x x) /\
  (forall x, (forall k b c, In k ids -> (b < d)%nat -> (c < d)%nat -> weak_hessian n areas G x b c k = 0) -> forall i, (i < n)%nat -> apply_row n Q x i = 0) /\
  (forall a i, (i < n)%nat -> apply_row n Q (fun _ => a) i = 0).
Proof.
  intros RQ CQ HM HC E.
  assert (forall x y, energy n Q x y = energy n Q y x) as S.
  { intros x y. rewrite !E. apply sumf_ext. intros k _. f_equal. apply sumn_ext. intros b _. apply sumn_ext. intros. ring. }
  assert (forall x y, bil Q x y = energy n Q (fun z => x (Z.to_nat z)) (fun z => y (Z.to_nat z))) as BE.
  { intros x y. rewrite energy_bil by assumption. unfold bil. apply sumn_ext. intros i _. rewrite Nat2Z.id. f_equal. apply mv_ext. intros j _. rewrite Nat2Z.id. reflexivity. }
  assert (forall x, (forall k b c, In k ids -> (b < d)%nat -> (c < d)%nat -> weak_hessian n areas G x b c k = 0) -> forall i, (i < n)%nat -> apply_row n Q x i = 0) as K.
  { intros x Hx i Hi. rewrite apply_mv by assumption. rewrite mv_unit by congruence.
    transitivity (energy n Q (hat i) x). { rewrite energy_bil by assumption. unfold bil. apply sumn_ext. intros k _. f_equal. unfold hat. destruct (Nat.eqb_spec k i), (Z.eqb_spec (Z.of_nat k) (Z.of_nat i)); try reflexivity; lia. }
    rewrite E. apply sumf_zero. intros k Hk. replace (sumn d _) with 0; [ring|]. symmetry. apply sumf_zero. intros b Hb. apply in_seq in Hb. apply sumf_zero. intros c Hc. apply in_seq in Hc. rewrite (Hx k b c) by (auto; lia). ring. }
  split; [|split; [|split]].
  - intros i j Hi Hj. rewrite !bil_entry by congruence. rewrite !BE. apply S.
  - intro x. rewrite E. apply sumf_nonneg. intros k Hk. assert (0 <= sumn d (fun b => sumn d (fun c => weak_hessian n areas G x b c k * weak_hessian n areas G x b c k))) as P by (apply sumf_nonneg; intros b _; apply sumf_nonneg; intros c _; apply Rle_0_sqr).
    destruct (HM k Hk) as [MP|Z]. { apply Rmult_le_pos; [left; apply Rinv_0_lt_compat, MP|exact P]. }
    replace (sumn d _) with 0; [lra|]. symmetry. apply sumf_zero. intros b Hb. apply in_seq in Hb. apply sumf_zero. intros c Hc. apply in_seq in Hc. rewrite Z by lia. ring.
  - exact K.
  - intros a i Hi. apply K; [|exact Hi]. intros k b c _ Hb Hc. unfold weak_hessian. apply sumf_zero. intros f Hf. apply in_seq in Hf. rewrite (HC a f b) by lia. ring.
Qed.

Lemma referenced_dec F v : referenced F v \/ ~ referenced F v.
Proof.
  destruct (existsb (fun t => (c0 t =? v)%Z || (c1 t =? v)%Z || (c2 t =? v)%Z) F) eqn:E.
  - left. apply existsb_exists in E as ([[a b] c] & Ht & E). unfold c0, c1, c2 in E. cbn in E. apply Bool.orb_true_iff in E as [E|E]; [apply Bool.orb_true_iff in E as [E|E]|]; apply Z.eqb_eq in E; subst v; [exists (a,b,c), 0%nat|exists (a,b,c), 1%nat|exists (a,b,c), 2%nat]; auto.
  - right. intros ([[a b] c] & i & Ht & Q). assert (existsb (fun t => (c0 t =? v)%Z || (c1 t =? v)%Z || (c2 t =? v)%Z) F = true); [|congruence]. apply existsb_exists. exists (a,b,c). split; [exact Ht|]. unfold corner, c0, c1, c2 in *. cbn [fst snd].
    destruct (Nat.modulo i 3) as [|[|r]]; subst v; rewrite Z.eqb_refl; rewrite ?Bool.orb_true_r; reflexivity.
Qed.
Lemma unref_corners F v t : In t F -> ~ referenced F v -> ~ (c0 t = v \/ c1 t = v \/ c2 t = v).
Proof. intros Ht NR H. apply NR. destruct t as [[a b] c]. unfold c0, c1, c2 in H. cbn in H. destruct H as [H|[H|H]]; [exists (a,b,c), 0%nat|exists (a,b,c), 1%nat|exists (a,b,c), 2%nat]; auto. Qed.

Theorem C68_hessian_planar : forall V n F, F <> [] -> valid (Z.of_nat n) F ->
  (forall t, In t F -> det2 (sub2 (V (c1 t)) (V (c0 t))) (sub2 (V (c2 t)) (V (c0 t))) <> 0) ->
  exists G M Q ids, grad2 V (Z.of_nat n) F = Ok G /\ massmatrix (fun i => row_of2 (V i)) (Z.of_nat n) F Voronoi = Ok M /\
    hessian_energy2 V n F = Ok Q /\ nr Q = n /\ nc Q = n /\
    NoDup ids /\ (forall k, In k ids <-> (k < n)%nat /\ ~ on_boundary F (Z.of_nat k)) /\
    (forall v, referenced F v -> 0 < entry M v v) /\
    (forall x y, energy n Q x y = sumf (fun k => / entry M (Z.of_nat k) (Z.of_nat k) *
       sumn 2 (fun b => sumn 2 (fun c => weak_hessian n (map (area2 V) F) G x b c k * weak_hessian n (map (area2 V) F) G y b c k))) ids) /\
    (forall i j, (i < n)%nat -> (j < n)%nat -> at_ Q i j = at_ Q j i) /\ (forall x, 0 <= energy n Q x x) /\
    (forall x, (forall k b c, In k ids -> (b < 2)%nat -> (c < 2)%nat -> weak_hessian n (map (area2 V) F) G x b c k = 0) -> forall i, (i < n)%nat -> apply_row n Q x i = 0) /\
    (forall a i, (i < n)%nat -> apply_row n Q (fun _ => a) i = 0).
Proof.
  intros V n F NE Va ND. set (m := length F). set (R2 := fun i => row_of2 (V i)).
  assert (forall p, In p (with_lsq R2 F) -> nondeg (snd p)) as NDl.
  { intros p Hp. unfold with_lsq in Hp. apply in_map_iff in Hp as (t & <- & Ht). cbn [snd]. unfold nondeg. repeat split; try apply sqlen_nonneg. fold (doublearea R2 t). unfold R2. rewrite doublearea_2d. intro Q. apply (ND t Ht). destruct (Req_dec (det2 (sub2 (V (c1 t)) (V (c0 t))) (sub2 (V (c2 t)) (V (c0 t)))) 0); [assumption|]. exfalso. apply Rabs_no_R0 in H. contradiction. }
  assert (valid (Z.of_nat n) (map fst (with_lsq R2 F))) as Va' by (rewrite with_lsq_fst; exact Va).
  assert (exists M, massmatrix R2 (Z.of_nat n) F Voronoi = Ok M) as (M & EM). { unfold massmatrix. rewrite mass_is by (auto; discriminate). eauto. }
  assert (forall v, referenced F v -> 0 < entry M v v) as MP. { intros v (t & i & Ht & <-). eapply (voronoi_mass_pos (with_lsq R2 F)); eauto. rewrite with_lsq_fst. exact Ht. }
  destruct (C05_boundary_vertices F NE) as (B & EB & _ & HB). destruct (interior_spec n F B HB) as [ND2 HI].
  set (ids := interior_ids n B) in *. set (Gr := grad2_blocks V F).
  unfold hessian_energy2. rewrite EB. cbn [lift bind]. fold R2. rewrite EM. cbn [bind]. rewrite (grad2_is V n F Va). cbn [bind]. fold ids Gr m.
  set (G := of_trips (2 * m) n Gr). set (Gi := take_cols G ids).
  destruct (hs2_ok (slice Gi 0 m (nc Gi)) (slice Gi m (2 * m) (nc Gi))) as (Db & -> & RDb & CDb & D1 & D2). { cbn. lia. } cbn [bind].
  change (nr (slice Gi 0 m (nc Gi))) with (Nat.min m (nr Gi) - 0)%nat in RDb. change (nc (slice Gi 0 m (nc Gi))) with (Nat.min (length ids) (length ids)) in CDb, D1, D2. change (nc (slice Gi m (2 * m) (nc Gi))) with (Nat.min (length ids) (length ids)) in CDb. rewrite Nat.min_id in CDb, D1, D2. change (nr Gi) with (2 * m)%nat in RDb.
  set (a := map (fun t => doublearea R2 t / 2) F). set (w := map (fun k => 1 / entry M (Z.of_nat k) (Z.of_nat k)) ids).
  assert (nr Db = m) as RDb' by lia. assert (length a = m) as La by apply map_length. assert (length w = length ids) as Lw by apply map_length.
  assert (nr (block_diag2 Db Db) = (2 * m)%nat) as RD by (cbn; lia). assert (nc (block_diag2 Db Db) = (2 * (2 * length ids))%nat) as CD by (cbn; lia).
  change 4%nat with (2 * 2)%nat.
  destruct (hess_ex 2 m G a ids w (block_diag2 Db Db)) as (Q & EQ); try assumption; [reflexivity|].
  destruct (hess_core 2 m G a ids w Db (block_diag2 Db Db) Q) as (RQ & CQ & BQ); try assumption; try reflexivity; [lia| | |].
  { intros f c k Hf Hc Hk. destruct c as [|[|c]]; [| |lia].
    - rewrite D1 by lia. cbn [Nat.mul Nat.add]. reflexivity.
    - replace (1 * length ids + k)%nat with (length ids + k)%nat by lia. rewrite D2. replace (1 * m + f)%nat with (m + f)%nat by lia. reflexivity. }
  { intros b z j Hb Hj. destruct b as [|[|b]]; [| |lia].
    - cbn [Nat.mul Nat.add]. rewrite bd_T1 by lia. reflexivity.
    - replace (1 * (2 * length ids) + j)%nat with (nc Db + j)%nat by lia. rewrite bd_T2, RDb'. apply mv_ext. intros k _. f_equal. lia. }
  exists Gr, M, Q, ids. rewrite EQ. change (nc G) with n in RQ, CQ.
  split; [first [apply (grad2_is V n F Va)|reflexivity]|]. split; [first [exact EM|reflexivity]|]. split; [reflexivity|]. split; [exact RQ|]. split; [exact CQ|]. split; [exact ND2|]. split; [exact HI|]. split; [exact MP|].
  assert (length (map (area2 V) F) = m) as Lm by apply map_length.
  assert (forall f, (f < m)%nat -> nth f a 0 = nth f (map (area2 V) F) 0) as HA.
  { intros f Hf. unfold a. destruct (nth_face F f Hf) as (t & E & _).
    rewrite (nth_error_nth (map (fun t => doublearea R2 t / 2) F) f 0 (x := doublearea R2 t / 2)) by (rewrite nth_error_map, E; reflexivity).
    rewrite (nth_error_nth (map (area2 V) F) f 0 (x := area2 V t)) by (rewrite nth_error_map, E; reflexivity). unfold R2. rewrite doublearea_2d. reflexivity. }
  assert (forall x y, energy n Q x y = sumf (fun k => / entry M (Z.of_nat k) (Z.of_nat k) *
       sumn 2 (fun b => sumn 2 (fun c => weak_hessian n (map (area2 V) F) Gr x b c k * weak_hessian n (map (area2 V) F) Gr y b c k))) ids) as E.
  { intros x y. rewrite energy_bil, BQ by assumption. rewrite <- (sumn_list ids _ 0%nat). apply sumn_ext. intros k Hk.
    assert (nth k ids 0%nat < n)%nat as Hkn by (apply HI, nth_In, Hk).
    unfold w. rewrite (nth_indep _ 0 (1 / entry M (Z.of_nat 0) (Z.of_nat 0))) by (rewrite map_length; exact Hk). rewrite map_nth with (f := fun k => 1 / entry M (Z.of_nat k) (Z.of_nat k)). unfold Rdiv. rewrite Rmult_1_l. f_equal.
    assert (forall x b c, sumn m (fun f => nth f a 0 * at_ G (c * m + f) (nth k ids 0%nat) * mv G (fun i => x (Z.of_nat i)) (b * m + f)) = weak_hessian n (map (area2 V) F) Gr x b c (nth k ids 0%nat)) as WH.
    { intros x0 b c. unfold weak_hessian. rewrite Lm. apply sumn_ext. intros f Hf. rewrite HA by exact Hf. f_equal. f_equal. unfold G, of_trips. cbn [at_]. apply entry_hat, Hkn. }
    apply sumn_ext. intros b _. apply sumn_ext. intros c _. rewrite !WH. reflexivity. }
  split; [exact E|].
  apply (hess_props 2 n F (map (area2 V) F) Gr M Q ids); try assumption.
  - intros k Hk. destruct (referenced_dec F (Z.of_nat k)) as [R0|NR]; [left; apply MP, R0|right]. intros x b c Hb Hc. unfold weak_hessian. rewrite Lm. apply sumf_zero. intros f Hf. apply in_seq in Hf. destruct (nth_face F f ltac:(lia)) as (t & Et & Ht). unfold Gr, m. rewrite (grad2_rows V n F (hat k) c f t Va Et Hc). rewrite face_grad_hat by (eapply unref_corners; eauto). ring.
  - intros c f b Hf Hb. rewrite Lm in *. destruct (nth_face F f ltac:(lia)) as (t & Et & Ht). unfold Gr, m. rewrite (grad2_rows V n F (fun _ => c) b f t Va Et Hb). apply face_grad_const.
Qed.
Print Assumptions C68_hessian_planar.
Theorem C68_hessian_surface : forall V n F, F <> [] -> valid (Z.of_nat n) F ->
  (forall t, In t F -> fnormal V t <> zero3) ->
  exists G M Q ids, grad3 V (Z.of_nat n) F = Ok G /\ massmatrix (fun i => row_of3 (V i)) (Z.of_nat n) F Voronoi = Ok M /\
    hessian_energy3 V n F = Ok Q /\ nr Q = n /\ nc Q = n /\
    NoDup ids /\ (forall k, In k ids <-> (k < n)%nat /\ ~ on_boundary F (Z.of_nat k)) /\
    (forall v, referenced F v -> 0 < entry M v v) /\
    (forall x y, energy n Q x y = sumf (fun k => / entry M (Z.of_nat k) (Z.of_nat k) *
       sumn 3 (fun b => sumn 3 (fun c => weak_hessian n (map (area3 V) F) G x b c k * weak_hessian n (map (area3 V) F) G y b c k))) ids) /\
    (forall i j, (i < n)%nat -> (j < n)%nat -> at_ Q i j = at_ Q j i) /\ (forall x, 0 <= energy n Q x x) /\
    (forall x, (forall k b c, In k ids -> (b < 3)%nat -> (c < 3)%nat -> weak_hessian n (map (area3 V) F) G x b c k = 0) -> forall i, (i < n)%nat -> apply_row n Q x i = 0) /\
    (forall a i, (i < n)%nat -> apply_row n Q (fun _ => a) i = 0).
Proof.
  intros V n F NE Va ND. set (m := length F). set (R2 := fun i => row_of3 (V i)).
  assert (forall p, In p (with_lsq R2 F) -> nondeg (snd p)) as NDl.
  { intros p Hp. unfold with_lsq in Hp. apply in_map_iff in Hp as (t & <- & Ht). cbn [snd]. apply nondeg_3d, ND, Ht. }
  assert (valid (Z.of_nat n) (map fst (with_lsq R2 F))) as Va' by (rewrite with_lsq_fst; exact Va).
  assert (exists M, massmatrix R2 (Z.of_nat n) F Voronoi = Ok M) as (M & EM). { unfold massmatrix. rewrite mass_is by (auto; discriminate). eauto. }
  assert (forall v, referenced F v -> 0 < entry M v v) as MP. { intros v (t & i & Ht & <-). eapply (voronoi_mass_pos (with_lsq R2 F)); eauto. rewrite with_lsq_fst. exact Ht. }
  destruct (C05_boundary_vertices F NE) as (B & EB & _ & HB). destruct (interior_spec n F B HB) as [ND2 HI].
  set (ids := interior_ids n B) in *. set (Gr := grad_blocks V F).
  unfold hessian_energy3. rewrite EB. cbn [lift bind]. fold R2. rewrite EM. cbn [bind]. rewrite (grad3_is V n F Va). cbn [bind]. fold ids Gr m.
  set (G := of_trips (3 * m) n Gr). set (Gi := take_cols G ids).
  destruct (hs2_ok (slice Gi 0 m (nc Gi)) (slice Gi m (2 * m) (nc Gi))) as (Dc & EDc & RDc & CDc & D1 & D2). { cbn. lia. }
  destruct (hs2_ok Dc (slice Gi (2 * m) (3 * m) (nc Gi))) as (Db & EDb & RDb & CDb & D3 & D4). { rewrite RDc. cbn. lia. }
  unfold hstack3. rewrite EDc. cbn [bind]. rewrite EDb. cbn [bind].
  change (nr (slice Gi 0 m (nc Gi))) with (Nat.min m (3 * m) - 0)%nat in RDc. change (nc (slice Gi 0 m (nc Gi))) with (Nat.min (length ids) (length ids)) in CDc, D1, D2. change (nc (slice Gi m (2 * m) (nc Gi))) with (Nat.min (length ids) (length ids)) in CDc. change (nc (slice Gi (2 * m) (3 * m) (nc Gi))) with (Nat.min (length ids) (length ids)) in CDb. rewrite Nat.min_id in CDc, CDb, D1, D2.
  set (a := map (fun t => doublearea R2 t / 2) F). set (w := map (fun k => 1 / entry M (Z.of_nat k) (Z.of_nat k)) ids).
  assert (nr Db = m) as RDb' by lia. assert (length a = m) as La by apply map_length. assert (length w = length ids) as Lw by apply map_length.
  assert (nr (block_diag2 (block_diag2 Db Db) Db) = (3 * m)%nat) as RD by (cbn; lia). assert (nc (block_diag2 (block_diag2 Db Db) Db) = (3 * (3 * length ids))%nat) as CD by (cbn; lia).
  change 9%nat with (3 * 3)%nat.
  destruct (hess_ex 3 m G a ids w (block_diag2 (block_diag2 Db Db) Db)) as (Q & EQ); try assumption; [reflexivity|].
  destruct (hess_core 3 m G a ids w Db (block_diag2 (block_diag2 Db Db) Db) Q) as (RQ & CQ & BQ); try assumption; try reflexivity; [lia| | |].
  { intros f c k Hf Hc Hk. destruct c as [|[|[|c]]]; [| | |lia].
    - rewrite D3, D1 by lia. cbn [Nat.mul Nat.add]. reflexivity.
    - replace (1 * length ids + k)%nat with (length ids + k)%nat by lia. rewrite D3, D2 by lia. replace (1 * m + f)%nat with (m + f)%nat by lia. reflexivity.
    - replace (2 * length ids + k)%nat with (nc Dc + k)%nat by lia. rewrite D4. reflexivity. }
  { intros b z j Hb Hj. destruct b as [|[|[|b]]]; [| | |lia].
    - cbn [Nat.mul Nat.add]. rewrite bd_T1 by (cbn; lia). rewrite bd_T1 by lia. reflexivity.
    - replace (1 * (3 * length ids) + j)%nat with (nc Db + j)%nat by lia. rewrite bd_T1 by (cbn; lia). rewrite bd_T2, RDb'. apply mv_ext. intros k _. f_equal. lia.
    - replace (2 * (3 * length ids) + j)%nat with (nc (block_diag2 Db Db) + j)%nat by (cbn; lia). rewrite bd_T2. apply mv_ext. intros k _. f_equal. cbn. lia. }
  exists Gr, M, Q, ids. rewrite EQ. change (nc G) with n in RQ, CQ.
  split; [first [apply (grad3_is V n F Va)|reflexivity]|]. split; [first [exact EM|reflexivity]|]. split; [reflexivity|]. split; [exact RQ|]. split; [exact CQ|]. split; [exact ND2|]. split; [exact HI|]. split; [exact MP|].
  assert (length (map (area3 V) F) = m) as Lm by apply map_length.
  assert (forall f, (f < m)%nat -> nth f a 0 = nth f (map (area3 V) F) 0) as HA.
  { intros f Hf. unfold a. destruct (nth_face F f Hf) as (t & E & _).
    rewrite (nth_error_nth (map (fun t => doublearea R2 t / 2) F) f 0 (x := doublearea R2 t / 2)) by (rewrite nth_error_map, E; reflexivity).
    rewrite (nth_error_nth (map (area3 V) F) f 0 (x := area3 V t)) by (rewrite nth_error_map, E; reflexivity). unfold R2. rewrite doublearea_3d. reflexivity. }
  assert (forall x y, energy n Q x y = sumf (fun k => / entry M (Z.of_nat k) (Z.of_nat k) *
       sumn 3 (fun b => sumn 3 (fun c => weak_hessian n (map (area3 V) F) Gr x b c k * weak_hessian n (map (area3 V) F) Gr y b c k))) ids) as E.
  { intros x y. rewrite energy_bil, BQ by assumption. rewrite <- (sumn_list ids _ 0%nat). apply sumn_ext. intros k Hk.
    assert (nth k ids 0%nat < n)%nat as Hkn by (apply HI, nth_In, Hk).
    unfold w. rewrite (nth_indep _ 0 (1 / entry M (Z.of_nat 0) (Z.of_nat 0))) by (rewrite map_length; exact Hk). rewrite map_nth with (f := fun k => 1 / entry M (Z.of_nat k) (Z.of_nat k)). unfold Rdiv. rewrite Rmult_1_l. f_equal.
    assert (forall x b c, sumn m (fun f => nth f a 0 * at_ G (c * m + f) (nth k ids 0%nat) * mv G (fun i => x (Z.of_nat i)) (b * m + f)) = weak_hessian n (map (area3 V) F) Gr x b c (nth k ids 0%nat)) as WH.
    { intros x0 b c. unfold weak_hessian. rewrite Lm. apply sumn_ext. intros f Hf. rewrite HA by exact Hf. f_equal. f_equal. unfold G, of_trips. cbn [at_]. apply entry_hat, Hkn. }
    apply sumn_ext. intros b _. apply sumn_ext. intros c _. rewrite !WH. reflexivity. }
  split; [exact E|].
  apply (hess_props 3 n F (map (area3 V) F) Gr M Q ids); try assumption.
  - intros k Hk. destruct (referenced_dec F (Z.of_nat k)) as [R0|NR]; [left; apply MP, R0|right]. intros x b c Hb Hc. unfold weak_hessian. rewrite Lm. apply sumf_zero. intros f Hf. apply in_seq in Hf. destruct (nth_face F f ltac:(lia)) as (t & Et & Ht). unfold Gr, m. rewrite (grad3_rows V n F (hat k) c f t Va Et Hc). rewrite face_grad_hat by (eapply unref_corners; eauto). ring.
  - intros c f b Hf Hb. rewrite Lm in *. destruct (nth_face F f ltac:(lia)) as (t & Et & Ht). unfold Gr, m. rewrite (grad3_rows V n F (fun _ => c) b f t Va Et Hb). apply face_grad_const.
Qed.
Print Assumptions C68_hessian_surface.

(** on a planar, consistently oriented mesh without foldovers the affine functions have zero Hessian energy *)
Theorem C68_hessian_affine : forall V n F, F <> [] -> valid (Z.of_nat n) F -> oriented_manifold F ->
  (forall t, In t F -> 0 < det2 (sub2 (V (c1 t)) (V (c0 t))) (sub2 (V (c2 t)) (V (c0 t)))) ->
  exists Q, hessian_energy2 V n F = Ok Q /\
    forall (s : vec2) (d : R), let x := fun v => dot2 s (V v) + d in
      energy n Q x x = 0 /\ forall i, (i < n)%nat -> apply_row n Q x i = 0.
Proof.
  intros V n F NE Va OM PO. destruct (C68_hessian_planar V n F NE Va) as (G & M & Q & ids & EG & _ & EQ & _ & _ & _ & HI & _ & _ & _ & _ & K & _). { intros t Ht. pose proof (PO t Ht). lra. }
  exists Q. split; [exact EQ|]. intros s d x.
  assert (forall i, (i < n)%nat -> apply_row n Q x i = 0) as Z.
  2:{ split; [|exact Z]. unfold energy. apply sumf_zero. intros i Hi. apply in_seq in Hi. fold (apply_row n Q x i). rewrite Z by lia. ring. }
  apply K. intros k b c Hk Hb Hc. apply HI in Hk as [Hkn NB]. rewrite (grad2_is V n F Va) in EG. injection EG as <-.
  unfold weak_hessian. rewrite map_length.
  set (rot := fun e : Z * Z => match c with 0%nat => - (snd (V (snd e)) - snd (V (fst e))) | _ => fst (V (snd e)) - fst (V (fst e)) end / 2).
  assert (forall (g : Z -> R) t, 0 < det2 (sub2 (V (c1 t)) (V (c0 t))) (sub2 (V (c2 t)) (V (c0 t))) ->
    area2 V t * grad_comp c (face_grad (fun i => pad (V i)) g t) = g (c0 t) * rot (c1 t, c2 t) + g (c1 t) * rot (c2 t, c0 t) + g (c2 t) * rot (c0 t, c1 t)) as FG.
  { intros g t P. unfold area2. rewrite Rabs_right by lra. set (D := det2 _ _) in *.
    assert (fnormal (fun i => pad (V i)) t <> zero3) as FN. { intros Z0. unfold fnormal, cross3, sub3, pad, zero3, X, Y, Zc in Z0; cbn in Z0. injection Z0 as _ _ Z1. unfold D, det2, sub2 in P; cbn in P. lra. }
    destruct (face_grad_spec (fun i => pad (V i)) g t FN) as (S1 & S2 & S3).
    assert (face_grad (fun i => pad (V i)) g t = ((- g (c0 t) * (snd (V (c2 t)) - snd (V (c1 t))) - g (c1 t) * (snd (V (c0 t)) - snd (V (c2 t))) - g (c2 t) * (snd (V (c1 t)) - snd (V (c0 t)))) / D,
       (g (c0 t) * (fst (V (c2 t)) - fst (V (c1 t))) + g (c1 t) * (fst (V (c0 t)) - fst (V (c2 t))) + g (c2 t) * (fst (V (c1 t)) - fst (V (c0 t)))) / D, 0)) as ->.
    { apply (frame_unique (sub3 (pad (V (c1 t))) (pad (V (c0 t)))) (sub3 (pad (V (c2 t))) (pad (V (c0 t))))); [exact FN|rewrite S1|rewrite S2|].
      - unfold dot3, sub3, pad, X, Y, Zc; cbn. unfold D in *. unfold det2, sub2 in *; cbn in *. field. lra.
      - unfold dot3, sub3, pad, X, Y, Zc; cbn. unfold D in *. unfold det2, sub2 in *; cbn in *. field. lra.
      - change (cross3 _ _) with (fnormal (fun i => pad (V i)) t). rewrite S3. unfold fnormal, cross3, dot3, sub3, pad, X, Y, Zc; cbn. ring. }
    unfold rot. cbn [fst snd]. destruct c as [|[|c]]; [| |lia]; unfold grad_comp, X, Y; cbn [fst snd]; field; lra. }
  assert (forall f t, nth_error F f = Some t -> nth f (map (area2 V) F) 0 * mulv n (grad2_blocks V F) (hat k) (Z.of_nat (c * length F + f)) * mulv n (grad2_blocks V F) x (Z.of_nat (b * length F + f))
     = (hat k (c0 t) * rot (c1 t, c2 t) + hat k (c1 t) * rot (c2 t, c0 t) + hat k (c2 t) * rot (c0 t, c1 t)) * (match b with 0%nat => fst s | _ => snd s end)) as T.
  { intros f t Et. pose proof (nth_error_In _ _ Et) as Ht. rewrite (nth_error_nth (map (area2 V) F) f 0 (x := area2 V t)) by (rewrite nth_error_map, Et; reflexivity).
    rewrite (grad2_rows V n F (hat k) c f t Va Et Hc). rewrite FG by (apply PO, Ht). f_equal.
    destruct (grad2_affine V n F Va) as (G' & EG' & _ & AF). rewrite (grad2_is V n F Va) in EG'. injection EG' as <-. destruct (AF s d f t Et) as [A1 A2]; [pose proof (PO t Ht); lra|]. fold x in A1, A2.
    destruct b as [|[|b]]; [cbn [Nat.mul Nat.add]; exact A1|replace (1 * length F + f)%nat with (length F + f)%nat by lia; exact A2|lia]. }
  rewrite (sumn_faces F _ _ T). rewrite sumf_scal_r. match goal with |- ?a * _ = 0 => assert (a = 0) as ->; [|ring] end. clear T K.
  transitivity (sumf rot (link F (Z.of_nat k))).
  { unfold link. clear - Hc. induction F as [|t F IH]; [reflexivity|]. cbn [sumf flat_map]. rewrite sumf_app, IH. f_equal. clear IH. unfold hat, c0, c1, c2. destruct t as [[p q] r]. cbn [filter corner fst snd Nat.modulo Nat.divmod Nat.sub].
    destruct (p =? Z.of_nat k)%Z, (q =? Z.of_nat k)%Z, (r =? Z.of_nat k)%Z; cbn [map sumf side_opp corner Nat.add Nat.modulo Nat.divmod Nat.sub fst snd]; change (side_opp (p, q, r) 0) with (q, r); change (side_opp (p, q, r) 1) with (r, p); change (side_opp (p, q, r) 2) with (p, q); ring. }
  pose proof (link_closed F (Z.of_nat k) OM NB) as CC. unfold closed_curve in CC.
  assert (forall h : Z -> R, sumf (fun e => h (snd e) - h (fst e)) (link F (Z.of_nat k)) = 0) as CL.
  { intro h. assert (forall l, sumf (fun e : Z * Z => h (snd e) - h (fst e)) l = suml (map h (map snd l)) - suml (map h (map fst l))) as G. { induction l as [|e l IH]; [cbn; ring|]. cbn [sumf map suml]. rewrite IH. ring. }
    rewrite G. rewrite (suml_perm _ _ (Permutation_map h CC)). ring. }
  unfold rot. destruct c as [|c].
  - rewrite <- (CL (fun v => - snd (V v) / 2)). apply sumf_ext. intros. field.
  - rewrite <- (CL (fun v => fst (V v) / 2)). apply sumf_ext. intros. field.
Qed.
Print Assumptions C68_hessian_affine.

Example C68_nonvacuous :
  (let L := [((0,1,2)%Z, (1,1,1)); ((1,3,2)%Z, (1,1,1))] in valid 4 (map fst L) /\ (forall p, In p L -> triangle_lengths (snd p)) /\
     exists Q, mixedfem_energy L 4 = Ok Q /\ 0 < energy 4 Q (fun z => IZR z) (fun z => IZR z)) /\
  (let V := fun z : Z => if (z =? 0)%Z then (0,0) else if (z =? 1)%Z then (1,0) else if (z =? 2)%Z then (0,1) else (-1,-1) in let F := [(0,1,2); (0,2,3); (0,3,1)]%Z in
     F <> [] /\ valid 4 F /\ oriented_manifold F /\ (forall t, In t F -> 0 < det2 (sub2 (V (c1 t)) (V (c0 t))) (sub2 (V (c2 t)) (V (c0 t)))) /\ ~ on_boundary F 0).
Proof.
  split; cbv zeta.
  - set (L := [((0,1,2)%Z, (1,1,1)); ((1,3,2)%Z, (1,1,1))]).
    assert (valid (Z.of_nat 4) (map fst L)) as Va. { intros t Ht. cbn in Ht. unfold c0, c1, c2. destruct Ht as [ <- | [ <- | [] ] ]; cbn; lia. }
    assert (forall p, In p L -> triangle_lengths (snd p)) as TL. { intros p Hp. assert (snd p = (1,1,1)) as -> by (cbn in Hp; destruct Hp as [ <- | [ <- | [] ] ]; reflexivity). unfold triangle_lengths, X, Y, Zc. cbn [fst snd]. rewrite sqrt_1. repeat split; lra. }
    split; [exact Va|]. split; [exact TL|]. destruct (C68_mixed L 4 Va TL) as (Lap & M & Q & _ & _ & EQ & _ & _ & _ & _ & _ & _ & P & Z & _).
    exists Q. split; [exact EQ|]. pose proof (P (fun z => IZR z)) as P1. specialize (Z (fun z => IZR z)). destruct P1 as [P1|P1]; [exact P1|]. exfalso. destruct (proj1 Z (eq_sym P1) (0,1,2)%Z (or_introl eq_refl)) as [H _]. unfold c0, c1 in H. cbn in H. lra.
  - split; [discriminate|]. split; [|split; [|split]].
    + intros t Ht. cbn in Ht. unfold c0, c1, c2. repeat (destruct Ht as [ <- | Ht ]; [cbn; lia|]). destruct Ht.
    + unfold oriented_manifold. cbn. repeat constructor; cbn; intuition congruence.
    + intros t Ht. cbn in Ht. unfold c0, c1, c2, det2, sub2. repeat (destruct Ht as [ <- | Ht ]; [cbn; lra|]). destruct Ht.
    + intros (e & He & Q & D). cbn in He. repeat (destruct He as [ <- | He ]; [vm_compute in Q; cbn in D; first [discriminate|destruct D; discriminate]|]). destruct He.
Qed.
