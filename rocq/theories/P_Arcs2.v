(** C92: the fine tuning of the point cloud of reach_for_the_arcs. *)
From Coq Require Import Reals List Arith Bool ZArith Lra Lia Permutation Sorted.
From Verif Require Import Vec ArcsModel ArcsProofs ArcsTreeProofs P_Arcs.
Import ListNotations.
Open Scope R_scope.

(** the mirror image of p at c *)
Definition antipode (D : space) (c p : pt D) : pt D := psub D c (psub D p c).
Definition on_sphere (D : space) (n : nat) (U : nat -> pt D) (S : nat -> R) (a : pt D * nat) : Prop := (snd a < n)%nat /\ pnorm D (psub D (fst a) (U (snd a))) = Rabs (S (snd a)).
Definition tally (i : nat) (l : list nat) : nat := count_occ Nat.eq_dec l i.

Lemma turn2_norm theta x y : pnorm E2 (turn E2 theta x y) = pnorm E2 x.
Proof.
  unfold pnorm. cbn [pdot turn E2]. f_equal. unfold turn2. set (t := _ * theta). unfold dot2. cbn [fst snd]. pose proof (sin2_cos2 t) as SC. unfold Rsqr in SC.
  transitivity ((sin t * sin t + cos t * cos t) * (fst x * fst x + snd x * snd x)); [ring|]. rewrite SC. ring.
Qed.
Lemma turn3_norm theta x y : cross3 x y <> zero3 -> pnorm E3 (turn E3 theta x y) = pnorm E3 x.
Proof.
  intros NZ. unfold pnorm. cbn [pdot turn E3]. f_equal. unfold turn3. assert (P : 0 < dot3 (cross3 x y) (cross3 x y)).
  { destruct (dot3_pos (cross3 x y)) as [|E]; [auto|]. exfalso. apply NZ. set (v := cross3 x y) in *. assert (Q : v <> zero3 -> 0 < dot3 (sub3 v zero3) (sub3 v zero3)) by apply diff3. destruct (Req_dec (dot3 (sub3 v zero3) (sub3 v zero3)) 0) as [Z|Z].
    - destruct (same3 v zero3) eqn:SM; [apply same3_true; auto|]. exfalso. assert (v <> zero3) by (intros EQ; apply same3_true in EQ; congruence). specialize (Q H). lra.
    - exfalso. apply Z. rewrite E. unfold dot3, sub3, zero3, X, Y, Zc. cbn [fst snd]. ring. }
  destruct (unit3_ok _ P) as (U & UE). set (N := unit3 (cross3 x y)) in *. assert (NX : dot3 N x = 0) by (rewrite UE; unfold dot3, scal3, cross3, X, Y, Zc; cbn [fst snd]; ring).
  rewrite NX. set (c := cos theta). set (s := sin theta). assert (SC : s * s + c * c = 1) by apply sin2_cos2.
  transitivity (c * c * dot3 x x + s * s * (dot3 N N * dot3 x x - dot3 N x * dot3 N x)); [unfold dot3, add3, scal3, cross3, X, Y, Zc; cbn [fst snd]; ring|]. rewrite U, NX. transitivity ((s * s + c * c) * dot3 x x); [ring|rewrite SC; ring].
Qed.
(** vectors of the same length with zero cross product are equal or opposite *)
Lemma parallel x y : dot3 x x = dot3 y y -> cross3 x y = zero3 -> y = x \/ y = scal3 (-1) x.
Proof.
  intros E C. assert (L : dot3 x y * dot3 x y = dot3 x x * dot3 x x).
  { transitivity (dot3 x x * dot3 y y - dot3 (cross3 x y) (cross3 x y)); [unfold dot3, cross3, X, Y, Zc; cbn [fst snd]; ring|]. rewrite C, <- E. unfold dot3, zero3, X, Y, Zc. cbn [fst snd]. ring. }
  assert (S : dot3 x y = dot3 x x \/ dot3 x y = - dot3 x x) by (destruct (Rmult_integral (dot3 x y - dot3 x x) (dot3 x y + dot3 x x)) as [Z|Z]; [ring_simplify; lra|left; lra|right; lra]).
  destruct S as [S|S]; [left|right].
  - destruct (same3 y x) eqn:SM; [apply same3_true; auto|]. exfalso. assert (N : y <> x) by (intros EQ; apply same3_true in EQ; congruence). apply diff3 in N. assert (dot3 (sub3 y x) (sub3 y x) = dot3 y y - 2 * dot3 x y + dot3 x x) by (unfold dot3, sub3, X, Y, Zc; cbn [fst snd]; ring). lra.
  - destruct (same3 y (scal3 (-1) x)) eqn:SM; [apply same3_true; auto|]. exfalso. assert (N : y <> scal3 (-1) x) by (intros EQ; apply same3_true in EQ; congruence). apply diff3 in N. assert (dot3 (sub3 y (scal3 (-1) x)) (sub3 y (scal3 (-1) x)) = dot3 y y + 2 * dot3 x y + dot3 x x) by (unfold dot3, sub3, scal3, X, Y, Zc; cbn [fst snd]; ring). lra.
Qed.
(** turning a point of a sphere towards another one keeps it on the sphere, in space provided the two are not antipodes *)
Lemma turn_norm D theta c p q : known D -> pnorm D (psub D p c) = pnorm D (psub D q c) -> p <> q -> (D = E3 -> q <> antipode D c p) -> pnorm D (turn D theta (psub D p c) (psub D q c)) = pnorm D (psub D p c).
Proof.
  intros [->| ->] EN NE NA; [apply turn2_norm|]. specialize (NA eq_refl). apply turn3_norm. intros C. assert (EQ : dot3 (sub3 p c) (sub3 p c) = dot3 (sub3 q c) (sub3 q c)) by (rewrite <- !norm3_sq; unfold pnorm in EN; cbn [pdot psub E3] in EN; unfold norm3; rewrite EN; auto).
  destruct (parallel _ _ EQ C) as [P|P].
  - apply NE. apply vec3_eq; apply (f_equal X) in P as PX; apply (f_equal Y) in P as PY; apply (f_equal Zc) in P as PZ; unfold sub3, X, Y, Zc in *; cbn [fst snd] in *; lra.
  - apply NA. unfold antipode. cbn [psub E3]. apply vec3_eq; apply (f_equal X) in P as PX; apply (f_equal Y) in P as PY; apply (f_equal Zc) in P as PZ; unfold sub3, scal3, X, Y, Zc in *; cbn [fst snd] in *; lra.
Qed.

(** ** turning by an angle up to the one between the two points leads towards the second *)
Lemma expand D u v : known D -> pdot D (psub D u v) (psub D u v) = pdot D u u - 2 * pdot D u v + pdot D v v.
Proof. intros [->| ->]; cbn [pdot psub E2 E3]; [unfold dot2, sub2|unfold dot3, sub3, X, Y, Zc]; cbn [fst snd]; ring. Qed.
Lemma shift D c u q : known D -> psub D (padd D c u) q = psub D u (psub D q c).
Proof. intros [->| ->]; cbn [padd psub E2 E3]; [apply vec2_eq; unfold sub2, add2|apply vec3_eq; unfold sub3, add3, X, Y, Zc]; cbn [fst snd]; ring. Qed.
Lemma norm_square D v : known D -> pnorm D v * pnorm D v = pdot D v v.
Proof. intros KD. unfold pnorm. apply sqrt_sqrt. apply (dot_pos D (known_laws D KD)). Qed.
Lemma norm_nonneg D v : 0 <= pnorm D v. Proof. apply sqrt_pos. Qed.
Lemma turn_dots D x y : known D -> (D = E3 -> pdot D x x = pdot D y y -> x <> y /\ y <> pscal D (-1) x) -> pdot D x x = pdot D y y ->
  exists a, 0 <= a /\ a * a = pdot D x x * pdot D y y - pdot D x y * pdot D x y /\ forall theta, pdot D (turn D theta x y) x = cos theta * pdot D x x /\ pdot D (turn D theta x y) y = cos theta * pdot D x y + sin theta * a.
Proof.
  intros [->| ->] NA EQ.
  - cbn [pdot turn E2] in *. set (c := fst x * snd y - snd x * fst y). exists (Rabs c). split; [apply Rabs_pos|]. split; [rewrite <- Rabs_mult, Rabs_pos_eq by apply Rle_0_sqr; unfold c, dot2; ring|].
    intros theta. unfold turn2. fold c. destruct (lt_b c 0) eqn:LB; [apply lt_b_true in LB; rewrite Rabs_left by lra; replace (-1 * theta) with (- theta) by ring; rewrite cos_neg, sin_neg|apply lt_b_false in LB; rewrite Rabs_pos_eq, Rmult_1_l by lra]; unfold dot2, c; cbn [fst snd]; split; ring.
  - destruct (NA eq_refl EQ) as (N1 & N2). cbn [pdot turn pscal E3] in *. assert (P : 0 < dot3 (cross3 x y) (cross3 x y)).
    { destruct (Req_dec (dot3 (cross3 x y) (cross3 x y)) 0) as [Z|Z]; [|destruct (dot3_pos (cross3 x y)); [auto|congruence]]. exfalso. destruct (parallel x y EQ) as [->|E]; [|apply N1; auto|apply N2; auto].
      destruct (same3 (cross3 x y) zero3) eqn:SM; [apply same3_true; auto|]. exfalso. assert (NZ : cross3 x y <> zero3) by (intros Q; apply same3_true in Q; congruence). apply diff3 in NZ. assert (dot3 (sub3 (cross3 x y) zero3) (sub3 (cross3 x y) zero3) = dot3 (cross3 x y) (cross3 x y)) by (unfold dot3, sub3, zero3, X, Y, Zc; cbn [fst snd]; ring). lra. }
    exists (norm3 (cross3 x y)). split; [apply sqrt_pos|]. split; [rewrite norm3_sq; unfold dot3, cross3, X, Y, Zc; cbn [fst snd]; ring|]. destruct (unit3_ok _ P) as (U & UE). intros theta. unfold turn3. set (N := unit3 (cross3 x y)) in *.
    assert (NX : dot3 N x = 0) by (rewrite UE; unfold dot3, scal3, cross3, X, Y, Zc; cbn [fst snd]; ring). assert (NY : dot3 N y = 0) by (rewrite UE; unfold dot3, scal3, cross3, X, Y, Zc; cbn [fst snd]; ring). set (w := cross3 x y) in *.
    assert (NW : dot3 N w = norm3 w). { rewrite UE. assert (0 < norm3 w) by (apply sqrt_lt_R0; auto). transitivity (/ norm3 w * dot3 w w); [unfold dot3, scal3, X, Y, Zc; cbn [fst snd]; ring|]. rewrite <- norm3_sq. field. lra. }
    rewrite NX. split; [unfold dot3, add3, scal3, cross3, X, Y, Zc; cbn [fst snd]; ring|]. transitivity (cos theta * dot3 x y + (1 - cos theta) * 0 * dot3 N y + sin theta * dot3 N w); [unfold w, dot3, add3, scal3, cross3, X, Y, Zc; cbn [fst snd]; ring|]. rewrite NW. ring.
Qed.
Lemma turn_towards D c p q r theta lst : known D -> 0 < r -> pnorm D (psub D p c) = r -> pnorm D (psub D q c) = r -> (D = E3 -> p <> q /\ q <> antipode D c p) -> 0 <= lst ->
  0 <= theta <= Rmin (lst / r) (2 * asin (Rmin 1 (0.5 * pnorm D (psub D p q) / r))) ->
  let z := padd D c (turn D theta (psub D p c) (psub D q c)) in pnorm D (psub D z p) <= lst /\ pnorm D (psub D z q) <= pnorm D (psub D p q).
Proof.
  intros KD R0 NP NQ NA LS TH z. set (x := psub D p c) in *. set (y := psub D q c) in *. assert (XX : pdot D x x = r * r) by (rewrite <- norm_square, NP; auto). assert (YY : pdot D y y = r * r) by (rewrite <- norm_square, NQ; auto).
  assert (NA' : D = E3 -> pdot D x x = pdot D y y -> x <> y /\ y <> pscal D (-1) x).
  { intros ED _. destruct (NA ED) as (N1 & N2). unfold x, y. clear -ED N1 N2. subst D. cbn [psub pscal E3] in *. split; intros Q; [apply N1|apply N2; unfold antipode; cbn [psub E3]]; apply vec3_eq; apply (f_equal X) in Q as QX; apply (f_equal Y) in Q as QY; apply (f_equal Zc) in Q as QZ; unfold sub3, scal3, X, Y, Zc in *; cbn [fst snd] in *; lra. }
  destruct (turn_dots D x y KD NA' ltac:(lra)) as (a & A0 & AA & H). destruct (H theta) as (HX & HY). set (t := turn D theta x y) in *.
  assert (TT : pdot D t t = r * r).
  { rewrite <- norm_square by auto. unfold t. destruct KD as [->| ->]; [rewrite turn2_norm, NP; auto|]. rewrite turn3_norm, NP; auto. intros C. destruct (NA' eq_refl ltac:(lra)) as (N1 & N2). cbn [pdot E3] in *. destruct (parallel x y) as [E|E]; [lra|auto|congruence|apply N2; auto]. }
  set (dd := pnorm D (psub D p q)) in *. assert (D0 : 0 <= dd) by apply norm_nonneg. assert (XYE : 2 * pdot D x y = 2 * (r * r) - dd * dd).
  { assert (E : psub D p q = psub D x y) by (unfold x, y; rewrite <- shift by auto; rewrite (sub_add D (known_laws D KD)); auto). unfold dd. rewrite norm_square by auto. rewrite E, (expand D x y KD), XX, YY. ring. }
  assert (DR : dd * dd <= 4 * (r * r)). { assert (0 <= (r * r) * (r * r) - pdot D x y * pdot D x y) by (rewrite XX, YY in AA; nra). assert (- (r * r) <= pdot D x y); [|lra]. destruct (Rle_lt_dec (- (r * r)) (pdot D x y)); [auto|]. exfalso. assert (0 < r * r) by nra. nra. }
  assert (DR2 : dd <= 2 * r) by nra. assert (MM : Rmin 1 (0.5 * dd / r) = 0.5 * dd / r). { apply Rmin_right. apply Rmult_le_reg_r with r; [auto|]. unfold Rdiv. rewrite Rmult_assoc, Rinv_l by lra. lra. }
  rewrite MM in TH. set (m := 0.5 * dd / r) in *. assert (MR : m * r = dd / 2) by (unfold m; replace 0.5 with (/ 2) by lra; field; lra). assert (M0 : 0 <= m) by (apply Rmult_le_reg_r with r; [auto|rewrite MR; lra]). assert (M1 : m <= 1) by (apply Rmult_le_reg_r with r; [auto|rewrite MR; lra]).
  set (h := asin m) in *. assert (SH : sin h = m) by (apply sin_asin; lra). assert (HB : - (PI / 2) <= h <= PI / 2) by apply asin_bound. pose proof PI_RGT_0 as PI0.
  assert (H0 : 0 <= h). { destruct (Rle_lt_dec 0 h); [auto|]. exfalso. assert (sin h < 0) by (apply sin_lt_0_var; lra). lra. }
  assert (T1 : theta <= lst / r) by (eapply Rle_trans; [apply TH|apply Rmin_l]). assert (T2 : theta <= 2 * h) by (eapply Rle_trans; [apply TH|apply Rmin_r]). set (phi := 2 * h) in *.
  assert (CP : r * r * cos phi = pdot D x y). { unfold phi. rewrite cos_2a_sin, SH. replace (r * r * (1 - 2 * m * m)) with (r * r - 2 * (m * r) * (m * r)) by ring. rewrite MR. lra. }
  assert (SPA : r * r * sin phi = a). { assert (S0 : 0 <= sin phi) by (apply sin_ge_0; unfold phi; lra). pose proof (sin2_cos2 phi) as SC. unfold Rsqr in SC. assert (EQ : (r * r * sin phi) * (r * r * sin phi) = a * a) by (rewrite AA, <- CP, XX, YY; transitivity (r * r * (r * r) * (sin phi * sin phi)); [ring|]; replace (sin phi * sin phi) with (1 - cos phi * cos phi) by lra; ring). assert (0 <= r * r * sin phi) by nra. nra. }
  assert (TY : pdot D t y = r * r * cos (phi - theta)) by (rewrite HY, <- CP, <- SPA, cos_minus; ring).
  assert (LE : forall u v, 0 <= v -> pdot D u u <= v * v -> pnorm D u <= v) by (intros u v V0 Q; unfold pnorm; rewrite <- (sqrt_square v V0); apply sqrt_le_1_alt; auto).
  assert (ZP : psub D z p = psub D t x) by (unfold z; rewrite shift by auto; auto). assert (ZQ : psub D z q = psub D t y) by (unfold z; rewrite shift by auto; auto).
  split.
  - rewrite ZP. apply LE; [auto|]. rewrite expand, TT, HX, XX by auto. replace theta with (2 * (theta / 2)) at 1 by field. rewrite cos_2a_sin. set (k := theta / 2). assert (K0 : 0 <= k) by (unfold k; lra). assert (SK : - k <= sin k <= k).
    { destruct K0 as [K0|<-]; [|rewrite sin_0; lra]. split; [|left; apply sin_lt_x; auto]. destruct (Rle_lt_dec k PI) as [KP|KP]; [pose proof (sin_ge_0 k ltac:(lra) KP); lra|pose proof (SIN_bound k); pose proof PI2_1; lra]. }
    assert (TR : theta * r <= lst) by (apply Rmult_le_reg_r with (/ r); [apply Rinv_0_lt_compat; auto|rewrite Rmult_assoc, Rinv_r by lra; unfold Rdiv in T1; lra]). assert (KR : 2 * (k * r) <= lst) by (unfold k; lra).
    assert (S2 : sin k * sin k <= k * k) by nra. assert (KK : (k * r) * (k * r) * 4 <= lst * lst) by (assert (0 <= k * r) by nra; nra). assert (r * r * (sin k * sin k) <= r * r * (k * k)) by (apply Rmult_le_compat_l; [nra|auto]). nra.
  - rewrite ZQ. apply LE; [auto|]. rewrite expand, TT, TY, YY by auto. assert (C : cos phi <= cos (phi - theta)) by (apply cos_decr_1; unfold phi in *; lra). assert (r * r * cos phi <= r * r * cos (phi - theta)) by (apply Rmult_le_compat_l; [nra|auto]). lra.
Qed.

Section Tune.
  Variables (D : space) (KD : known D).
  Let L : laws D := known_laws D KD.
  Variable srt : list nat -> list nat.
  Hypothesis SP : permutes srt.
  Variables (n : nat) (U : nat -> pt D) (S : nat -> R) (batch : list nat) (nls lsi : Z) (tol : R) (clamp : option R).
  Hypotheses (DI : distinct D n U) (NB : batch <> []) (BN : forall j, In j batch -> (j < n)%nat) (TP : 0 <= tol).
  Variable tree : node.
  Hypothesis TR : init D tol (spheres D U S batch) = Some tree.
  Variable cloud : list (pt D * nat).
  Hypothesis CO : forall a, In a cloud -> on_sphere D n U S a.
  Variables (d_sq : nat -> R) (proj : nat -> pt D) (wind : nat -> R) (d_sq_cloud : nat -> R) (proj_cloud : nat -> pt D) (srt2 : list nat -> list nat).
  Hypothesis SP2 : permutes srt2.
  Variables (mpps : Z) (lst : R).
  Notation target := (proj_onto_sphere D U S wind).
  (** no cloud point is sent to its antipode *)
  Definition no_antipodes : Prop := D = E3 -> forall a i m, (a < length cloud)%nat -> snd (nth a cloud (axis0 D, 0%nat)) = i -> m = proj i \/ m = proj_cloud a -> target m i <> antipode D (U i) (cpos D cloud a).
  Hypothesis NA : no_antipodes.
  Hypothesis TP0 : 0 < tol.
  Lemma target_on m i : pnorm D (psub D (target m i) (U i)) = Rabs (S i).
  Proof.
    unfold proj_onto_sphere. cbv zeta. rewrite (add_sub D L), !(norm_scal D L), (direction_unit D KD), Rabs_Rabsolu. assert (E : Rabs ((if lt_b (S i) 0 then -1 else 1) * (if lt_b 0.5 (wind i) then -1 else 1)) = 1); [|rewrite E; ring].
    destruct (lt_b _ _), (lt_b _ _); [replace (-1 * -1) with 1 by ring; apply Rabs_R1|replace (-1 * 1) with (-1) by ring; rewrite Rabs_left; lra|replace (1 * -1) with (-1) by ring; rewrite Rabs_left; lra|rewrite Rmult_1_r; apply Rabs_R1].
  Qed.
  Lemma line_ok : forall k it theta c x y q w, exists w' r, line_search D U S batch tol tree k it theta c x y q w = Some (w', r) /\ (r = q \/ exists t, r = padd D c (turn D t x y))
    /\ forall w2, exists w3, line_search D U S batch tol tree k it theta c x y q w2 = Some (w3, r).
  Proof.
    induction k as [|k IH]; intros it theta c x y q w; [exists w, q; cbn [line_search]; eauto|]. cbn [line_search]. cbv zeta. set (np := padd D c (turn D theta x y)).
    destruct (hits_some D KD n U S batch tol NB BN tree TR np 1 (- tol) it w ltac:(lra)) as (o & EO). rewrite EO.
    assert (EO2 : forall w2, hits D U S batch tree np 1 (- tol) it w2 = Some o) by (intros w2; rewrite (hits_old D U S batch tree np 1 (- tol) it w2 w) by lia; auto).
    destruct o as [|z o]; [exists [], np; split; [auto|]; split; [right; exists theta; auto|]; intros w2; rewrite EO2; eauto|].
    destruct (IH (Datatypes.S it) (theta * 0.5) c x y q (z :: o)) as (w' & r & E & A & _). exists w', r. split; [auto|]. split; [auto|]. intros w2. rewrite EO2. eauto.
  Qed.
  Lemma move_ok p q i w : pnorm D (psub D p (U i)) = Rabs (S i) -> pnorm D (psub D q (U i)) = Rabs (S i) -> (D = E3 -> q <> antipode D (U i) p) ->
    exists w' r, move_p_towards_q D U S batch tol tree lst p q i w = Some (w', r) /\ pnorm D (psub D r (U i)) = Rabs (S i) /\ forall w2, exists w3, move_p_towards_q D U S batch tol tree lst p q i w2 = Some (w3, r).
  Proof.
    intros NP NQ NAP. unfold move_p_towards_q. cbv zeta. destruct (lt_b (pnorm D (psub D p q)) tol) eqn:PQ; [cbn [orb]; exists w, p; eauto|]. cbn [orb]. destruct (_ || _); [exists w, p; eauto|]. apply lt_b_false in PQ.
    assert (NE : p <> q). { intros ->. rewrite <- (scal_one D L (psub D q q)) in PQ. assert (Z : pscal D 1 (psub D q q) = pscal D 0 (psub D q q)); [|rewrite Z, (norm_scal D L), Rabs_R0 in PQ; lra]. clear -KD. destruct KD as [->| ->]; cbn [pscal psub E2 E3]; [apply vec2_eq; unfold scal2, sub2; cbn [fst snd]; ring|apply vec3_eq; unfold scal3, sub3, X, Y, Zc; cbn [fst snd]; ring]. }
    destruct (line_ok 20 0 (Rmin (lst / Rabs (S i)) (2 * asin (Rmin 1 (0.5 * pnorm D (psub D p q) / Rabs (S i))))) (U i) (psub D p (U i)) (psub D q (U i)) q w) as (w' & r & E & A & B). exists w', r. split; [auto|]. split; [|auto].
    destruct A as [->|(t & ->)]; [auto|]. rewrite (add_sub D L), turn_norm; auto. congruence.
  Qed.
  Lemma inv_in i a : In a (feasible_inv D cloud i) <-> (a < length cloud)%nat /\ snd (nth a cloud (axis0 D, 0%nat)) = i.
  Proof. unfold feasible_inv. rewrite filter_In, in_seq, Nat.eqb_eq. intuition lia. Qed.
  Lemma cpos_on i a : In a (feasible_inv D cloud i) -> pnorm D (psub D (cpos D cloud a) (U i)) = Rabs (S i).
  Proof. intros I. apply inv_in in I. destruct I as (LA & <-). unfold cpos. apply (CO (nth a cloud (axis0 D, 0%nat))). apply nth_In. auto. Qed.
  Lemma closest_in q l : l <> [] -> In (closest_idx D cloud q l) l.
  Proof.
    destruct l as [|a r]; [congruence|]. intros _. unfold closest_idx. cbv beta zeta. assert (G : forall (g : nat -> R) l a, In (fold_left (fun b a => if lt_b (g a) (g b) then a else b) l a) (a :: l)); [|apply (G (fun a => pdot D (psub D (cpos D cloud a) q) (psub D (cpos D cloud a) q)))].
    clear. intros g. induction l as [|x l IH]; intros a; [left; auto|]. cbn [fold_left]. destruct (lt_b (g x) (g a)); [destruct (IH x) as [E|I]; [right; left; auto|right; right; auto]|destruct (IH a) as [E|I]; [left; auto|right; right; auto]].
  Qed.
  Lemma moves_ok i : forall l w, (forall a, In a l -> In a (feasible_inv D cloud i)) -> exists w' ps, moves D U S batch tol tree cloud wind proj_cloud lst l i w = Some (w', ps)
    /\ length ps = length l /\ (forall p, In p ps -> pnorm D (psub D p (U i)) = Rabs (S i)) /\ forall w2, exists w3, moves D U S batch tol tree cloud wind proj_cloud lst l i w2 = Some (w3, ps).
  Proof.
    induction l as [|a l IH]; intros w HL; cbn [moves]; [exists w, []; repeat split; eauto; intros ? []|].
    assert (Ia : In a (feasible_inv D cloud i)) by (apply HL; left; auto). destruct (proj1 (inv_in i a) Ia) as (LA & EA).
    destruct (move_ok (cpos D cloud a) (target (proj_cloud a) i) i w) as (w1 & p & E & NP & ANY); [apply cpos_on; auto|apply target_on|intros ED; apply (NA ED a i); auto|].
    destruct (IH w1 ltac:(intros; apply HL; right; auto)) as (w2 & ps & E2 & LP & NPS & ANY2). rewrite E, E2. exists w2, (p :: ps). split; [auto|]. split; [cbn; lia|]. split; [intros z [<-|I]; auto|].
    intros w3. destruct (ANY w3) as (w4 & ->). destruct (ANY2 w4) as (w5 & ->). eauto.
  Qed.
  Lemma partners_sub i len : forall l j, incl (partners S d_sq mpps i j len l) l.
  Proof. induction l as [|a l IH]; intros j; cbn [partners]; [apply incl_refl|]. destruct (negb _); [apply incl_nil_l|]. destruct (_ && _); [apply incl_nil_l|]. apply incl_cons; [left; auto|apply incl_tl, IH]. Qed.
  Lemma partners_len i len : forall l j, (Z.of_nat (length (partners S d_sq mpps i j len l)) <= Z.max 0 (mpps - 1 - Z.of_nat j))%Z.
  Proof. induction l as [|a l IH]; intros j; cbn [partners]; [cbn; lia|]. destruct (Z.ltb_spec (Z.of_nat j + 1) mpps); cbn [negb]; [|cbn; lia]. destruct (_ && _); [cbn; lia|]. specialize (IH (j + 1)%nat). cbn [length]. lia. Qed.
  Lemma loop_move_ok i : exists ps, (forall w, exists w', loop_move D U S batch tol tree cloud d_sq proj wind proj_cloud srt2 mpps lst i w = Some (w', ps)) /\ (forall p, In p ps -> pnorm D (psub D p (U i)) = Rabs (S i))
    /\ (Z.of_nat (length ps) <= Z.max (Z.max 1 mpps) (Z.of_nat (tally i (map snd cloud))))%Z.
  Proof.
    set (inv := feasible_inv D cloud i). set (pp := target (proj i) i).
    assert (LEN : length inv = tally i (map snd cloud)).
    { unfold inv, feasible_inv, tally. clear. induction cloud as [|e l IH] using rev_ind; [auto|]. rewrite app_length, map_app, count_occ_app. cbn [length map]. rewrite Nat.add_1_r, seq_S, filter_app, app_length. f_equal.
      - rewrite <- IH. f_equal. apply filter_ext_in. intros a Ia. apply in_seq in Ia. rewrite app_nth1 by lia. auto.
      - cbn [plus filter]. rewrite app_nth2, Nat.sub_diag by lia. cbn [nth count_occ]. destruct (Nat.eqb_spec (snd e) i), (Nat.eq_dec (snd e) i); try congruence; auto. }
    assert (MV : inv <> [] -> exists p, (forall w, exists w', move_p_towards_q D U S batch tol tree lst (cpos D cloud (closest_idx D cloud pp inv)) pp i w = Some (w', p)) /\ pnorm D (psub D p (U i)) = Rabs (S i)).
    { intros NE. pose proof (closest_in pp inv NE) as IC. destruct (proj1 (inv_in i _) IC) as (LA & EA). destruct (move_ok (cpos D cloud (closest_idx D cloud pp inv)) pp i []) as (w1 & p & E & NP & ANY); [apply cpos_on; auto|apply target_on|intros ED; apply (NA ED _ i); auto|]. exists p. auto. }
    assert (IV : forall z, In z inv -> In z (feasible_inv D cloud i)) by auto. unfold loop_move. fold inv pp. cbv zeta. clearbody inv. destruct inv as [|a inv'].
    - exists [pp]. split; [intros w; exists w; destruct (_ && _); [|destruct (_ && _)]; auto|]. split; [intros p [<-|[]]; apply target_on|cbn; lia].
    - set (inv := a :: inv') in *. destruct (MV ltac:(discriminate)) as (p & ANY & NP).
      destruct (_ && _).
      + destruct (1 <? mpps)%Z eqn:LM.
        * destruct (moves_ok i (partners S d_sq mpps i 0 (length inv) (srt2 inv)) []) as (w2 & qs & _ & LQ & NQ & ANY2); [intros z Iz; apply partners_sub in Iz; apply IV, (Permutation_in _ (SP2 inv)); auto|].
          exists (p :: qs). split; [intros w; destruct (ANY w) as (w1 & ->); destruct (ANY2 w1) as (w3 & ->); eauto|]. split; [intros z [<-|I]; auto|]. pose proof (partners_len i (length inv) (srt2 inv) 0). cbn [length]. lia.
        * exists [p]. split; [intros w; destruct (ANY w) as (w1 & ->); eauto|]. split; [intros z [<-|[]]; auto|cbn; lia].
      + destruct (_ && _).
        * exists [p]. split; [intros w; destruct (ANY w) as (w1 & ->); eauto|]. split; [intros z [<-|[]]; auto|cbn; lia].
        * exists (map (cpos D cloud) inv). split; [eauto|]. split; [intros z Iz; apply in_map_iff in Iz; destruct Iz as (b & <- & Ib); apply cpos_on; auto|rewrite map_length; lia].
  Qed.
  (** what sphere i gives *)
  Definition given (i : nat) : list (pt D) := match loop_move D U S batch tol tree cloud d_sq proj wind proj_cloud srt2 mpps lst i [] with Some (_, ps) => ps | None => [] end.
  Lemma given_ok i : (forall w, exists w', loop_move D U S batch tol tree cloud d_sq proj wind proj_cloud srt2 mpps lst i w = Some (w', given i)) /\ (forall p, In p (given i) -> pnorm D (psub D p (U i)) = Rabs (S i))
    /\ (Z.of_nat (length (given i)) <= Z.max (Z.max 1 mpps) (Z.of_nat (tally i (map snd cloud))))%Z.
  Proof. destruct (loop_move_ok i) as (ps & A & B & C). unfold given. destruct (A []) as (w & E). rewrite E. auto. Qed.
  Definition moved : list (pt D * nat) := flat_map (fun i => map (fun p => (p, i)) (given i)) (seq 0 n).
  Lemma upd_flat {B} (c : nat -> list B) th x : forall m s, (s <= th < s + m)%nat -> Permutation (flat_map (upd c th (c th ++ x)) (seq s m)) (flat_map c (seq s m) ++ x).
  Proof.
    induction m as [|m IH]; intros s LT; [lia|]. cbn [seq flat_map]. destruct (Nat.eq_dec s th) as [->|NE].
    - unfold upd at 1. rewrite Nat.eqb_refl. rewrite (flat_map_ext_in' (upd c th (c th ++ x)) c) by (intros a Ia; apply in_seq in Ia; unfold upd; destruct (Nat.eqb_spec a th); [lia|auto]). rewrite <- !app_assoc. apply Permutation_app_head, Permutation_app_comm.
    - unfold upd at 1. destruct (Nat.eqb_spec s th); [lia|]. rewrite <- app_assoc. apply Permutation_app_head. apply IH. lia.
  Qed.
  Lemma move_run sh threads : forall tasks st, (forall t, In t tasks -> (snd t < threads)%nat) ->
    exists st', fold_left (move_step D U S batch tol tree cloud d_sq proj wind proj_cloud srt2 mpps lst sh) tasks (Some st) = Some st'
      /\ Permutation (flat_map (collected D st') (seq 0 threads)) (flat_map (collected D st) (seq 0 threads) ++ flat_map (fun i => map (fun p => (p, i)) (given i)) (map sh (map fst tasks))).
  Proof.
    induction tasks as [|(a, th) tasks IH]; intros st HT; [exists st; split; [auto|]; cbn [map flat_map]; rewrite app_nil_r; auto|]. cbn [fold_left move_step fst snd map flat_map]. cbv zeta.
    destruct (proj1 (given_ok (sh a)) (mwork D st th)) as (w & ->). match goal with |- context [fold_left _ tasks (Some ?s)] => destruct (IH s) as (st' & E & P) end; [intros; apply HT; right; auto|]. exists st'. split; [exact E|]. eapply Permutation_trans; [exact P|]. cbn [collected].
    pose proof (HT (a, th) (or_introl eq_refl)) as LT. cbn in LT. rewrite app_assoc. apply Permutation_app_tail. apply upd_flat. lia.
  Qed.
  Lemma move_all_ok sh threads schedule : Permutation (map sh (seq 0 n)) (seq 0 n) -> Permutation (map fst schedule) (seq 0 n) -> (forall t, In t schedule -> (snd t < threads)%nat) ->
    exists pts, move_all D U S batch tol tree cloud d_sq proj wind proj_cloud srt2 mpps lst sh threads schedule = Some pts /\ Permutation pts moved.
  Proof.
    intros PS PT TH. unfold move_all. destruct (move_run sh threads schedule {| collected := fun _ => []; mwork := fun _ => [] |} TH) as (st & E & P). rewrite E. eexists. split; [reflexivity|]. eapply Permutation_trans; [exact P|]. cbn [collected].
    replace (flat_map (fun _ : nat => @nil (pt D * nat)) (seq 0 threads)) with (@nil (pt D * nat)) by (symmetry; clear; generalize 0%nat; induction threads as [|m IH]; intros s; cbn; auto). cbn [app]. unfold moved. apply Permutation_flat_map. eapply Permutation_trans; [apply Permutation_map; exact PT|exact PS].
  Qed.
  (** what the feasibility search makes of one point *)
  Definition kept (a : pt D * nat) : option (pt D * bool) := if clamped S clamp (snd a) then None else match local_search D srt U S batch nls lsi tol tree (snd a) (fst a) [] with Some (_, r) => Some r | None => None end.
  Definition out_of (a : pt D * nat) : list (pt D * pt D * nat) := match kept a with Some (q, true) => [entry D U S q (snd a)] | _ => [] end.
  Lemma feas_run pts : (forall a, In a pts -> (snd a < n)%nat) -> forall tasks st, (forall t, In t tasks -> (fst t < length pts)%nat) ->
    exists st', fold_left (feasible_step D srt U S batch nls lsi tol clamp tree pts) tasks (Some st) = Some st'
      /\ forall k, (In k (map fst tasks) -> match kept (nth k pts (axis0 D, 0%nat)) with Some (q, b) => points D st' k = Some q /\ feasible D st' k = b | None => points D st' k = points D st k /\ feasible D st' k = feasible D st k end)
                 /\ (~ In k (map fst tasks) -> points D st' k = points D st k /\ feasible D st' k = feasible D st k).
  Proof.
    intros HP. induction tasks as [|(a, th) tasks IH]; intros st HT; [exists st; split; [auto|]; intros k; split; [intros []|auto]|]. cbn [fold_left feasible_step fst snd]. pose proof (HT (a, th) (or_introl eq_refl)) as LA. cbn in LA.
    pose proof (HP _ (nth_In pts (axis0 D, 0%nat) LA)) as LS. assert (KE : kept (nth a pts (axis0 D, 0%nat)) = if clamped S clamp (snd (nth a pts (axis0 D, 0%nat))) then None else match local_search D srt U S batch nls lsi tol tree (snd (nth a pts (axis0 D, 0%nat))) (fst (nth a pts (axis0 D, 0%nat))) [] with Some (_, r) => Some r | None => None end) by reflexivity.
    destruct (nth a pts (axis0 D, 0%nat)) as (p, s) eqn:EN. cbn [fst snd] in *.
    assert (exists s1, (if clamped S clamp s then Some st else match local_search D srt U S batch nls lsi tol tree s p (work D st th) with None => None | Some (w, (q, b)) => Some {| points := upd (points D st) a (Some q); feasible := upd (feasible D st) a b; work := upd (work D st) th w |} end) = Some s1
      /\ match kept (p, s) with Some (q, b) => points D s1 a = Some q /\ feasible D s1 a = b | None => points D s1 a = points D st a /\ feasible D s1 a = feasible D st a end /\ forall k, k <> a -> points D s1 k = points D st k /\ feasible D s1 k = feasible D st k) as (s1 & -> & A1 & A2).
    { destruct (clamped S clamp s); [exists st; rewrite KE; auto|]. destruct (local_ok D KD srt SP n U S batch nls lsi tol DI NB BN TP tree TR s p [] LS) as (w & q & b & E & _ & _ & _ & ANY). rewrite E in KE. destruct (ANY (work D st th)) as (w3 & ->). rewrite KE. eexists. split; [reflexivity|]. cbn [points feasible]. unfold upd. rewrite Nat.eqb_refl. split; [auto|]. intros k NK. destruct (Nat.eqb_spec k a); [congruence|auto]. }
    destruct (IH s1 ltac:(intros; apply HT; right; auto)) as (st' & E & H). exists st'. split; [exact E|]. intros k. destruct (H k) as (H1 & H2). cbn [map fst]. destruct (in_dec Nat.eq_dec k (map fst tasks)) as [I|NI].
    - specialize (H1 I). split; [|intros N; exfalso; apply N; right; auto]. intros _. destruct (Nat.eq_dec k a) as [->|NE].
      + rewrite EN in H1 |- *. revert H1 A1. destruct (kept (p, s)) as [(q, b)|]; [auto|]. intros (-> & ->) A1. exact A1.
      + revert H1. destruct (A2 k NE) as (-> & ->). auto.
    - destruct (H2 NI) as (P1 & P2). split; [|intros N; rewrite P1, P2; apply A2; intros ->; apply N; left; auto]. intros [<-|I]; [|contradiction]. rewrite EN, P1, P2. exact A1.
  Qed.
  Definition tuned : list (pt D * pt D * nat) := flat_map out_of moved.
  Lemma moved_on a : In a moved -> (snd a < n)%nat /\ In (fst a) (given (snd a)).
  Proof. intros I. apply in_flat_map in I. destruct I as (i & Ii & I). apply in_seq in Ii. apply in_map_iff in I. destruct I as (p & <- & Ip). cbn. split; [lia|auto]. Qed.
  Lemma flat_nth {B} (f : pt D * nat -> list B) d : forall l, flat_map (fun k => f (nth k l d)) (seq 0 (length l)) = flat_map f l.
  Proof. induction l as [|x l IH]; [auto|]. cbn [length seq flat_map nth]. f_equal. rewrite <- IH. rewrite <- seq_shift. rewrite !flat_map_concat_map, map_map. auto. Qed.
  Lemma tune_ok sh threads schedule : Permutation (map sh (seq 0 n)) (seq 0 n) -> Permutation (map fst schedule) (seq 0 n) -> (forall t, In t schedule -> (snd t < threads)%nat) ->
    forall schedule2, Permutation (map fst schedule2) (seq 0 (length moved)) ->
    exists out, fine_tune_point_cloud_iter D srt U S batch nls lsi tol clamp tree cloud d_sq proj wind proj_cloud srt2 mpps lst sh threads schedule schedule2 = Some out /\ Permutation out tuned.
  Proof.
    intros PS PT TH schedule2 P2. unfold fine_tune_point_cloud_iter. destruct (move_all_ok sh threads schedule PS PT TH) as (pts & E & PM). rewrite E.
    assert (HP : forall a, In a pts -> (snd a < n)%nat) by (intros a Ia; apply moved_on, (Permutation_in _ PM); auto).
    assert (HT : forall t, In t schedule2 -> (fst t < length pts)%nat) by (intros t It; apply (in_map fst), (Permutation_in _ P2), in_seq in It; rewrite (Permutation_length PM); lia).
    destruct (feas_run pts HP schedule2 {| points := fun _ => None; feasible := fun _ => false; work := fun _ => [] |} HT) as (st & E2 & H). rewrite E2. eexists. split; [reflexivity|]. unfold tuned. eapply Permutation_trans; [|apply Permutation_flat_map; exact PM]. rewrite <- (flat_nth out_of (axis0 D, 0%nat) pts).
    match goal with |- Permutation ?a ?b => assert (Q : a = b); [|rewrite Q; auto] end. apply flat_map_ext_in'. intros k Ik. assert (IK : In k (map fst schedule2)) by (apply (Permutation_in _ (Permutation_sym P2)); rewrite <- (Permutation_length PM); auto).
    specialize (proj1 (H k) IK). unfold out_of. destruct (kept _) as [(q, b)|]; intros (-> & ->); [destruct b; reflexivity|reflexivity].
  Qed.
  Lemma tuned_tangent e : In e tuned -> (snd e < n)%nat /\ below clamp (Rabs (S (snd e))) /\ tangent D U S tol batch e.
  Proof.
    intros I. apply in_flat_map in I. destruct I as ((p, s) & Ia & I). destruct (moved_on _ Ia) as (LS & IG). cbn [fst snd] in *. unfold out_of, kept in I. cbn [fst snd] in I. destruct (clamped S clamp s) eqn:CL; [destruct I|].
    destruct (local_ok D KD srt SP n U S batch nls lsi tol DI NB BN TP tree TR s p [] LS) as (w & q & b & E & A & B & _). rewrite E in I. destruct b; [|destruct I]. destruct I as [<-|[]]. cbn [entry snd]. split; [auto|]. split.
    - unfold clamped in CL. unfold below. destruct clamp as [c|]; [|auto]. apply le_b_false in CL. auto.
    - apply (entry_ok D KD); [apply A; apply given_ok; auto|auto].
  Qed.
  Lemma tuned_tally i : (Z.of_nat (tally i (map snd tuned)) <= Z.max (Z.max 1 mpps) (Z.of_nat (tally i (map snd cloud))))%Z.
  Proof.
    assert (C1 : (tally i (map snd tuned) <= tally i (map snd moved))%nat).
    { unfold tuned. induction moved as [|(p, s) l IH]; [auto|]. cbn [flat_map map snd]. rewrite map_app. unfold tally in *. rewrite count_occ_app. cbn [count_occ]. unfold out_of at 1. cbn [snd]. destruct (kept _) as [(q, [|])|]; cbn [map entry snd count_occ]; destruct (Nat.eq_dec s i); lia. }
    assert (C2 : forall m s, tally i (map snd (flat_map (fun i => map (fun p => (p, i)) (given i)) (seq s m))) = if in_dec Nat.eq_dec i (seq s m) then length (given i) else 0%nat).
    { assert (CC : forall j, tally i (map snd (map (fun p => (p, j)) (given j))) = if Nat.eq_dec j i then length (given j) else 0%nat).
      { intros j. rewrite map_map. cbn [snd]. unfold tally. induction (given j) as [|x l IH]; [destruct (Nat.eq_dec j i); auto|]. cbn [map count_occ length]. rewrite IH. destruct (Nat.eq_dec j i); auto. }
      induction m as [|m IH]; intros s; [auto|]. cbn [seq flat_map]. rewrite map_app. unfold tally in *. rewrite count_occ_app, CC, IH. destruct (Nat.eq_dec s i) as [->|NE].
      - destruct (in_dec Nat.eq_dec i (seq (Datatypes.S i) m)) as [I|_]; [apply in_seq in I; lia|]. destruct (in_dec _ _ _) as [_|N]; [lia|exfalso; apply N; left; auto].
      - destruct (in_dec Nat.eq_dec i (seq (Datatypes.S s) m)) as [I|N]; destruct (in_dec Nat.eq_dec i _) as [I2|N2]; [lia|exfalso; apply N2; right; auto|destruct I2; [congruence|contradiction]|lia]. }
    specialize (C2 n 0%nat). fold moved in C2. destruct (given_ok i) as (_ & _ & GL). destruct (in_dec _ _ _); lia.
  Qed.
  (** a candidate that is free is kept as it is *)
  Lemma kept_free p i : (i < n)%nat -> (0 <= lsi)%Z -> below clamp (Rabs (S i)) -> In p (given i) -> (forall j, In j batch -> j <> i -> Rabs (S j) - tol <= pnorm D (psub D p (U j))) -> In (entry D U S p i) tuned.
  Proof.
    intros LI LS BC IG FR. apply in_flat_map. exists (p, i). split; [apply in_flat_map; exists i; split; [apply in_seq; lia|apply (in_map (fun z => (z, i))); auto]|]. unfold out_of, kept. cbn [fst snd].
    assert (CL : clamped S clamp i = false) by (unfold clamped; unfold below in BC; destruct clamp; [apply le_b_false; auto|auto]). rewrite CL.
    destruct (local_ok D KD srt SP n U S batch nls lsi tol DI NB BN TP tree TR i p [] LI) as (w & q & b & E & _ & _ & C & _). rewrite E. destruct (C LS FR) as (-> & ->). left. auto.
  Qed.
  Lemma given_new i : ~ In i (map snd cloud) -> In (target (proj i) i) (given i).
  Proof.
    intros NI. assert (FE : feasible_inv D cloud i = []). { destruct (feasible_inv D cloud i) as [|a l] eqn:E; [auto|]. exfalso. apply NI. assert (I : In a (feasible_inv D cloud i)) by (rewrite E; left; auto). apply inv_in in I. destruct I as (LA & <-). apply in_map, nth_In. auto. }
    unfold given, loop_move. rewrite FE. cbv zeta. destruct (_ && _); [left; auto|]. destruct (_ && _); left; auto.
  Qed.
  Lemma given_old p i : In (p, i) cloud -> (Rabs (S i) - tol) ^ 2 <= d_sq i <= (Rabs (S i) + tol) ^ 2 -> In p (given i).
  Proof.
    intros I (D1 & D2). apply (In_nth _ _ (axis0 D, 0%nat)) in I. destruct I as (a & LA & EA). assert (IA : In a (feasible_inv D cloud i)) by (apply inv_in; split; [auto|rewrite EA; auto]).
    unfold given, loop_move. cbv zeta. rewrite (proj2 (lt_b_false _ _) D1), (proj2 (lt_b_false _ _) D2). cbn [andb]. destruct (feasible_inv D cloud i) as [|b l]; [destruct IA|]. apply in_map_iff. exists a. split; [unfold cpos; rewrite EA; auto|auto].
  Qed.
End Tune.

(** * Specification *)
(** where a point whose closest point of the current mesh is m is sent on sphere i: along the direction of m, or opposite to it if the sign of the distance disagrees with the winding number of the mesh *)
Definition landing (D : space) (U : nat -> pt D) (S wind : nat -> R) (m : pt D) (i : nat) (p : pt D) : Prop :=
  let N := direction D (psub D m (U i)) in
  ((S i < 0 <-> 0.5 < wind i) -> p = padd D (U i) (pscal D (Rabs (S i)) N)) /\ (~ (S i < 0 <-> 0.5 < wind i) -> p = padd D (U i) (pscal D (Rabs (S i)) (pscal D (-1) N))).
(** no cloud point would be sent to its antipode (only needed in space) *)
Definition antipode_free (D : space) (U : nat -> pt D) (S wind : nat -> R) (cloud : list (pt D * nat)) (proj proj_cloud : nat -> pt D) : Prop :=
  D = E3 -> forall a p i m q, nth_error cloud a = Some (p, i) -> m = proj i \/ m = proj_cloud a -> landing D U S wind m i q -> q <> antipode D (U i) p.
(** the points e of a cloud, with their spheres *)
Definition enough (i : nat) (mpps : Z) (before after : list nat) : Prop := (Z.of_nat (tally i after) <= Z.max (Z.max 1 mpps) (Z.of_nat (tally i before)))%Z.

Lemma landing_target D U S wind m i : known D -> landing D U S wind m i (proj_onto_sphere D U S wind m i).
Proof.
  intros KD. pose proof (known_laws D KD) as L. unfold landing, proj_onto_sphere. cbv zeta. set (N := direction D _). split; intros H; f_equal; f_equal; [rewrite <- (scal_one D L N) at 2|]; f_equal.
  - destruct (lt_b (S i) 0) eqn:A, (lt_b 0.5 (wind i)) eqn:B; try ring; exfalso; [apply lt_b_true in A; apply lt_b_false in B; apply H in A; lra|apply lt_b_false in A; apply lt_b_true in B; apply H in B; lra].
  - destruct (lt_b (S i) 0) eqn:A, (lt_b 0.5 (wind i)) eqn:B; try ring; exfalso; apply H; [apply lt_b_true in A, B|apply lt_b_false in A, B]; split; intros; lra.
Qed.
Lemma landing_unique D U S wind m i p : known D -> landing D U S wind m i p -> p = proj_onto_sphere D U S wind m i.
Proof.
  intros KD (A & B). destruct (landing_target D U S wind m i KD) as (A' & B'). destruct (Rlt_dec (S i) 0), (Rlt_dec 0.5 (wind i)); [rewrite A, A' by tauto|rewrite B, B' by tauto|rewrite B, B' by tauto|rewrite A, A' by tauto]; auto.
Qed.
Lemma free_is_antipode_free D U S wind cloud proj proj_cloud : known D -> antipode_free D U S wind cloud proj proj_cloud -> no_antipodes D U S cloud proj wind proj_cloud.
Proof.
  intros KD AF ED a i m LA EA M. apply (AF ED a (cpos D cloud a) i m); [|auto|apply landing_target; auto]. rewrite (nth_error_nth' cloud (axis0 D, 0%nat) LA). f_equal. unfold cpos. rewrite <- EA. apply surjective_pairing.
Qed.

(** ** The fine tuning: for every shuffling, every number of threads and every order and assignment of the iterations it returns the same oriented points, up to their order. All are tangent to their spheres, outside the other spheres of the batch, and below the clamp; a sphere gets at most as many points as it had or as max_points_per_sphere allows; a sphere without points gets its landing point if that is free; a sphere whose distance to the mesh is right keeps its free points. *)
Theorem C92_cloud D srt srt2 n U S batch nls lsi tol clamp cloud d_sq proj wind proj_cloud mpps lst :
  known D -> permutes srt -> permutes srt2 -> distinct D n U -> batch <> [] -> (forall j, In j batch -> (j < n)%nat) -> 0 < tol ->
  (forall a, In a cloud -> on_sphere D n U S a) -> antipode_free D U S wind cloud proj proj_cloud ->
  exists tree tuned m, init D tol (spheres D U S batch) = Some tree
    /\ (forall shuffled threads schedule schedule2, Permutation (map shuffled (seq 0 n)) (seq 0 n) -> Permutation (map fst schedule) (seq 0 n) -> (forall t, In t schedule -> (snd t < threads)%nat) -> Permutation (map fst schedule2) (seq 0 m) ->
         exists out, fine_tune_point_cloud_iter D srt U S batch nls lsi tol clamp tree cloud d_sq proj wind proj_cloud srt2 mpps lst shuffled threads schedule schedule2 = Some out /\ Permutation out tuned)
    /\ (forall e, In e tuned -> (snd e < n)%nat /\ below clamp (Rabs (S (snd e))) /\ tangent D U S tol batch e)
    /\ (forall i, enough i mpps (map snd cloud) (map snd tuned))
    /\ (forall i p, (i < n)%nat -> (0 <= lsi)%Z -> below clamp (Rabs (S i)) -> (forall j, In j batch -> j <> i -> Rabs (S j) - tol <= pnorm D (psub D p (U j))) ->
          (~ In i (map snd cloud) /\ landing D U S wind (proj i) i p) \/ (In (p, i) cloud /\ (Rabs (S i) - tol) ^ 2 <= d_sq i <= (Rabs (S i) + tol) ^ 2) -> exists nrm, In (p, nrm, i) tuned).
Proof.
  intros KD SP SP2 DI NB BN TP CO AF. assert (TP0 : 0 <= tol) by lra. destruct (init_ok D tol (spheres D U S batch)) as (tree & TR & _); [unfold spheres; destruct batch; [congruence|discriminate]|].
  pose proof (free_is_antipode_free D U S wind cloud proj proj_cloud KD AF) as NA.
  exists tree, (tuned D srt n U S batch nls lsi tol clamp tree cloud d_sq proj wind proj_cloud srt2 mpps lst), (length (moved D n U S batch tol tree cloud d_sq proj wind proj_cloud srt2 mpps lst)).
  split; [auto|]. split; [intros; eapply tune_ok with (srt := srt) (srt2 := srt2); eauto|]. split; [intros; eapply tuned_tangent with (srt := srt) (srt2 := srt2); eauto|]. split; [intros i; eapply tuned_tally with (srt := srt) (srt2 := srt2); eauto|].
  intros i p Ii LI BC FR H. eexists. eapply (kept_free D KD srt SP n U S batch nls lsi tol clamp DI NB BN TP0 tree TR) with (p := p); [auto|auto|auto| |auto].
  destruct H as [(NI & LD)|(I & DB)]; [rewrite (landing_unique D U S wind _ _ _ KD LD); eapply given_new; eauto|eapply given_old; eauto].
Qed.

(** ** A single move: the new point is the target, or no further from it than the old point and within local_search_t of the old point; if it is neither of the two it is free of all spheres of the batch but one *)
Theorem C92_move D n U S batch tol tree lst p q i w : known D -> batch <> [] -> (forall j, In j batch -> (j < n)%nat) -> 0 < tol -> init D tol (spheres D U S batch) = Some tree ->
  pnorm D (psub D p (U i)) = Rabs (S i) -> pnorm D (psub D q (U i)) = Rabs (S i) -> (D = E3 -> q <> antipode D (U i) p) -> 0 <= lst ->
  exists w' r, move_p_towards_q D U S batch tol tree lst p q i w = Some (w', r) /\ pnorm D (psub D r (U i)) = Rabs (S i)
    /\ (r = q \/ r = p \/ (pnorm D (psub D r p) <= lst /\ pnorm D (psub D r q) <= pnorm D (psub D p q) /\ exists k, (k < 20)%nat /\ forall j, In j batch -> j <> k -> Rabs (S j) - tol <= pnorm D (psub D r (U j)))).
Proof.
  intros KD NB BN TP TR NP NQ NA LS. destruct (move_ok D KD n U S batch tol NB BN (Rlt_le _ _ TP) tree TR lst TP p q i w NP NQ NA) as (w' & r & E & NR & _). exists w', r. split; [auto|]. split; [auto|].
  revert E. unfold move_p_towards_q. cbv zeta. destruct (lt_b (pnorm D (psub D p q)) tol) eqn:PQ; cbn [orb]; [intros [= <- <-]; auto|]. destruct (lt_b (Rabs (S i)) tol) eqn:RT; cbn [orb]; [intros [= <- <-]; auto|]. destruct (lt_b (pnorm D (psub D p (U i))) tol); [intros [= <- <-]; auto|].
  apply lt_b_false in PQ, RT. set (th := Rmin _ _).
  assert (G : forall k it theta w, 0 <= theta -> line_search D U S batch tol tree k it theta (U i) (psub D p (U i)) (psub D q (U i)) q w = Some (w', r) -> r = q \/ exists t m, 0 <= t <= theta /\ (it <= m < it + k)%nat /\ r = padd D (U i) (turn D t (psub D p (U i)) (psub D q (U i))) /\ forall j, In j batch -> j <> m -> Rabs (S j) - tol <= pnorm D (psub D r (U j))).
  { clear w. induction k as [|k IH]; intros it theta w T0 E; [injection E; auto|]. cbn [line_search] in E. cbv zeta in E. set (z := padd D (U i) (turn D theta _ _)) in *.
    destruct (hits D U S batch tree z 1 (- tol) it w) as [[|x o]|] eqn:EO; [| |discriminate].
    - injection E as <- <-. right. exists theta, it. split; [lra|]. split; [lia|]. split; [auto|]. apply (free_now D KD n U S batch tol NB BN (Rlt_le _ _ TP) tree TR z it w). auto.
    - destruct (IH (Datatypes.S it) (theta * 0.5) _ ltac:(lra) E) as [->|(t & m & T & M & H)]; [auto|]. right. exists t, m. split; [lra|]. split; [lia|auto]. }
  intros E. destruct (G 20%nat 0%nat th w) as [->|(t & m & T & M & EZ & FR)]; [|auto|auto|].
  - unfold th. apply Rmin_glb; [apply Rmult_le_pos; [auto|left; apply Rinv_0_lt_compat; lra]|]. set (a := Rmin 1 _). assert (A0 : 0 <= a) by (apply Rmin_glb; [lra|apply Rmult_le_pos; [pose proof (norm_nonneg D (psub D p q)); lra|left; apply Rinv_0_lt_compat; lra]]). assert (A1 : a <= 1) by apply Rmin_l.
    destruct (Rle_lt_dec 0 (asin a)); [lra|]. exfalso. pose proof (asin_bound a). pose proof PI_RGT_0. assert (sin (asin a) < 0) by (apply sin_lt_0_var; lra). rewrite sin_asin in * by lra. lra.
  - right. right. assert (NE : p <> q). { intros ->. assert (Z : pnorm D (psub D q q) = 0); [|lra]. unfold pnorm. rewrite expand by auto. replace (pdot D q q - 2 * pdot D q q + pdot D q q) with 0 by ring. apply sqrt_0. }
    destruct (turn_towards D (U i) p q (Rabs (S i)) t lst KD ltac:(lra) NP NQ ltac:(auto) LS T) as (B1 & B2). rewrite EZ. split; [exact B1|]. split; [exact B2|]. exists m. split; [lia|]. rewrite <- EZ. exact FR.
Qed.

(** ** In space a point whose target is its antipode leaves its sphere: the rotation axis is zero, and the rotation matrix made from it only scales *)
Definition U1 (i : nat) : pt E3 := (0, 0, 0).
Theorem C92_antipode_refuted : let cloud := [(((-1, 0, 0) : pt E3), 0%nat)] in (forall a, In a cloud -> on_sphere E3 1 U1 (fun _ => 1) a)
  /\ exists tree e, init E3 0.0001 (spheres E3 U1 (fun _ => 1) [0%nat]) = Some tree
     /\ fine_tune_point_cloud_iter E3 (fun l => l) U1 (fun _ => 1) [0%nat] 3 20 0.0001 None tree cloud (fun _ => 4) (fun _ => (3, 0, 0)) (fun _ => 0) (fun _ => (3, 0, 0)) (fun l => l) 3 0.01 (fun i => i) 1 [(0%nat, 0%nat)] [(0%nat, 0%nat)] = Some [e]
     /\ snd e = 0%nat /\ pnorm E3 (psub E3 (fst (fst e)) (U1 0)) < 1.
Proof.
  cbv zeta. assert (NM : forall x, 0 <= x -> pnorm E3 (x, 0, 0) = x /\ pnorm E3 (- x, 0, 0) = x) by (intros x X0; unfold pnorm; cbn [pdot E3]; unfold dot3, Vec.X, Y, Zc; cbn [fst snd]; split; [rewrite <- (sqrt_square x X0) at 3|rewrite <- (sqrt_square x X0) at 3]; f_equal; ring).
  split. { intros a [<-|[]]. split; [cbn; lia|]. cbn [fst snd psub E3]. unfold sub3, U1, Vec.X, Y, Zc. cbn [fst snd]. rewrite Rabs_R1. replace (-1 - 0) with (- 1) by ring. replace (0 - 0) with 0 by ring. apply (NM 1). lra. }
  assert (DR : direction E3 (psub E3 (3, 0, 0) (U1 0)) = (1, 0, 0)).
  { unfold direction. replace (psub E3 (3, 0, 0) (U1 0)) with ((3, 0, 0) : pt E3) by (cbn [psub E3]; unfold sub3, U1, Vec.X, Y, Zc; cbn [fst snd]; apply vec3_eq; unfold Vec.X, Y, Zc; cbn [fst snd]; ring). destruct (NM 3 ltac:(lra)) as (-> & _). replace (lt_b epsilon 3) with true by (symmetry; apply lt_b_true; unfold epsilon; lra). cbn [pscal E3]. unfold scal3, Vec.X, Y, Zc. cbn [fst snd]. apply vec3_eq; unfold Vec.X, Y, Zc; cbn [fst snd]; field. }
  assert (TG : proj_onto_sphere E3 U1 (fun _ => 1) (fun _ => 0) (3, 0, 0) 0 = (1, 0, 0)).
  { unfold proj_onto_sphere. rewrite DR. cbv zeta. rewrite (proj2 (lt_b_false 1 0)), (proj2 (lt_b_false 0.5 0)), Rabs_R1 by lra. cbn [padd pscal E3]. unfold add3, scal3, U1, Vec.X, Y, Zc. cbn [fst snd]. apply vec3_eq; unfold Vec.X, Y, Zc; cbn [fst snd]; ring. }
  assert (HT : forall p t w, hits E3 U1 (fun _ => 1) [0%nat] (Leaf 0) p 1 t 0 w = Some []) by reflexivity.
  assert (MV : exists z, (forall w, move_p_towards_q E3 U1 (fun _ => 1) [0%nat] 0.0001 (Leaf 0) 0.01 (-1, 0, 0) (1, 0, 0) 0 w = Some ([], z)) /\ pnorm E3 (psub E3 z (U1 0)) < 1).
  { eexists. split.
    - intros w. unfold move_p_towards_q. cbv zeta. rewrite Rabs_R1. replace (psub E3 (-1, 0, 0) (1, 0, 0)) with ((- (2), 0, 0) : pt E3) by (cbn [psub E3]; unfold sub3, Vec.X, Y, Zc; cbn [fst snd]; apply vec3_eq; unfold Vec.X, Y, Zc; cbn [fst snd]; ring).
      replace (psub E3 (-1, 0, 0) (U1 0)) with ((- (1), 0, 0) : pt E3) by (cbn [psub E3]; unfold sub3, U1, Vec.X, Y, Zc; cbn [fst snd]; apply vec3_eq; unfold Vec.X, Y, Zc; cbn [fst snd]; ring). replace (psub E3 (1, 0, 0) (U1 0)) with ((1, 0, 0) : pt E3) by (cbn [psub E3]; unfold sub3, U1, Vec.X, Y, Zc; cbn [fst snd]; apply vec3_eq; unfold Vec.X, Y, Zc; cbn [fst snd]; ring).
      rewrite (proj2 (NM 2 ltac:(lra))), (proj2 (NM 1 ltac:(lra))), !(proj2 (lt_b_false _ _)) by lra. cbn [orb].
      replace (0.5 * 2 / 1) with 1 by lra. rewrite (Rmin_left 1 1) by lra. rewrite asin_1. rewrite Rmin_left by (pose proof PI2_1; lra). cbn [line_search]. cbv zeta. rewrite HT. reflexivity.
    - cbn [padd turn psub E3]. unfold turn3. set (N := unit3 _). assert (EN : N = (0, 0, 0)). { unfold N, unit3. set (v := cross3 _ _). assert (EV : v = (0, 0, 0)) by (unfold v, cross3, Vec.X, Y, Zc; cbn [fst snd]; apply vec3_eq; unfold Vec.X, Y, Zc; cbn [fst snd]; ring). rewrite EV. destruct (Rlt_dec 0 _) as [Q|Q]; [|auto]. exfalso. unfold dot3, Vec.X, Y, Zc in Q. cbn [fst snd] in Q. lra. }
      rewrite EN. replace (0.01 / 1) with 0.01 by lra. set (c := cos 0.01). replace (sub3 _ _) with ((- c, 0, 0) : vec3) by (unfold sub3, add3, scal3, cross3, dot3, U1, Vec.X, Y, Zc; cbn [fst snd]; apply vec3_eq; unfold Vec.X, Y, Zc; cbn [fst snd]; ring).
      pose proof PI2_1 as P1. assert (C0 : 0 <= c) by (apply cos_ge_0; lra). rewrite (proj2 (NM c C0)). unfold c. rewrite <- cos_0. apply cos_decreasing_1; lra. }
  destruct MV as (z & MV & NZ). exists (Leaf 0), (entry E3 U1 (fun _ => 1) z 0). split; [reflexivity|]. split; [|split; [reflexivity|exact NZ]].
  assert (LM : forall w, loop_move E3 U1 (fun _ => 1) [0%nat] 0.0001 (Leaf 0) [(((-1, 0, 0) : pt E3), 0%nat)] (fun _ => 4) (fun _ => (3, 0, 0)) (fun _ => 0) (fun _ => (3, 0, 0)) (fun l => l) 3 0.01 0 w = Some ([], [z])).
  { intros w. unfold loop_move. rewrite TG. cbv zeta. replace (feasible_inv E3 [(((-1, 0, 0) : pt E3), 0%nat)] 0) with [0%nat] by reflexivity. replace (cpos E3 [(((-1, 0, 0) : pt E3), 0%nat)] (closest_idx E3 [(((-1, 0, 0) : pt E3), 0%nat)] (1, 0, 0) [0%nat])) with ((-1, 0, 0) : pt E3) by reflexivity. rewrite MV, Rabs_R1.
    rewrite (proj2 (lt_b_false 4 ((1 - 0.0001) ^ 2))) by lra. cbn [andb]. rewrite (proj2 (lt_b_true ((1 + 0.0001) ^ 2) 4)) by lra. rewrite (proj2 (lt_b_true 0.0001 1)) by lra. reflexivity. }
  unfold fine_tune_point_cloud_iter, move_all. cbn [fold_left move_step fst snd]. cbv zeta. rewrite LM. cbn [seq flat_map collected]. unfold upd at 1. cbn [Nat.eqb app map fold_left feasible_step fst snd nth length].
  unfold local_search. cbn [clamped Z.ltb Z.compare]. replace (Z.to_nat 20) with 20%nat by reflexivity. cbn [search]. rewrite HT. reflexivity.
Qed.

(** the two samples of [C91_example]: sphere 1 has no point yet and gets its landing point *)
Theorem C92_example : exists tree m out, init E2 0.0001 (spheres E2 U2 S2 [1%nat; 0%nat]) = Some tree
  /\ fine_tune_point_cloud_iter E2 (fun l => l) U2 S2 [1%nat; 0%nat] 3 20 0.0001 None tree [(((0, / 4) : pt E2), 0%nat)] (fun _ => 4) (fun i => match i with O => (2, 0) | _ => (1, 2) end) (fun i => match i with O => 0 | _ => 1 end) (fun _ => (2, 0)) (fun l => l) 3 0.01
       (fun i => (1 - i)%nat) 2 [(1%nat, 1%nat); (0%nat, 0%nat)] (map (fun k => (k, 5%nat)) (seq 0 m)) = Some out
  /\ (exists nrm, In ((1, / 2) : pt E2, nrm, 1%nat) out) /\ forall e, In e out -> tangent E2 U2 S2 0.0001 [1%nat; 0%nat] e.
Proof.
  assert (SQ : forall x, 0 <= x -> sqrt (x * x) = x) by (intros; apply sqrt_square; auto).
  destruct (C92_cloud E2 (fun l => l) (fun l => l) 2 U2 S2 [1%nat; 0%nat] 3 20 0.0001 None [(((0, / 4) : pt E2), 0%nat)] (fun _ => 4) (fun i => match i with O => (2, 0) | _ => (1, 2) end) (fun i => match i with O => 0 | _ => 1 end) (fun _ => (2, 0)) 3 0.01) as (tree & tuned & m & E & H1 & H2 & _ & H3).
  - left; auto. - intros l; auto. - intros l; auto.
  - intros [|[|i]] [|[|j]] A B; cbn; intros Q; try lia; injection Q as Q; lra.
  - discriminate. - intros j [<-|[<-|[]]]; lia. - lra.
  - intros a [<-|[]]. split; [cbn; lia|]. cbn [fst snd psub E2 U2 S2]. rewrite Rabs_pos_eq by lra. unfold pnorm. cbn [pdot E2]. apply norm2_is; [lra|unfold dot2, sub2; cbn [fst snd]; field].
  - intros Q. exfalso. assert (D3 : dim E2 = dim E3) by (rewrite Q; auto). discriminate.
  - destruct (H1 (fun i => (1 - i)%nat) 2%nat [(1%nat, 1%nat); (0%nat, 0%nat)] (map (fun k => (k, 5%nat)) (seq 0 m))) as (out & EO & P); [cbn; apply perm_swap|cbn; apply perm_swap|intros t [<-|[<-|[]]]; cbn; lia|rewrite map_map; cbn; rewrite map_id; auto|].
    exists tree, m, out. split; [auto|]. split; [auto|]. split; [|intros e Ie; apply H2, (Permutation_in _ P); auto].
    destruct (H3 1%nat (1, / 2)) as (nrm & I); [lia|lia|cbn; auto| | |exists nrm; apply (Permutation_in _ (Permutation_sym P)); auto].
    + intros j [<-|[<-|[]]] NJ; [congruence|]. cbn [S2 U2 psub E2]. rewrite Rabs_pos_eq by lra. unfold pnorm. cbn [pdot E2]. apply Rle_trans with 1; [lra|]. rewrite <- (SQ 1) at 1 by lra. apply sqrt_le_1_alt. unfold dot2, sub2. cbn [fst snd]. lra.
    + left. split; [intros [Q|[]]; discriminate|]. cbn [nth]. assert (DI : direction E2 (psub E2 (1, 2) (U2 1)) = (0, 1)).
      { unfold direction. assert (Q : pnorm E2 (psub E2 (1, 2) (U2 1)) = 2) by (unfold pnorm; cbn [pdot psub E2]; apply norm2_is; [lra|unfold dot2, sub2, U2; cbn [fst snd]; ring]). rewrite Q. replace (lt_b epsilon 2) with true by (symmetry; apply lt_b_true; unfold epsilon; lra). cbn [pscal psub E2]. unfold scal2, sub2, U2. cbn [fst snd]. apply vec2_eq; cbn [fst snd]; field. }
      unfold landing. rewrite DI. cbn [S2 U2 padd pscal E2]. rewrite Rabs_left by lra. unfold add2, scal2. cbn [fst snd]. split; [intros _; apply vec2_eq; cbn [fst snd]; field|intros N; exfalso; apply N; split; intros; lra].
Qed.
