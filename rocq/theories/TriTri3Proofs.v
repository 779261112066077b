From Coq Require Import List Arith Bool Reals Lra Lia Psatz.
From Verif Require Import Vec EdgeEdgeModel EdgeEdgeProofs TriTriModel TriTriProofs TriTri2Proofs.
Import ListNotations.
Open Scope R_scope.

(** ** walking along the plane of T until an edge is met *)
Lemma scalar_exit b0 b1 b2 c0 c1 c2 : 0 < b0 -> 0 < b1 -> 0 < b2 -> (0 < c0 /\ 0 < c1 /\ 0 < c2) \/
  exists t, 0 <= t <= 1 /\ 0 <= (1 - t) * b0 + t * c0 /\ 0 <= (1 - t) * b1 + t * c1 /\ 0 <= (1 - t) * b2 + t * c2 /\
    ((1 - t) * b0 + t * c0 = 0 \/ (1 - t) * b1 + t * c1 = 0 \/ (1 - t) * b2 + t * c2 = 0).
Proof.
  intros B0 B1 B2. set (g := fun x y => if Rle_dec y 0 then x / (x - y) else 1).
  assert (forall x y, 0 < x -> 0 < g x y <= 1) as G0.
  { intros x y Hx. unfold g. destruct (Rle_dec y 0); [|lra]. assert (0 < x / (x - y)) by (apply Rdiv_lt_0_compat; lra). split; [assumption|]. assert (x / (x - y) * (x - y) = x) by (field; lra). nra. }
  assert (forall x y t, 0 < x -> 0 <= t <= g x y -> 0 <= (1 - t) * x + t * y) as Gle.
  { intros x y t Hx Ht. pose proof (G0 x y Hx). unfold g in *. destruct (Rle_dec y 0); [|nra]. assert (x / (x - y) * (x - y) = x) by (field; lra). nra. }
  assert (forall x y, 0 < x -> y <= 0 -> (1 - g x y) * x + g x y * y = 0) as Geq. { intros x y Hx Hy. unfold g. destruct (Rle_dec y 0); [field; lra|lra]. }
  assert (forall x y, 0 < y -> g x y = 1) as G1 by (intros x y Hy; unfold g; destruct (Rle_dec y 0); lra).
  pose proof (G0 b0 c0 B0). pose proof (G0 b1 c1 B1). pose proof (G0 b2 c2 B2).
  assert (forall t, 0 <= t -> t <= g b0 c0 -> t <= g b1 c1 -> t <= g b2 c2 -> ((1 - t) * b0 + t * c0 = 0 \/ (1 - t) * b1 + t * c1 = 0 \/ (1 - t) * b2 + t * c2 = 0) ->
    exists t, 0 <= t <= 1 /\ 0 <= (1 - t) * b0 + t * c0 /\ 0 <= (1 - t) * b1 + t * c1 /\ 0 <= (1 - t) * b2 + t * c2 /\ ((1 - t) * b0 + t * c0 = 0 \/ (1 - t) * b1 + t * c1 = 0 \/ (1 - t) * b2 + t * c2 = 0)) as W.
  { intros t P0 P1 P2 P3 Z. exists t. split; [lra|]. split; [apply Gle; auto|]. split; [apply Gle; auto|]. split; [apply Gle; auto|]. exact Z. }
  pose proof (Geq b0 c0 B0) as Q0. pose proof (Geq b1 c1 B1) as Q1. pose proof (Geq b2 c2 B2) as Q2. pose proof (G1 b0 c0) as O0. pose proof (G1 b1 c1) as O1. pose proof (G1 b2 c2) as O2.
  revert Q0 Q1 Q2 O0 O1 O2 H H0 H1 W. generalize (g b0 c0) (g b1 c1) (g b2 c2). clear - B0 B1 B2. intros g0 g1 g2 Q0 Q1 Q2 O0 O1 O2 H0 H1 H2 W.
  destruct (Rle_dec c0 0) as [N0|N0]; [specialize (Q0 N0); clear O0|specialize (O0 ltac:(lra)); clear Q0];
  (destruct (Rle_dec c1 0) as [N1|N1]; [specialize (Q1 N1); clear O1|specialize (O1 ltac:(lra)); clear Q1]);
  (destruct (Rle_dec c2 0) as [N2|N2]; [specialize (Q2 N2); clear O2|specialize (O2 ltac:(lra)); clear Q2]); try (left; repeat split; lra); right.
  - destruct (Rle_dec g0 g1), (Rle_dec g1 g2), (Rle_dec g0 g2); first [exfalso; lra|apply (W g0); [lra|lra|lra|lra|tauto]|apply (W g1); [lra|lra|lra|lra|tauto]|apply (W g2); [lra|lra|lra|lra|tauto]].
  - destruct (Rle_dec g0 g1); first [apply (W g0); [lra|lra|lra|lra|tauto]|apply (W g1); [lra|lra|lra|lra|tauto]].
  - destruct (Rle_dec g0 g2); first [apply (W g0); [lra|lra|lra|lra|tauto]|apply (W g2); [lra|lra|lra|lra|tauto]].
  - apply (W g0); [lra|lra|lra|lra|tauto].
  - destruct (Rle_dec g1 g2); first [apply (W g1); [lra|lra|lra|lra|tauto]|apply (W g2); [lra|lra|lra|lra|tauto]].
  - apply (W g1); [lra|lra|lra|lra|tauto].
  - apply (W g2); [lra|lra|lra|lra|tauto].
Qed.
Lemma tangent S T x y k : closest S T x y -> strict T y -> (k < 3)%nat -> dot3 (sub3 (vx T k) y) (sub3 y x) = 0.
Proof.
  intros C (a & b & c & A & B & Cc & E & Ey) Hk. set (n := sub3 y x).
  assert (forall j, 0 <= dot3 (sub3 (vx T j) y) n) as V by (intro j; apply (var_ineq2 S T x y); auto; apply in_vx).
  assert (a * dot3 (sub3 (vx T 0) y) n + b * dot3 (sub3 (vx T 1) y) n + c * dot3 (sub3 (vx T 2) y) n = 0) as Sm.
  { transitivity (dot3 (sub3 y y) n); [|generalize n; clear; intro; u3; ring]. rewrite Ey at 4. clear V. generalize n y. clear - E. intros n y. replace c with (1 - a - b) by lra. destruct T as [p q r]. cbn [vx v0 v1 v2]. u3. cbn. ring. }
  pose proof (V 0%nat). pose proof (V 1%nat). pose proof (V 2%nat).
  assert (forall u v w p q r, 0 < u -> 0 < v -> 0 < w -> 0 <= p -> 0 <= q -> 0 <= r -> u * p + v * q + w * r = 0 -> p = 0 /\ q = 0 /\ r = 0) as Z by (clear; intros; repeat split; nra).
  destruct (Z _ _ _ _ _ _ A B Cc H H0 H1 Sm) as (Z0 & Z1 & Z2). destruct k as [|[|[|k]]]; [exact Z0|exact Z1|exact Z2|lia].
Qed.
Lemma normal_of S T x y : closest S T x y -> strict T y -> dot3 (nrm T) (nrm T) <> 0 -> 0 < d2 x y -> exists l, l <> 0 /\ sub3 y x = scal3 l (nrm T).
Proof.
  intros C Sy NZ P. pose proof (tangent S T x y 0 C Sy ltac:(lia)) as T0. pose proof (tangent S T x y 1 C Sy ltac:(lia)) as T1. pose proof (tangent S T x y 2 C Sy ltac:(lia)) as T2.
  assert (sub3 y x = scal3 (dot3 (sub3 y x) (nrm T) / dot3 (nrm T) (nrm T)) (nrm T)) as E.
  { apply normal_mult; auto; unfold ev; cbn [Nat.add Nat.modulo Nat.divmod fst snd Nat.sub].
    - assert (dot3 (sub3 y x) (sub3 (vx T 1) (vx T 0)) = dot3 (sub3 (vx T 1) y) (sub3 y x) - dot3 (sub3 (vx T 0) y) (sub3 y x)) as -> by (generalize (vx T 1) (vx T 0); clear; intros; u3; ring). lra.
    - assert (dot3 (sub3 y x) (sub3 (vx T 2) (vx T 1)) = dot3 (sub3 (vx T 2) y) (sub3 y x) - dot3 (sub3 (vx T 1) y) (sub3 y x)) as -> by (generalize (vx T 1) (vx T 2); clear; intros; u3; ring). lra. }
  eexists. split; [|exact E]. intro Z. rewrite Z in E. unfold d2 in P. rewrite E in P. revert P. generalize (nrm T). clear. intro. u3. intro. nra.
Qed.
Lemma walk S T x y z : closest S T x y -> strict T y -> dot3 (nrm T) (nrm T) <> 0 -> 0 < d2 x y -> dot3 (sub3 z x) (sub3 y x) = 0 ->
  strict T (add3 z (sub3 y x)) \/ exists t j, 0 <= t <= 1 /\ (j < 3)%nat /\ onE T j (add3 (add3 x (scal3 t (sub3 z x))) (sub3 y x)).
Proof.
  intros C Sy NZ P Hz. destruct (normal_of S T x y C Sy NZ P) as (l & Nl & En). pose proof (tangent S T x y 0 C Sy ltac:(lia)) as T0. cbn [vx] in T0. set (w := add3 z (sub3 y x)).
  assert (dot3 (nrm T) (sub3 w (v0 T)) = 0) as Pl.
  { assert (l * dot3 (nrm T) (sub3 w (v0 T)) = 0) as Z; [|apply Rmult_integral in Z; tauto].
    transitivity (dot3 (sub3 y x) (sub3 w (v0 T))); [rewrite En; generalize (nrm T) (v0 T) w; clear; intros; u3; ring|].
    transitivity (dot3 (sub3 z x) (sub3 y x) - dot3 (sub3 (v0 T) y) (sub3 y x)); [|lra]. unfold w. generalize (v0 T). clear. intro. u3. ring. }
  destruct (plane_coords T w NZ Pl) as [Ew Sw]. set (N := dot3 (nrm T) (nrm T)) in *. set (c1 := ecoord T 1 w / N) in *. set (c2 := ecoord T 2 w / N) in *. set (c0 := ecoord T 0 w / N) in *. clearbody c0 c1 c2.
  destruct Sy as (a & b & c & A & B & Cc & E & Ey). destruct (scalar_exit a b c c1 c2 c0 A B Cc) as [(U & V & W)|(t & Ht & U & V & W & Z)].
  - left. exists c1, c2, c0. auto.
  - right. exists t. assert (add3 (add3 x (scal3 t (sub3 z x))) (sub3 y x) = comb T ((1 - t) * a + t * c1) ((1 - t) * b + t * c2) ((1 - t) * c + t * c0)) as Eq.
    { transitivity (add3 (scal3 (1 - t) y) (scal3 t w)); [unfold w; clear; veq; ring|]. rewrite Ew, Ey. clear. destruct T as [p q r]. veq; cbn; ring. }
    destruct (zero_edge T ((1 - t) * a + t * c1) ((1 - t) * b + t * c2) ((1 - t) * c + t * c0) U V W) as (j & Hj & O); [nra|exact Z|]. exists j. rewrite Eq. auto.
Qed.

(** ** the face test *)
Definition sel (x0 x1 x2 : R) (j : nat) : R := match j with O => x0 | 1%nat => x1 | _ => x2 end.
Lemma nearest_ok x0 x1 x2 : (nearest x0 x1 x2 < 3)%nat /\ forall j, (j < 3)%nat -> sel x0 x1 x2 (nearest x0 x1 x2) <= sel x0 x1 x2 j.
Proof.
  unfold nearest. destruct (Rlt_dec x0 x1); cbv zeta; [destruct (Rlt_dec x2 x0)|destruct (Rlt_dec x2 x1)]; (split; [lia|]); intros j Hj; destruct j as [|[|[|j]]]; cbn [sel]; first [lia|lra].
Qed.
Lemma sel_opp x0 x1 x2 j : sel (- x0) (- x1) (- x2) j = - sel x0 x1 x2 j.
Proof. destruct j as [|[|j]]; reflexivity. Qed.
Lemma face_point_ok x0 x1 x2 p : face_point x0 x1 x2 = Some p -> (p < 3)%nat /\
  exists s, (s = 1 \/ s = -1) /\ forall j, (j < 3)%nat -> 0 < s * sel x0 x1 x2 j /\ s * sel x0 x1 x2 p <= s * sel x0 x1 x2 j.
Proof.
  unfold face_point. intro E. destruct (Rgt_dec x0 0).
  - destruct (Rgt_dec x1 0); [|discriminate]. destruct (Rgt_dec x2 0); [|discriminate]. injection E as <-. destruct (nearest_ok x0 x1 x2) as [L M]. split; [exact L|]. exists 1. split; [auto|].
    intros j Hj. specialize (M j Hj). split; [destruct j as [|[|[|j]]]; cbn [sel]; first [lra|lia]|lra].
  - destruct (Rlt_dec x0 0); [|discriminate]. destruct (Rlt_dec x1 0); [|discriminate]. destruct (Rlt_dec x2 0); [|discriminate]. injection E as <-. destruct (nearest_ok (- x0) (- x1) (- x2)) as [L M]. split; [exact L|]. exists (-1). split; [auto|].
    intros j Hj. specialize (M j Hj). rewrite !sel_opp in M. split; [destruct j as [|[|[|j]]]; cbn [sel]; first [lra|lia]|lra].
Qed.
Lemma face_point_some x0 x1 x2 l : (forall j, (j < 3)%nat -> 0 < l * sel x0 x1 x2 j) -> exists p, face_point x0 x1 x2 = Some p.
Proof.
  intro H. pose proof (H 0%nat ltac:(lia)) as H0. pose proof (H 1%nat ltac:(lia)) as H1. pose proof (H 2%nat ltac:(lia)) as H2. cbn [sel] in *. unfold face_point.
  destruct (Rlt_dec 0 l) as [P|P].
  - destruct (Rgt_dec x0 0); [|exfalso; nra]. destruct (Rgt_dec x1 0); [|exfalso; nra]. destruct (Rgt_dec x2 0); [|exfalso; nra]. eauto.
  - destruct (Rgt_dec x0 0); [exfalso; nra|]. destruct (Rlt_dec x0 0); [|exfalso; nra]. destruct (Rlt_dec x1 0); [|exfalso; nra]. destruct (Rlt_dec x2 0); [|exfalso; nra]. eauto.
Qed.
(** what face_test does when the vertices of T are strictly on one side *)
Definition hgt (S T : tri) (j : nat) : R := dot3 (nrm S) (sub3 (v0 S) (vx T j)).
Lemma hgt_sel S T j : (j < 3)%nat -> hgt S T j = sel (hgt S T 0) (hgt S T 1) (hgt S T 2) j.
Proof. intro. destruct j as [|[|[|j]]]; [reflexivity|reflexivity|reflexivity|lia]. Qed.
Lemma face_test_inv S T o b : face_test S T = (o, b) ->
  (o = None /\ b = false) \/
  (b = true /\ thr < dot3 (nrm S) (nrm S) /\ exists p s, (p < 3)%nat /\ (s = 1 \/ s = -1) /\ (forall j, (j < 3)%nat -> 0 < s * hgt S T j /\ s * hgt S T p <= s * hgt S T j) /\
    (forall r, o = Some r -> (forall i, (i < 3)%nat -> 0 < ecoord S i (vx T p)) /\ r = norm3 (sub3 (add3 (vx T p) (scal3 (hgt S T p / dot3 (nrm S) (nrm S)) (nrm S))) (vx T p))) /\
    ((forall i, (i < 3)%nat -> 0 < ecoord S i (vx T p)) -> exists r, o = Some r)).
Proof.
  unfold face_test. cbv zeta. destruct (Rgt_dec (dot3 (nrm S) (nrm S)) thr) as [G|G]; [|intro E; injection E as <- <-; left; auto].
  fold (hgt S T 0) (hgt S T 1) (hgt S T 2). destruct (face_point (hgt S T 0) (hgt S T 1) (hgt S T 2)) as [p|] eqn:Ef; [|intro E; injection E as <- <-; left; auto].
  apply face_point_ok in Ef as (Hp & s & Hs & M). fold (hgt S T p). fold (ecoord S 0 (vx T p)) (ecoord S 1 (vx T p)) (ecoord S 2 (vx T p)). intro E. right.
  assert (b = true) as Eb. { (destruct (Rgt_dec (ecoord S 0 (vx T p)) 0); [destruct (Rgt_dec (ecoord S 1 (vx T p)) 0); [destruct (Rgt_dec (ecoord S 2 (vx T p)) 0)|]|]); injection E as <- <-; reflexivity. }
  split; [exact Eb|]. split; [exact G|]. exists p, s. split; [exact Hp|]. split; [exact Hs|]. split; [|split].
  - intros j Hj. rewrite (hgt_sel S T j Hj), (hgt_sel S T p Hp). apply M, Hj.
  - intros r Er. (destruct (Rgt_dec (ecoord S 0 (vx T p)) 0); [destruct (Rgt_dec (ecoord S 1 (vx T p)) 0); [destruct (Rgt_dec (ecoord S 2 (vx T p)) 0)|]|]); injection E as <- <-; try discriminate. injection Er as <-.
    split; [|reflexivity]. intros i Hi. destruct i as [|[|[|i]]]; [lra|lra|lra|lia].
  - intro Hin. pose proof (Hin 0%nat ltac:(lia)). pose proof (Hin 1%nat ltac:(lia)). pose proof (Hin 2%nat ltac:(lia)).
    (destruct (Rgt_dec (ecoord S 0 (vx T p)) 0); [destruct (Rgt_dec (ecoord S 1 (vx T p)) 0); [destruct (Rgt_dec (ecoord S 2 (vx T p)) 0)|]|]); try lra. injection E as <- <-. eauto.
Qed.
Lemma hgt_low S T s p x y : (forall j, (j < 3)%nat -> s * hgt S T p <= s * hgt S T j) -> inT S x -> inT T y -> s * hgt S T p <= s * dot3 (nrm S) (sub3 x y).
Proof.
  intros M Hx Hy.
  assert (dot3 (nrm S) (sub3 x (v0 S)) = 0) as Z.
  { destruct Hx as (a & b & c & _ & _ & _ & E & ->). replace a with (1 - b - c) by lra. clear. destruct S as [p q r]. unfold nrm, ev, comb. cbn [vx v0 v1 v2 Nat.add Nat.modulo Nat.divmod fst snd Nat.sub]. unfold cross3. v3. ring. }
  assert (dot3 (nrm S) (sub3 x y) = - dot3 (sub3 y (v0 S)) (nrm S)) as E by (revert Z; generalize (nrm S) (v0 S); clear; intros n v; u3; intro; lra).
  assert (dot3 (sub3 y (v0 S)) (scal3 s (nrm S)) <= - (s * hgt S T p)) as L.
  { apply (lin_le T); auto. intros k Hk. specialize (M k Hk). assert (dot3 (sub3 (vx T k) (v0 S)) (scal3 s (nrm S)) = - (s * hgt S T k)) by (unfold hgt; generalize (vx T k) (v0 S) (nrm S); clear; intros; u3; ring). lra. }
  assert (dot3 (sub3 y (v0 S)) (scal3 s (nrm S)) = s * dot3 (sub3 y (v0 S)) (nrm S)) as E2 by (generalize (v0 S) (nrm S); clear; intros; u3; ring). rewrite E. lra.
Qed.
Lemma thr_pos : 0 < thr. Proof. unfold thr. lra. Qed.
Lemma face_exact S T r b : face_test S T = (Some r, b) -> is_distance S T r.
Proof.
  intro E. apply face_test_inv in E as [[? _]|(_ & G & p & s & Hp & Hs & M & Q & _)]; [discriminate|]. destruct (Q r eq_refl) as [Ins Er]. clear Q. pose proof thr_pos as TP.
  set (n := nrm S) in *. set (N := dot3 n n) in *. set (P := add3 (vx T p) (scal3 (hgt S T p / N) n)) in *. assert (0 < N) as PN by lra.
  assert (inT S P) as IP.
  { assert (dot3 (nrm S) (sub3 P (v0 S)) = 0) as Pl.
    { assert (dot3 (nrm S) (sub3 P (v0 S)) = - hgt S T p + hgt S T p / N * N) as -> by (unfold P, N, hgt, n; generalize (hgt S T p / N) (vx T p) (nrm S) (v0 S); clear; intros; u3; ring). field. lra. }
    destruct (plane_coords S P) as [EP SP]; [fold n; fold N; lra|exact Pl|]. fold n in EP, SP. fold N in EP, SP. rewrite EP.
    assert (forall i, (i < 3)%nat -> 0 < ecoord S i P / N) as Pos by (intros i Hi; unfold P; unfold n; rewrite ecoord_shift by auto; apply Rdiv_lt_0_compat; auto).
    pose proof (Pos 0%nat ltac:(lia)). pose proof (Pos 1%nat ltac:(lia)). pose proof (Pos 2%nat ltac:(lia)). do 3 eexists. repeat split; [| | |exact SP]; lra. }
  exists P, (vx T p). split; [|rewrite Er; unfold norm3; f_equal; generalize P (vx T p); clear; intros; u3; ring].
  split; [exact IP|]. split; [apply in_vx|]. intros x y Hx Hy.
  assert (d2 P (vx T p) = hgt S T p * hgt S T p / N) as ->.
  { transitivity (hgt S T p / N * (hgt S T p / N) * N); [unfold P, N; generalize (hgt S T p / dot3 n n) (vx T p) n; clear; intros; u3; ring|field; lra]. }
  pose proof (hgt_low S T s p x y ltac:(intros j Hj; apply (M j Hj)) Hx Hy) as L. destruct (M p Hp) as [Pp _]. fold n in L.
  assert (dot3 n (sub3 x y) * dot3 n (sub3 x y) <= N * d2 x y) as CS.
  { assert (N * d2 x y - dot3 n (sub3 x y) * dot3 n (sub3 x y) = dot3 (cross3 n (sub3 x y)) (cross3 n (sub3 x y))) as D by (unfold N; generalize n; clear; intro; u3; ring). pose proof (dot3_pos (cross3 n (sub3 x y))). lra. }
  assert (hgt S T p * hgt S T p <= N * d2 x y) as F by (destruct Hs; subst s; nra).
  apply (Rmult_le_reg_l N); [exact PN|]. replace (N * (hgt S T p * hgt S T p / N)) with (hgt S T p * hgt S T p) by (field; lra). exact F.
Qed.
Lemma face_disjoint S T o : face_test S T = (o, true) -> disjoint S T.
Proof.
  intro E. apply face_test_inv in E as [[_ ?]|(_ & G & p & s & Hp & Hs & M & _)]; [discriminate|]. intros x Hx Hy.
  pose proof (hgt_low S T s p x x ltac:(intros j Hj; apply (M j Hj)) Hx Hy) as L. destruct (M p Hp) as [Pp _].
  assert (dot3 (nrm S) (sub3 x x) = 0) as Z by (generalize (nrm S); clear; intro; u3; ring). rewrite Z in L. lra.
Qed.
(** ** when no pair of edges attains the distance of two disjoint triangles, a face test does *)
Definition no_edges (S T : tri) : Prop := forall i j x y, (i < 3)%nat -> (j < 3)%nat -> closest S T x y -> onE S i x -> onE T j y -> False.
Definition size_ok (T : tri) : Prop := dot3 (nrm T) (nrm T) = 0 \/ thr < dot3 (nrm T) (nrm T).
Lemma edge_case S T x y i : size_ok T -> no_edges S T -> closest S T x y -> 0 < d2 x y -> (i < 3)%nat -> onE S i x -> exists r b, face_test T S = (Some r, b).
Proof.
  intros Sz NE C P Hi Ex. pose proof C as (Ix & Iy & _). pose proof thr_pos as TP.
  assert (forall y', closest S T x y' -> strict T y') as St. { intros y' C'. destruct (on_edge_or_strict T y') as [(j & Hj & Ey)|]; [apply C'| |assumption]. destruct (NE i j x y' Hi Hj C' Ex Ey). }
  pose proof (St y C) as Sy. assert (dot3 (nrm T) (nrm T) <> 0) as NZ. { intro Z. destruct (degenerate_edge T y Z Iy) as (j & Hj & Ey). apply (NE i j x y); auto. }
  destruct Sz as [?|Sz]; [congruence|]. set (n := sub3 y x) in *.
  (* a vertex at the end of the edge, level with x *)
  assert (exists k, (k < 3)%nat /\ dot3 (sub3 (vx S k) x) n = 0 /\ forall t, 0 <= t <= 1 -> onE S i (add3 x (scal3 t (sub3 (vx S k) x)))) as (k & Hk & Ek & Seg).
  { assert ((i + 1) mod 3 < 3)%nat as Hi1 by (apply Nat.mod_upper_bound; lia). destruct Ex as (u & Hu & ->).
    assert (forall v, 0 <= v <= 1 -> forall t, 0 <= t <= 1 -> onE S i (add3 (add3 (vx S i) (scal3 u (ev S i))) (scal3 t (sub3 (add3 (vx S i) (scal3 v (ev S i))) (add3 (vx S i) (scal3 u (ev S i))))))) as Sg.
    { intros v Hv t Ht. exists ((1 - t) * u + t * v). split; [nra|]. generalize (vx S i) (ev S i). clear. intros. veq; ring. }
    assert (vx S i = add3 (vx S i) (scal3 0 (ev S i))) as E0 by (generalize (ev S i) (vx S i); clear; intros; veq; ring).
    assert (vx S ((i + 1) mod 3) = add3 (vx S i) (scal3 1 (ev S i))) as E1 by (unfold ev; generalize (vx S ((i + 1) mod 3)) (vx S i); clear; intros; veq; ring).
    destruct (Req_EM_T u 1) as [-> |Nu].
    - exists ((i + 1) mod 3)%nat. split; [exact Hi1|]. split; [rewrite E1; generalize n (vx S i) (ev S i); clear; intros; u3; ring|]. rewrite E1. apply Sg. lra.
    - exists i. split; [exact Hi|]. split.
      + set (x := add3 (vx S i) (scal3 u (ev S i))) in *. pose proof (var_ineq S T x y _ C (in_vx S i)) as V0. pose proof (var_ineq S T x y _ C (in_vx S ((i + 1) mod 3))) as V1. fold n in V0, V1.
        assert ((1 - u) * dot3 (sub3 (vx S i) x) n + u * dot3 (sub3 (vx S ((i + 1) mod 3)) x) n = 0) as Z by (rewrite E1; unfold x; generalize n (vx S i) (ev S i); clear; intros; u3; ring). nra.
      + intros t Ht. pose proof (Sg 0 ltac:(lra) t Ht) as G. rewrite <- E0 in G. exact G. }
  (* that vertex is above the inside of T *)
  assert (forall x1 k1, closest S T x1 (add3 x1 n) -> strict T (add3 x1 n) -> (k1 < 3)%nat -> dot3 (sub3 (vx S k1) x1) n = 0 ->
    (forall t, 0 <= t <= 1 -> exists i', (i' < 3)%nat /\ onE S i' (add3 x1 (scal3 t (sub3 (vx S k1) x1)))) -> strict T (add3 (vx S k1) n) /\ closest S T (vx S k1) (add3 (vx S k1) n)) as Step.
  { intros x1 k1 C1 S1 Hk1 E1 Sg. assert (sub3 (add3 x1 n) x1 = n) as En by (generalize n; clear; intro; veq; ring).
    assert (d2 x1 (add3 x1 n) = d2 x y) as Ed by (unfold d2; rewrite En; reflexivity).
    destruct (walk S T x1 (add3 x1 n) (vx S k1) C1 S1 NZ) as [W|(t & j & Ht & Hj & W)]; [lra|rewrite En; exact E1| |].
    - rewrite En in W. split; [exact W|]. apply (shift S T x y); auto; [apply in_vx|apply strict_in; exact W].
    - exfalso. rewrite En in W. destruct (Sg t Ht) as (i' & Hi' & O). set (z := add3 x1 (scal3 t (sub3 (vx S k1) x1))) in *. apply (NE i' j z (add3 z n) Hi' Hj); [|exact O|exact W].
      apply (shift S T x y); auto; [apply (on_edge_in S i'); auto|apply (on_edge_in T j); auto]. }
  assert (add3 x n = y) as Exy by (unfold n; clear; veq; ring).
  destruct (Step x k) as [Sk Ck]; [rewrite Exy; exact C|rewrite Exy; exact Sy|exact Hk|exact Ek|intros t Ht; exists i; split; auto|].
  (* the vertex chosen by the face test is level with it *)
  destruct (normal_of S T x y C Sy NZ P) as (l & Nl & En). fold n in En. pose proof (tangent S T x y 0 C Sy ltac:(lia)) as T0. cbn [vx] in T0. fold n in T0.
  assert (forall j, (j < 3)%nat -> l * hgt T S j = d2 x y - dot3 (sub3 (vx S j) x) n) as Hl.
  { intros j Hj. transitivity (dot3 n (sub3 (v0 T) (vx S j))); [rewrite En; unfold hgt; generalize (nrm T) (v0 T) (vx S j); clear; intros; u3; ring|].
    transitivity (dot3 (sub3 (v0 T) y) n + d2 x y - dot3 (sub3 (vx S j) x) n); [|lra]. unfold n. generalize (v0 T) (vx S j). clear. intros. u3. ring. }
  assert (forall j, dot3 (sub3 (vx S j) x) n <= 0) as Vj by (intro j; apply (var_ineq S T x y); auto; apply in_vx).
  destruct (face_test T S) as [o b] eqn:Ef. pose proof Ef as Ef'. apply face_test_inv in Ef as [[-> ->]|(-> & _ & p & s & Hp & Hs & M & _ & Q)].
  - exfalso. unfold face_test in Ef'. cbv zeta in Ef'. destruct (Rgt_dec (dot3 (nrm T) (nrm T)) thr) as [G|G]; [|lra].
    destruct (face_point_some (hgt T S 0) (hgt T S 1) (hgt T S 2) l) as [p Ep]. { intros j Hj. rewrite <- hgt_sel by auto. rewrite Hl by auto. specialize (Vj j). lra. }
    fold (hgt T S 0) (hgt T S 1) (hgt T S 2) in Ef'. rewrite Ep in Ef'. destruct (Rgt_dec _ 0); [|discriminate]. destruct (Rgt_dec _ 0); [|discriminate]. destruct (Rgt_dec _ 0); discriminate.
  - assert (dot3 (sub3 (vx S p) x) n = 0) as Ep.
    { pose proof (Hl p Hp) as Lp. pose proof (Hl k Hk) as Lk. destruct (M p Hp) as [Pp _]. destruct (M k Hk) as [Pk Lek]. pose proof (Vj p) as Vp. rewrite Ek in Lk.
      destruct Hs; subst s; destruct (Rlt_dec 0 l); nra. }
    destruct (Step (vx S k) p) as [Sp Cp]; [exact Ck|exact Sk|exact Hp| |intros t Ht; apply two_vertices; auto|].
    { transitivity (dot3 (sub3 (vx S p) x) n - dot3 (sub3 (vx S k) x) n); [|lra]. generalize (vx S p) (vx S k) n. clear. intros. u3. ring. }
    destruct Q as [r ->]; [|exists r, true; reflexivity]. intros i' Hi'. rewrite <- (ecoord_shift T i' (vx S p) l Hi'), <- En. apply strict_ecoord; auto.
Qed.
Lemma no_edges_sym S T : no_edges S T -> no_edges T S.
Proof. intros H i j x y Hi Hj C A B. apply (H j i y x Hj Hi); auto. apply closest_sym, C. Qed.
Lemma some_face S T x y : size_ok S -> size_ok T -> no_edges S T -> closest S T x y -> 0 < d2 x y -> (exists r b, face_test S T = (Some r, b)) \/ exists r b, face_test T S = (Some r, b).
Proof.
  intros SS ST NE C P. pose proof C as (Ix & Iy & _).
  assert (forall x y, closest S T x y -> 0 < d2 x y -> (exists i, (i < 3)%nat /\ onE S i x) \/ (exists j, (j < 3)%nat /\ onE T j y) -> (exists r b, face_test S T = (Some r, b)) \/ exists r b, face_test T S = (Some r, b)) as Edge.
  { intros x' y' C' P' [(i & Hi & E)|(j & Hj & E)]; [right; apply (edge_case S T x' y' i); auto|left]. apply (edge_case T S y' x' j); auto; [apply no_edges_sym, NE|apply closest_sym, C'|rewrite d2_sym; exact P']. }
  destruct (on_edge_or_strict T y Iy) as [E|Sy]; [apply (Edge x y); auto|]. destruct (on_edge_or_strict S x Ix) as [E|Sx]; [apply (Edge x y); auto|].
  assert (dot3 (nrm T) (nrm T) <> 0 \/ exists j, (j < 3)%nat /\ onE T j y) as [NZ|E]; [|  |apply (Edge x y); auto].
  { destruct (Req_EM_T (dot3 (nrm T) (nrm T)) 0); [right; apply degenerate_edge; auto|left; auto]. }
  assert (dot3 (sub3 (vx S 0) x) (sub3 y x) = 0) as Z.
  { pose proof (tangent T S y x 0 (closest_sym _ _ _ _ C) Sx ltac:(lia)) as Z. assert (dot3 (sub3 (vx S 0) x) (sub3 x y) = - dot3 (sub3 (vx S 0) x) (sub3 y x)) by (generalize (vx S 0); clear; intro; u3; ring). lra. }
  assert (forall x', d2 x' (add3 x' (sub3 y x)) = d2 x y) as Ed by (clear; intro; u3; ring).
  destruct (walk S T x y (vx S 0) C Sy NZ P Z) as [W|(t & j & Ht & Hj & W)].
  - apply (Edge (vx S 0) (add3 (vx S 0) (sub3 y x))); [apply (shift S T x y); auto; [apply in_vx|apply strict_in; exact W]|rewrite Ed; exact P|]. left. exists 0%nat. split; [lia|apply vertex_edge; lia].
  - set (x' := add3 x (scal3 t (sub3 (vx S 0) x))) in *. apply (Edge x' (add3 x' (sub3 y x))); [apply (shift S T x y); auto; [apply in_seg; auto; apply in_vx|apply (on_edge_in T j); auto]|rewrite Ed; exact P|]. right. eauto.
Qed.
