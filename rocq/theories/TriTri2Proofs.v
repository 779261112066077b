From Coq Require Import List Arith Bool Reals Lra Lia Psatz.
From Verif Require Import Vec EdgeEdgeModel EdgeEdgeProofs TriTriModel TriTriProofs.
Import ListNotations.
Open Scope R_scope.

(** ** the loop over pairs of edges *)
Lemma ee_ok S T i j : onE S i (fst (ee S T i j)) /\ onE T j (snd (ee S T i j)) /\
  forall x y, onE S i x -> onE T j y -> d2 (fst (ee S T i j)) (snd (ee S T i j)) <= d2 x y.
Proof.
  unfold ee. pose proof (edge_edge_ok (vx S i) (add3 (vx S i) (ev S i)) (vx T j) (add3 (vx T j) (ev T j))) as H.
  destruct (edge_edge_distance _ _ _ _) as [[d P] Q]. cbn [fst snd]. destruct H as (t & u & Ht & Hu & EP & EQ & _ & M).
  assert (forall a b, sub3 (add3 a b) a = b) as Sb by (clear; intros; veq; ring). rewrite !Sb in *.
  split; [exists t; auto|]. split; [exists u; auto|]. intros x y (t' & Ht' & ->) (u' & Hu' & ->). rewrite EP, EQ. specialize (M t' u' Ht' Hu'). unfold sqf in M. rewrite (d2_sym (add3 (vx S i) (scal3 t _))), (d2_sym (add3 (vx S i) (scal3 t' _))). exact M.
Qed.
Lemma ee_in S T i j : (i < 3)%nat -> (j < 3)%nat -> inT S (fst (ee S T i j)) /\ inT T (snd (ee S T i j)).
Proof. intros Hi Hj. destruct (ee_ok S T i j) as (A & B & _). split; [apply (on_edge_in S i)|apply (on_edge_in T j)]; auto. Qed.
(** closest pairs on edges are found by the edge test, with the sign conditions *)
Lemma ee_closest S T i j x y : (i < 3)%nat -> (j < 3)%nat -> closest S T x y -> onE S i x -> onE T j y -> closest S T (fst (ee S T i j)) (snd (ee S T i j)) /\ d2 (fst (ee S T i j)) (snd (ee S T i j)) = d2 x y.
Proof.
  intros Hi Hj C Ex Ey. destruct (ee_ok S T i j) as (A & B & M). destruct (ee_in S T i j Hi Hj) as [IA IB]. pose proof (M x y Ex Ey) as L. destruct C as (Cx & Cy & Mc).
  pose proof (Mc _ _ IA IB) as G. split; [|lra]. split; [exact IA|]. split; [exact IB|]. intros x' y' Hx Hy. specialize (Mc x' y' Hx Hy). lra.
Qed.
(** a vertex of S is an endpoint of edge i or the third vertex *)
Lemma vertex_cases (S : tri) i k : (i < 3)%nat -> vx S k = vx S i \/ vx S k = vx S ((i + 1) mod 3) \/ vx S k = vx S ((i + 2) mod 3).
Proof. intro Hi. destruct i as [|[|[|i]]]; [| | |lia]; destruct k as [|[|k]]; cbn; auto. Qed.
(** the closest points of two segments satisfy the variational inequality on their own edges *)
Lemma ee_var S T i j : (i < 3)%nat -> (j < 3)%nat -> let P := fst (ee S T i j) in let Q := snd (ee S T i j) in
  dot3 (sub3 (vx S i) P) (sub3 Q P) <= 0 /\ dot3 (sub3 (vx S ((i + 1) mod 3)) P) (sub3 Q P) <= 0 /\ 0 <= dot3 (sub3 (vx T j) Q) (sub3 Q P) /\ 0 <= dot3 (sub3 (vx T ((j + 1) mod 3)) Q) (sub3 Q P).
Proof.
  intros Hi Hj P Q. destruct (ee_ok S T i j) as (EP & EQ & M). fold P Q in EP, EQ, M.
  assert (forall U k z w t, onE U k z -> onE U k w -> 0 <= t <= 1 -> onE U k (add3 z (scal3 t (sub3 w z)))) as Seg.
  { clear. intros U k z w t (s & Hs & ->) (s' & Hs' & ->) Ht. exists ((1 - t) * s + t * s'). split; [nra|]. generalize (ev U k) (vx U k). intros e v. veq; ring. }
  assert (forall U k, onE U k (vx U k) /\ onE U k (vx U ((k + 1) mod 3))) as Ends.
  { clear. intros U k. split; [exists 0|exists 1]; (split; [lra|]); unfold ev; generalize (vx U ((k + 1) mod 3)) (vx U k); intros e v; veq; ring. }
  assert (forall z, onE S i z -> dot3 (sub3 z P) (sub3 Q P) <= 0) as VP.
  { intros z Hz. apply (scalar_var _ (dot3 (sub3 z P) (sub3 z P))); [apply dot3_pos|]. intros t Ht. specialize (M _ Q (Seg _ _ _ _ t EP Hz Ht) EQ).
    assert (d2 (add3 P (scal3 t (sub3 z P))) Q = d2 P Q - 2 * t * dot3 (sub3 z P) (sub3 Q P) + t * t * dot3 (sub3 z P) (sub3 z P)) as E by (clear; generalize P Q; intros; u3; ring). lra. }
  assert (forall z, onE T j z -> 0 <= dot3 (sub3 z Q) (sub3 Q P)) as VQ.
  { intros z Hz. cut (- dot3 (sub3 z Q) (sub3 Q P) <= 0); [lra|]. apply (scalar_var _ (dot3 (sub3 z Q) (sub3 z Q))); [apply dot3_pos|]. intros t Ht. specialize (M P _ EP (Seg _ _ _ _ t EQ Hz Ht)).
    assert (d2 P (add3 Q (scal3 t (sub3 z Q))) = d2 P Q + 2 * t * dot3 (sub3 z Q) (sub3 Q P) + t * t * dot3 (sub3 z Q) (sub3 z Q)) as E by (clear; generalize P Q; intros; u3; ring). lra. }
  destruct (Ends S i), (Ends T j). auto.
Qed.
(** linear functions on a triangle are bounded by their values at the vertices *)
Lemma lin_le S x n P m : inT S x -> (forall k, (k < 3)%nat -> dot3 (sub3 (vx S k) P) n <= m) -> dot3 (sub3 x P) n <= m.
Proof.
  intros (a & b & c & A & B & C & E & ->) H. pose proof (H 0%nat ltac:(lia)). pose proof (H 1%nat ltac:(lia)). pose proof (H 2%nat ltac:(lia)). clear H. destruct S as [s0 s1 s2]. cbn [vx v0 v1 v2] in *.
  assert (dot3 (sub3 (comb (mkTri s0 s1 s2) a b c) P) n = a * dot3 (sub3 s0 P) n + b * dot3 (sub3 s1 P) n + c * dot3 (sub3 s2 P) n) as ->.
  { replace c with (1 - a - b) by lra. clear. u3. cbn. ring. }
  nra.
Qed.
Lemma lin_ge S x n P m : inT S x -> (forall k, (k < 3)%nat -> m <= dot3 (sub3 (vx S k) P) n) -> m <= dot3 (sub3 x P) n.
Proof.
  intros Hx H. assert (dot3 (sub3 x P) (scal3 (-1) n) <= - m) as L.
  { apply (lin_le S); auto. intros k Hk. specialize (H k Hk). assert (dot3 (sub3 (vx S k) P) (scal3 (-1) n) = - dot3 (sub3 (vx S k) P) n) by (generalize (vx S k); clear; intro; u3; ring). lra. }
  assert (dot3 (sub3 x P) (scal3 (-1) n) = - dot3 (sub3 x P) n) by (clear; u3; ring). lra.
Qed.
(** how far the slab of a pair of edges separates the triangles *)
Lemma slab S T i j x y : (i < 3)%nat -> (j < 3)%nat -> inT S x -> inT T y -> let P := fst (ee S T i j) in let Q := snd (ee S T i j) in let V := sub3 Q P in
  dot3 V V - Rmax 0 (dot3 (sub3 (vx S ((i + 2) mod 3)) P) V) + Rmin 0 (dot3 (sub3 (vx T ((j + 2) mod 3)) Q) V) <= dot3 (sub3 y x) V.
Proof.
  intros Hi Hj Hx Hy P Q V. destruct (ee_var S T i j Hi Hj) as (A1 & A2 & B1 & B2). fold P Q in A1, A2, B1, B2. fold V in A1, A2, B1, B2.
  set (a := dot3 (sub3 (vx S ((i + 2) mod 3)) P) V). set (b := dot3 (sub3 (vx T ((j + 2) mod 3)) Q) V).
  pose proof (Rmax_l 0 a). pose proof (Rmax_r 0 a). pose proof (Rmin_l 0 b). pose proof (Rmin_r 0 b).
  assert (dot3 (sub3 x P) V <= Rmax 0 a) as U1. { apply (lin_le S); auto. intros k _. destruct (vertex_cases S i k Hi) as [-> |[-> | ->]]; [lra|lra|fold a; lra]. }
  assert (Rmin 0 b <= dot3 (sub3 y Q) V) as U2. { apply (lin_ge T); auto. intros k _. destruct (vertex_cases T j k Hj) as [-> |[-> | ->]]; [lra|lra|fold b; lra]. }
  assert (dot3 (sub3 y x) V = dot3 V V + dot3 (sub3 y Q) V - dot3 (sub3 x P) V) as -> by (unfold V; clear; generalize P Q; intros; u3; ring). lra.
Qed.
Lemma cs_pos V W : dot3 V V <= dot3 W V -> dot3 V V <= dot3 W W.
Proof. intro H. pose proof (dot3_pos (sub3 W V)) as P. assert (dot3 (sub3 W V) (sub3 W V) = dot3 W W - 2 * dot3 W V + dot3 V V) by (clear; u3; ring). lra. Qed.
Definition disjoint (S T : tri) : Prop := forall x, inT S x -> inT T x -> False.
(** r is the distance of the two triangles *)
Definition is_distance (S T : tri) (r : R) : Prop := exists x y, closest S T x y /\ r = norm3 (sub3 y x).
Lemma loop_ok S T q x0 y0 : closest S T x0 y0 -> q = d2 x0 y0 -> forall pairs m sh, Forall (fun ij => fst ij < 3 /\ snd ij < 3)%nat pairs -> q <= m ->
  match edge_loop S T pairs m sh with
  | inl r => is_distance S T r
  | inr (m', sh') => q <= m' /\ (sh' = true -> sh = true \/ disjoint S T) /\
      forall i j, In (i, j) pairs -> ~ closest S T (fst (ee S T i j)) (snd (ee S T i j))
  end.
Proof.
  intros C0 Eq. induction pairs as [|[i j] rest IH]; intros m sh F Hm; [cbn; repeat split; auto; intros i j []|].
  inversion_clear F as [|? ? [Hi Hj] Fr]. cbn [fst snd] in Hi, Hj. cbn [edge_loop].
  set (P := fst (ee S T i j)). set (Q := snd (ee S T i j)). set (V := sub3 Q P). destruct (ee_in S T i j Hi Hj) as [IP IQ]. fold P Q in IP, IQ.
  assert (q <= dot3 V V) as Hq by (rewrite Eq; apply C0; auto).
  set (a := dot3 (sub3 (vx S ((i + 2) mod 3)) P) V). set (b := dot3 (sub3 (vx T ((j + 2) mod 3)) Q) V).
  assert (forall x y, inT S x -> inT T y -> dot3 V V - Rmax 0 a + Rmin 0 b <= dot3 (sub3 y x) V) as Sl by (intros; apply (slab S T i j); auto).
  assert ((closest S T P Q -> dot3 V V <= m /\ a <= 0 /\ 0 <= b)) as Cl.
  { intro C. split; [|split; [apply (var_ineq S T P Q); auto; apply in_vx|apply (var_ineq2 S T P Q); auto; apply in_vx]].
    destruct C as (_ & _ & M). destruct C0 as (I0 & I1 & _). specialize (M x0 y0 I0 I1). unfold d2 in M at 1. fold V in M. lra. }
  destruct (Rle_dec (dot3 V V) m) as [Lm|Lm].
  2:{ specialize (IH m sh Fr Hm). destruct (edge_loop S T rest m sh) as [r|[m' sh']]; [exact IH|]. destruct IH as (A & B & D). split; [exact A|]. split; [exact B|].
      intros i' j' [E|H] C; [injection E as <- <-; fold P Q in C; apply Cl in C; lra|apply (D i' j' H C)]. }
  set (sh1 := if Rgt_dec (dot3 V V - (if Rlt_dec a 0 then 0 else a) + (if Rgt_dec b 0 then 0 else b)) 0 then true else sh).
  assert (sh1 = true -> sh = true \/ disjoint S T) as Hsh.
  { unfold sh1. destruct (Rgt_dec _ 0) as [G|G]; [|auto]. intros _. right. intros z Hx Hy. specialize (Sl z z Hx Hy).
    assert (dot3 (sub3 z z) V = 0) as Z by (clear; generalize V; intro; u3; ring). rewrite Z in Sl. revert Sl G. clear. unfold Rmax, Rmin. destruct (Rle_dec 0 a), (Rle_dec 0 b), (Rlt_dec a 0), (Rgt_dec b 0); lra. }
  assert (~ (a <= 0 /\ 0 <= b) -> match edge_loop S T rest (dot3 V V) sh1 with inl r => is_distance S T r | inr (m', sh') => q <= m' /\ (sh' = true -> sh = true \/ disjoint S T) /\
      forall i0 j0, In (i0, j0) ((i, j) :: rest) -> ~ closest S T (fst (ee S T i0 j0)) (snd (ee S T i0 j0)) end) as Go.
  { intro NC. specialize (IH (dot3 V V) sh1 Fr Hq). destruct (edge_loop S T rest (dot3 V V) sh1) as [r|[m' sh']]; [exact IH|]. destruct IH as (A & B & D). split; [exact A|]. split; [intro H; destruct (B H); auto|].
    intros i' j' [E|H] C; [injection E as <- <-; fold P Q in C; apply Cl in C; tauto|apply (D i' j' H C)]. }
  destruct (Rle_dec a 0) as [La|La]; [|apply Go; tauto]. destruct (Rge_dec b 0) as [Lb|Lb]; [|apply Go; lra].
  exists P, Q. split; [|reflexivity]. split; [exact IP|]. split; [exact IQ|]. intros x' y' Hx Hy. specialize (Sl x' y' Hx Hy). unfold d2. fold V. apply cs_pos.
  unfold Rmax, Rmin in Sl. destruct (Rle_dec 0 a), (Rle_dec 0 b); lra.
Qed.

(** ** the plane of a triangle *)
(** e i w / |n|^2 is the barycentric coordinate opposite to edge i *)
Definition ecoord (T : tri) (i : nat) (w : vec3) : R := dot3 (sub3 w (vx T i)) (cross3 (nrm T) (ev T i)).
Lemma ecoord_sum T w : ecoord T 0 w + ecoord T 1 w + ecoord T 2 w = dot3 (nrm T) (nrm T).
Proof. destruct T as [a b c]. unfold ecoord, nrm, ev. cbn [vx v0 v1 v2 Nat.add Nat.modulo Nat.divmod fst snd Nat.sub]. unfold cross3. v3. ring. Qed.
Lemma ecoord_comb T w : add3 (scal3 (ecoord T 1 w) (v0 T)) (add3 (scal3 (ecoord T 2 w) (v1 T)) (scal3 (ecoord T 0 w) (v2 T))) = sub3 (scal3 (dot3 (nrm T) (nrm T)) w) (scal3 (dot3 (nrm T) (sub3 w (v0 T))) (nrm T)).
Proof. destruct T as [a b c]. unfold ecoord, nrm, ev. cbn [vx v0 v1 v2 Nat.add Nat.modulo Nat.divmod fst snd Nat.sub]. unfold cross3. apply vec3_eq; v3; ring. Qed.
Lemma ecoord_shift T i w s : (i < 3)%nat -> ecoord T i (add3 w (scal3 s (nrm T))) = ecoord T i w.
Proof. intro. unfold ecoord. generalize (nrm T) (vx T i) (ev T i). intros n v e. u3. ring. Qed.
Lemma plane_coords T w : dot3 (nrm T) (nrm T) <> 0 -> dot3 (nrm T) (sub3 w (v0 T)) = 0 ->
  let N := dot3 (nrm T) (nrm T) in w = comb T (ecoord T 1 w / N) (ecoord T 2 w / N) (ecoord T 0 w / N) /\ ecoord T 1 w / N + ecoord T 2 w / N + ecoord T 0 w / N = 1.
Proof.
  intros NZ Z N. pose proof (ecoord_comb T w) as C. pose proof (ecoord_sum T w) as Sm. rewrite Z in C. fold N in C, Sm, NZ. split.
  - apply (f_equal (scal3 (/ N))) in C. revert C NZ. generalize (ecoord T 0 w) (ecoord T 1 w) (ecoord T 2 w) N (nrm T). clear. intros e0 e1 e2 N n C NZ. unfold comb.
    assert (scal3 (/ N) (sub3 (scal3 N w) (scal3 0 n)) = w) as E by (veq; field; exact NZ). rewrite E in C. rewrite <- C. generalize (v0 T) (v1 T) (v2 T). clear - NZ. intros a b c. veq; field; exact NZ.
  - replace (ecoord T 1 w / N + ecoord T 2 w / N + ecoord T 0 w / N) with ((ecoord T 0 w + ecoord T 1 w + ecoord T 2 w) / N) by (field; exact NZ). rewrite Sm. field. exact NZ.
Qed.
Lemma comb_ecoord T a b c : a + b + c = 1 -> let N := dot3 (nrm T) (nrm T) in ecoord T 1 (comb T a b c) = a * N /\ ecoord T 2 (comb T a b c) = b * N /\ ecoord T 0 (comb T a b c) = c * N.
Proof.
  intros E N. unfold N. clear N. replace c with (1 - a - b) by lra. clear. destruct T as [p q r]. unfold ecoord, nrm, ev, comb. cbn [vx v0 v1 v2 Nat.add Nat.modulo Nat.divmod fst snd Nat.sub]. unfold cross3. v3. repeat split; ring.
Qed.
Lemma strict_ecoord T y : dot3 (nrm T) (nrm T) <> 0 -> strict T y -> forall i, (i < 3)%nat -> 0 < ecoord T i y.
Proof.
  intros NZ (a & b & c & A & B & C & E & ->) i Hi. destruct (comb_ecoord T a b c E) as (E1 & E2 & E0). pose proof (dot3_pos (nrm T)). assert (0 < dot3 (nrm T) (nrm T)) by lra.
  destruct i as [|[|[|i]]]; [rewrite E0|rewrite E1|rewrite E2|lia]; apply Rmult_lt_0_compat; auto.
Qed.
(** a vector orthogonal to the edges is a multiple of the normal *)
Lemma normal_mult T n : dot3 (nrm T) (nrm T) <> 0 -> dot3 n (ev T 0) = 0 -> dot3 n (ev T 1) = 0 -> n = scal3 (dot3 n (nrm T) / dot3 (nrm T) (nrm T)) (nrm T).
Proof.
  unfold nrm. generalize (ev T 0) (ev T 1). intros u v NZ Hu Hv. set (m := cross3 u v) in *.
  assert (cross3 n m = zero3) as Z. { assert (cross3 n m = sub3 (scal3 (dot3 n v) u) (scal3 (dot3 n u) v)) as -> by (unfold m; clear; veq; ring). rewrite Hu, Hv. clear. veq; ring. }
  assert (sub3 (scal3 (dot3 m m) n) (scal3 (dot3 n m) m) = cross3 m (cross3 n m)) as I by (clear; generalize m; intro; veq; ring). rewrite Z in I.
  assert (cross3 m zero3 = zero3) as Z2 by (clear; generalize m; intro; veq; ring). rewrite Z2 in I. clearbody m. clear - I NZ.
  assert (scal3 (dot3 m m) n = scal3 (dot3 n m) m) as Q by (revert I; generalize (scal3 (dot3 m m) n) (scal3 (dot3 n m) m); intros g h T; unfold sub3, zero3 in T; injection T; intros; apply vec3_eq; lra).
  apply (f_equal (scal3 (/ dot3 m m))) in Q. assert (scal3 (/ dot3 m m) (scal3 (dot3 m m) n) = n) as E1 by (veq; field; exact NZ).
  assert (scal3 (/ dot3 m m) (scal3 (dot3 n m) m) = scal3 (dot3 n m / dot3 m m) m) as E2 by (veq; field; exact NZ). congruence.
Qed.
