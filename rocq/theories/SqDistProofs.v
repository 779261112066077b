From Coq Require Import Reals Lra Psatz.
From Verif Require Import PyExn Vec GeomModel GeomProofs Geom2Proofs SqDistModel.
Open Scope R_scope.

(** optimality of (s,t) for the quadratic on the unit triangle: the gradient makes a non-negative product
    with the direction to each corner *)
Definition kkt (a b c d e s t : R) : Prop :=
  0 <= s /\ 0 <= t /\ s + t <= 1 /\
  let gs := a * s + b * t + d in let gt := b * s + c * t + e in
  gs * (0 - s) + gt * (0 - t) >= 0 /\ gs * (1 - s) + gt * (0 - t) >= 0 /\ gs * (0 - s) + gt * (1 - t) >= 0.
Definition Qf (a b c d e f s t : R) : R := a * s * s + 2 * b * s * t + c * t * t + 2 * d * s + 2 * e * t + f.

Lemma kkt_min a b c d e f s t : 0 < a -> 0 <= a * c - b * b -> kkt a b c d e s t ->
  forall x y, 0 <= x -> 0 <= y -> x + y <= 1 -> Qf a b c d e f s t <= Qf a b c d e f x y.
Proof.
  intros A D (S & T & ST & K0 & K1 & K2) x y X0 Y0 XY.
  set (gs := a * s + b * t + d) in *. set (gt := b * s + c * t + e) in *.
  assert (L : 0 <= gs * (x - s) + gt * (y - t)).
  { replace (gs * (x - s) + gt * (y - t)) with ((1 - x - y) * (gs * (0 - s) + gt * (0 - t)) + x * (gs * (1 - s) + gt * (0 - t)) + y * (gs * (0 - s) + gt * (1 - t))) by ring.
    assert (0 <= (1 - x - y) * (gs * (0 - s) + gt * (0 - t))) by (apply Rmult_le_pos; lra).
    assert (0 <= x * (gs * (1 - s) + gt * (0 - t))) by (apply Rmult_le_pos; lra).
    assert (0 <= y * (gs * (0 - s) + gt * (1 - t))) by (apply Rmult_le_pos; lra). lra. }
  set (u := x - s) in *. set (v := y - t) in *.
  assert (P : 0 <= a * u * u + 2 * b * u * v + c * v * v).
  { assert (0 <= a * (a * u * u + 2 * b * u * v + c * v * v)); [|apply Rmult_le_reg_l with a; lra].
    replace (a * (a * u * u + 2 * b * u * v + c * v * v)) with ((a*u + b*v)*(a*u+b*v) + (a*c - b*b)*(v*v)) by ring.
    assert (0 <= (a*c-b*b)*(v*v)) by (apply Rmult_le_pos; [lra|apply Rle_0_sqr]). pose proof (Rle_0_sqr (a*u+b*v)). unfold Rsqr in *. lra. }
  assert (E : Qf a b c d e f x y = Qf a b c d e f s t + 2 * (gs * u + gt * v) + (a * u * u + 2 * b * u * v + c * v * v)) by (unfold Qf, gs, gt, u, v; ring).
  lra.
Qed.

Section Core.
  Variables a b c d e f : R.
  Hypotheses (A : 0 < a) (C : 0 < c) (D : 0 < a * c - b * b).
  Let good (r : R * R * R) : Prop := let '(s, t, q) := r in kkt a b c d e s t /\ q = Qf a b c d e f s t.

  Lemma denom_pos : 0 < a - 2 * b + c.
  Proof. assert (0 < a * (a - 2 * b + c)); [replace (a * (a - 2 * b + c)) with ((a-b)*(a-b) + (a*c-b*b)) by ring; pose proof (Rle_0_sqr (a-b)); unfold Rsqr in *; lra|]. apply Rmult_lt_reg_l with a; lra. Qed.

  (* t = 0 edge, interior point *)
  Lemma edge_s : 0 <= -d -> -d <= a -> b * d - a * e <= 0 -> let s := - d / a in good (s, 0, d * s + f).
  Proof.
    intros H1 H2 H3. cbv zeta. unfold good, kkt, Qf. assert (E : a * (- d / a) = - d) by (field; lra). set (s := - d / a) in *.
    assert (0 <= s) by nra. assert (s <= 1) by nra.
    assert (gt0 : 0 <= b * s + e). { assert (a * (b * s + e) = b * (a * s) + a * e) by ring. rewrite E in H4 || idtac. nra. }
    split; [|replace (a*s*s) with ((a*s)*s) by ring; rewrite E; ring].
    repeat split; try lra; replace (a * s + b * 0 + d) with 0 by lra; replace (b*s+c*0+e) with (b*s+e) by ring; nra.
  Qed.
  Lemma edge_t : 0 <= -e -> -e <= c -> b * e - c * d <= 0 -> let t := - e / c in good (0, t, e * t + f).
  Proof.
    intros H1 H2 H3. cbv zeta. unfold good, kkt, Qf. assert (E : c * (- e / c) = - e) by (field; lra). set (t := - e / c) in *.
    assert (0 <= t) by nra. assert (t <= 1) by nra.
    assert (gs0 : 0 <= b * t + d) by nra.
    split; [|replace (c*t*t) with ((c*t)*t) by ring; rewrite E; ring].
    repeat split; try lra; replace (b * 0 + c * t + e) with 0 by lra; replace (a*0+b*t+d) with (b*t+d) by ring; nra.
  Qed.
  Lemma corner0 : 0 <= d -> 0 <= e -> good (0, 0, f).
  Proof. intros. unfold good, kkt, Qf. split; [repeat split; lra|ring]. Qed.
  Lemma corner1 : a + d <= 0 -> a + d <= b + e -> good (1, 0, a + 2 * d + f).
  Proof. intros. unfold good, kkt, Qf. split; [repeat split; lra|ring]. Qed.
  Lemma corner2 : c + e <= 0 -> c + e <= b + d -> good (0, 1, c + 2 * e + f).
  Proof. intros. unfold good, kkt, Qf. split; [repeat split; lra|ring]. Qed.
  (* hypotenuse, s parameter *)
  Lemma edge_h : let full (s t : R) := s * (a * s + b * t + 2 * d) + t * (b * s + c * t + 2 * e) + f in
    let n := c + e - b - d in let m := a - 2 * b + c in 0 <= n -> n <= m -> a * c - b * b <= (b * e - c * d) + (b * d - a * e) ->
    let s := n / m in good (s, 1 - s, full s (1 - s)).
  Proof.
    intros full n m N M H. cbv zeta. pose proof denom_pos as DP. fold m in DP. assert (E : m * (n / m) = n) by (field; lra). set (s := n / m) in *.
    assert (0 <= s) by nra. assert (s <= 1) by nra. unfold good, kkt, Qf, full. split; [|ring].
    assert (G : a * s + b * (1 - s) + d = b * s + c * (1 - s) + e) by (unfold m, n in E; lra).
    assert (g0 : a * s + b * (1 - s) + d <= 0).
    { assert (m * (a * s + b * (1 - s) + d) <= 0); [|nra].
      replace (m * (a * s + b * (1-s) + d)) with ((a-b) * (m * s) + m * (b + d)) by ring. rewrite E. unfold m, n. nra. }
    split; [lra|]. split; [lra|]. split; [lra|]. rewrite <- G. repeat split; nra.
  Qed.
  Lemma inner : let full (s t : R) := s * (a * s + b * t + 2 * d) + t * (b * s + c * t + 2 * e) + f in
    0 <= b * e - c * d -> 0 <= b * d - a * e -> (b * e - c * d) + (b * d - a * e) <= a * c - b * b ->
    let s := (b * e - c * d) * (1 / (a * c - b * b)) in let t := (b * d - a * e) * (1 / (a * c - b * b)) in good (s, t, full s t).
  Proof.
    intros full S T ST. cbv zeta. set (k := a * c - b * b) in *. 
    assert (Es : k * ((b * e - c * d) * (1 / k)) = b * e - c * d) by (field; lra).
    assert (Et : k * ((b * d - a * e) * (1 / k)) = b * d - a * e) by (field; lra).
    set (s := (b * e - c * d) * (1 / k)) in *. set (t := (b * d - a * e) * (1 / k)) in *.
    assert (0 <= s) by nra. assert (0 <= t) by nra. assert (s + t <= 1) by nra.
    assert (G1 : a * s + b * t + d = 0).
    { apply Rmult_eq_reg_l with k; [|lra]. replace (k * (a * s + b * t + d)) with (a * (k * s) + b * (k * t) + k * d) by ring. rewrite Es, Et. unfold k. ring. }
    assert (G2 : b * s + c * t + e = 0).
    { apply Rmult_eq_reg_l with k; [|lra]. replace (k * (b * s + c * t + e)) with (b * (k * s) + c * (k * t) + k * e) by ring. rewrite Es, Et. unfold k. ring. }
    unfold good, kkt, Qf, full. split; [|ring]. rewrite G1, G2. repeat split; lra.
  Qed.

  Lemma core_ok : good (ptd_core a b c d e f).
  Proof.
    pose proof denom_pos as DP. unfold ptd_core. cbv zeta.
    assert (B2 : b * b < a * c) by lra.
    destruct (Rle_dec (b * e - c * d + (b * d - a * e)) (a * c - b * b)) as [L|L].
    - destruct (Rlt_dec (b * e - c * d) 0) as [S|S].
      + destruct (Rlt_dec (b * d - a * e) 0) as [T|T].
        * (* region 4 *)
          destruct (Rlt_dec d 0) as [D0|D0].
          -- destruct (Rge_dec (-d) a) as [G|G].
             ++ apply corner1; [lra|]. (* (b+e) - (a+d) >= 0 *)
                destruct (Rle_dec b a) as [BA|BA].
                ** assert (a * ((b + e) - (a + d)) >= 0); [|nra].
                   assert (a * e > b * d) by lra. assert ((a + d) * (b - a) >= 0) by nra. nra.
                ** exfalso. (* b > a > 0 : b e < c d, a e > b d *)
                   assert (b > 0) by lra. assert (b * (b * d) < b * (a * e)) by nra. assert (a * (b * e) < a * (c * d)) by nra.
                   assert (b * b * d < a * c * d) by lra. nra.
             ++ apply edge_s; lra.
          -- destruct (Rge_dec e 0) as [E0|E0]; [apply corner0; lra|].
             destruct (Rge_dec (-e) c) as [G|G].
             ++ apply corner2; [lra|]. destruct (Rle_dec b c) as [BC|BC].
                ** assert (c * ((b + d) - (c + e)) >= 0); [|nra]. assert ((c + e) * (b - c) >= 0) by nra. nra.
                ** exfalso. assert (b > 0) by lra. assert (b * (b * e) < b * (c * d)) by nra. assert (c * (b * d) < c * (a * e)) by nra. nra.
             ++ apply edge_t; lra.
        * (* region 3 *)
          destruct (Rge_dec e 0) as [E0|E0].
          -- apply corner0; try lra. destruct (Rle_dec 0 d); auto. exfalso.
             (* d<0, e>=0, t>=0: b d >= a e >= 0 so b <= 0; s<0: b e < c d <0 *)
             assert (a * e >= 0) by nra. assert (b <= 0) by nra. assert (b * (b * d) <= b * (a * e)) by nra. assert (a * (b * e) < a * (c * d)) by nra. nra.
          -- destruct (Rge_dec (-e) c) as [G|G].
             ++ apply corner2; [lra|]. destruct (Rle_dec b c) as [BC|BC].
                ** assert (c * ((b + d) - (c + e)) >= 0); [|nra]. assert ((c + e) * (b - c) >= 0) by nra. nra.
                ** assert (b + d >= c + e); [|lra]. 
                   (* L: b e - c d + b d - a e <= ac - b^2 ; i.e. (b-a)(e+b) + ... *)
                   destruct (Rle_dec (c + e) (b + d)); [lra|]. exfalso.
                   assert (b > 0) by lra. assert (d < c + e - b) by lra. assert (c * d > b * e) by lra. assert (b * d >= a * e) by lra.
                   assert (c * (c + e - b) > b * e) by nra. nra.
             ++ apply edge_t; lra.
      + destruct (Rlt_dec (b * d - a * e) 0) as [T|T].
        * (* region 5 *)
          destruct (Rge_dec d 0) as [E0|E0].
          -- apply corner0; try lra. destruct (Rle_dec 0 e); auto. exfalso.
             assert (c * d >= 0) by nra. assert (b <= 0) by nra. assert (a * (b * e) >= a * (c * d)) by nra. assert (b * (b * d) >= b * (a * e)) by nra. nra.
          -- destruct (Rge_dec (-d) a) as [G|G].
             ++ apply corner1; [lra|]. destruct (Rle_dec b a) as [BA|BA].
                ** assert (a * ((b + e) - (a + d)) >= 0); [|nra]. assert ((a + d) * (b - a) >= 0) by nra. nra.
                ** destruct (Rle_dec (a + d) (b + e)); [lra|]. exfalso.
                   assert (b > 0) by lra. assert (e < a + d - b) by lra. assert (a * e > b * d) by lra. nra.
             ++ apply edge_s; lra.
        * apply inner; lra.
    - destruct (Rlt_dec (b * e - c * d) 0) as [S|S].
      + (* region 2 *)
        destruct (Rgt_dec (c + e) (b + d)) as [G|G].
        * destruct (Rge_dec (c + e - (b + d)) (a - 2 * b + c)) as [H|H].
          -- apply corner1; [|lra]. (* a + d <= 0 *)
             destruct (Rle_dec (a + d) 0); auto. exfalso. assert (e + b >= a + d) by lra.
             (* c d > b e ; a e < b d + ... *)
             assert (W : b * e - c * d + (b * d - a * e) > a * c - b * b) by lra.
             (* (a+d)(c - b) + (b+e)(a-b) < 0 *)
             assert (W2 : (a + d) * (c - b) + (b + e) * (a - b) < 0) by nra.
             destruct (Rle_dec 0 (a - b)); [assert ((b+e)*(a-b) >= (a+d)*(a-b)) by nra; nra|].
             assert (X : b * (b + e) < c * (a + d)) by lra. assert (BA : 0 < b - a) by lra.
             assert (Y : (b * (b + e)) * (b - a) < (c * (a + d)) * (b - a)) by (apply Rmult_lt_compat_r; lra).
             assert (Z1 : b * ((a + d) * (c - b)) < b * ((b + e) * (b - a))) by (apply Rmult_lt_compat_l; lra).
             assert (0 < (a + d) * (a * c - b * b)) by (apply Rmult_lt_0_compat; lra). lra.
          -- replace (c + e - (b + d)) with (c + e - b - d) by ring. apply edge_h; lra.
        * destruct (Rle_dec (c + e) 0) as [H|H]; [apply corner2; lra|].
          destruct (Rge_dec e 0) as [E0|E0].
          -- assert (W2 : (b + d) * (c - b) + (c + e) * (a - b) < 0) by nra.
             destruct (Rle_dec 0 (c - b)).
             ++ exfalso. assert ((b+d)*(c-b) >= (c+e)*(c-b)) by nra. nra.
             ++ apply corner0; [|lra]. assert (0 <= b * e) by (apply Rmult_le_pos; lra). nra.
          -- apply edge_t; lra.
      + destruct (Rlt_dec (b * d - a * e) 0) as [T|T].
        * (* region 6 *)
          destruct (Rgt_dec (a + d) (b + e)) as [G|G].
          -- destruct (Rge_dec (a + d - (b + e)) (a - 2 * b + c)) as [H|H].
             ++ apply corner2; [|lra]. destruct (Rle_dec (c + e) 0); auto. exfalso.
                assert (W2 : (a + d) * (c - b) + (b + e) * (a - b) < 0) by nra.
                assert (b + d >= c + e) by lra. 
                assert (W3 : (b + d) * (c - b) + (c + e) * (a - b) < 0) by nra.
                destruct (Rle_dec 0 (c - b)); [assert ((b+d)*(c-b) >= (c+e)*(c-b)) by nra; nra|].
                assert (BC : 0 < b - c) by lra. assert (X : b * (b + d) < a * (c + e)) by lra.
                assert (Y : (b * (b + d)) * (b - c) < (a * (c + e)) * (b - c)) by (apply Rmult_lt_compat_r; lra).
                assert (Z1 : b * ((c + e) * (a - b)) < b * ((b + d) * (b - c))) by (apply Rmult_lt_compat_l; lra).
                assert (0 < (c + e) * (a * c - b * b)) by (apply Rmult_lt_0_compat; lra). lra.
             ++ assert (EM : (a + d - (b + e)) / (a - 2 * b + c) = 1 - (c + e - b - d) / (a - 2 * b + c)) by (field; lra).
                rewrite EM. replace (1 - (1 - (c + e - b - d) / (a - 2 * b + c))) with ((c + e - b - d) / (a - 2 * b + c)) by ring.
                apply edge_h; lra.
          -- destruct (Rle_dec (a + d) 0) as [H|H]; [apply corner1; lra|].
             destruct (Rge_dec d 0) as [E0|E0].
             ++ assert (W2 : (a + d) * (c - b) + (b + e) * (a - b) < 0) by nra.
                destruct (Rle_dec 0 (a - b)).
                ** exfalso. assert ((b+e)*(a-b) >= (a+d)*(a-b)) by nra. nra.
                ** apply corner0; [lra|]. assert (0 <= b * d) by (apply Rmult_le_pos; lra). nra.
             ++ apply edge_s; lra.
        * (* region 1 *)
          destruct (Rle_dec (c + e - b - d) 0) as [H|H].
          -- apply corner2; [|lra]. destruct (Rle_dec (c + e) 0); auto. exfalso.
             assert (W3 : (b + d) * (c - b) + (c + e) * (a - b) < 0) by nra.
             destruct (Rle_dec 0 (c - b)); [assert ((b+d)*(c-b) >= (c+e)*(c-b)) by nra; nra|].
             assert (b > c) by lra. assert (b * e >= c * d) by lra. nra.
          -- destruct (Rge_dec (c + e - b - d) (a - 2 * b + c)) as [M|M].
             ++ apply corner1; [|lra]. destruct (Rle_dec (a + d) 0); auto. exfalso.
                assert (W2 : (a + d) * (c - b) + (b + e) * (a - b) < 0) by nra.
                destruct (Rle_dec 0 (a - b)); [assert ((b+e)*(a-b) >= (a+d)*(a-b)) by nra; nra|].
                assert (b > a) by lra. nra.
             ++ apply edge_h; lra.
  Qed.
End Core.

(** ** triangles *)
Definition d2 (p q : vec3) : R := dot3 (sub3 p q) (sub3 p q).
Definition conv2 (v0 v1 : vec3) (x y : R) : vec3 := add3 (scal3 x v0) (scal3 y v1).
Definition conv3 (v0 v1 v2 : vec3) (x y z : R) : vec3 := add3 (add3 (scal3 x v0) (scal3 y v1)) (scal3 z v2).

Lemma bary3_in v0 v1 v2 s t : cross3 (sub3 v1 v0) (sub3 v2 v0) <> zero3 ->
  bary3 (add3 (add3 v0 (scal3 s (sub3 v1 v0))) (scal3 t (sub3 v2 v0))) v0 v1 v2 = (1 - s - t, s, t).
Proof.
  intros N. unfold bary3. set (u := sub3 v1 v0) in *. set (v := sub3 v2 v0) in *. set (n := cross3 u v) in *.
  assert (D : dot3 n n <> 0) by (intros Q; apply N, dot_self_zero; auto).
  replace (sub3 (add3 (add3 v0 (scal3 s u)) (scal3 t v)) v0) with (add3 (scal3 s u) (scal3 t v)) by (apply vec3_eq; unfold sub3, add3, X, Y, Zc; cbn; ring).
  replace (cross3 u (add3 (scal3 s u) (scal3 t v))) with (scal3 t n) by (unfold n; apply vec3_eq; unfold cross3, add3, scal3, X, Y, Zc; cbn; ring).
  replace (cross3 (add3 (scal3 s u) (scal3 t v)) v) with (scal3 s n) by (unfold n; apply vec3_eq; unfold cross3, add3, scal3, X, Y, Zc; cbn; ring).
  assert (L : forall k, dot3 (scal3 k n) n / dot3 n n = k).
  { intros k. replace (dot3 (scal3 k n) n) with (k * dot3 n n) by (unfold dot3, scal3, X, Y, Zc; cbn; ring). field; auto. }
  rewrite !L. reflexivity.
Qed.

Lemma lagrange u v : dot3 (cross3 u v) (cross3 u v) = dot3 u u * dot3 v v - dot3 u v * dot3 u v.
Proof. unfold dot3, cross3, X, Y, Zc; cbn; ring. Qed.
Lemma dot_self_nonneg v : 0 <= dot3 v v.
Proof. unfold dot3. pose proof (Rle_0_sqr (X v)). pose proof (Rle_0_sqr (Y v)). pose proof (Rle_0_sqr (Zc v)). unfold Rsqr in *. lra. Qed.

Lemma Qf_d2 v0 v1 v2 p s t : let E0 := sub3 v1 v0 in let E1 := sub3 v2 v0 in let D := sub3 v0 p in
  Qf (dot3 E0 E0) (dot3 E0 E1) (dot3 E1 E1) (dot3 E0 D) (dot3 E1 D) (dot3 D D) s t =
  d2 p (conv3 v0 v1 v2 (1 - s - t) s t).
Proof. cbv zeta. unfold Qf, d2, conv3, dot3, sub3, add3, scal3, X, Y, Zc; cbn. ring. Qed.

Lemma sqd_triangle_ok p v0 v1 v2 : cross3 (sub3 v1 v0) (sub3 v2 v0) <> zero3 ->
  let '(q, (x, y, z)) := sqd_triangle p v0 v1 v2 in
  0 <= x /\ 0 <= y /\ 0 <= z /\ x + y + z = 1 /\ q = d2 p (conv3 v0 v1 v2 x y z) /\
  forall x' y' z', 0 <= x' -> 0 <= y' -> 0 <= z' -> x' + y' + z' = 1 -> q <= d2 p (conv3 v0 v1 v2 x' y' z').
Proof.
  intros N. unfold sqd_triangle, pointTriangleDistance.
  set (E0 := sub3 v1 v0) in *. set (E1 := sub3 v2 v0) in *. set (D := sub3 v0 p) in *.
  assert (DP : 0 < dot3 E0 E0 * dot3 E1 E1 - dot3 E0 E1 * dot3 E0 E1).
  { rewrite <- lagrange. pose proof (dot_self_nonneg (cross3 E0 E1)). destruct (Req_dec (dot3 (cross3 E0 E1) (cross3 E0 E1)) 0); [|lra].
    exfalso. apply N, dot_self_zero; auto. }
  assert (sq : 0 <= dot3 E0 E1 * dot3 E0 E1) by apply Rle_0_sqr.
  pose proof (dot_self_nonneg E0) as A0. pose proof (dot_self_nonneg E1) as C0.
  assert (A : 0 < dot3 E0 E0) by nra. assert (C : 0 < dot3 E1 E1) by nra.
  pose proof (core_ok _ _ _ (dot3 E0 D) (dot3 E1 D) (dot3 D D) A C DP) as K.
  destruct (ptd_core _ _ _ _ _ _) as [[s t] q] eqn:PC. destruct K as [K Q].
  unfold E0, E1, D in Q. rewrite Qf_d2 in Q. fold E0 E1 D in Q.
  unfold E0, E1. rewrite bary3_in by exact N. pose proof K as K9. destruct K9 as (S & T & ST & _).
  assert (q0 : 0 <= q) by (rewrite Q; apply dot_self_nonneg).
  destruct (Rlt_dec q 0); [lra|].
  split; [lra|]. split; [lra|]. split; [lra|]. split; [lra|]. split; [exact Q|].
  intros x' y' z' X' Y' Z' SUM. replace x' with (1 - y' - z') by lra. rewrite Q.
  unfold E0, E1, D in *. rewrite <- !Qf_d2. apply kkt_min; try lra. exact K.
Qed.

(** ** segments *)
Lemma norm3_pos v : v <> zero3 -> 0 < norm3 v.
Proof. intros N. apply sqrt_lt_R0. pose proof (dot_self_nonneg v). destruct (Req_dec (dot3 v v) 0); [|lra]. exfalso. apply N, dot_self_zero; auto. Qed.

Lemma sqd_segment3_ok p a b : a = b \/ 1/10000000000 <= norm3 (sub3 b a) ->
  let '(q, (x, y)) := sqd_segment3 p a b in
  0 <= x /\ 0 <= y /\ x + y = 1 /\ q = d2 p (conv2 a b x y) /\
  forall x' y', 0 <= x' -> 0 <= y' -> x' + y' = 1 -> q <= d2 p (conv2 a b x' y').
Proof.
  intros H. unfold sqd_segment3. destruct (Rlt_dec (norm3 (sub3 b a)) (1/10000000000)) as [L|L].
  - destruct H as [ <- | H]; [|lra]. split; [lra|]. split; [lra|]. split; [lra|].
    assert (E : forall x y, x + y = 1 -> conv2 a a x y = a).
    { intros x y S. unfold conv2, add3, scal3. apply vec3_eq; unfold X, Y, Zc; cbn; replace x with (1 - y) by lra; ring. }
    split; [rewrite E by lra; unfold d2, dot3, sub3, X, Y, Zc; cbn; ring|].
    intros x' y' _ _ S. rewrite (E x' y' S). unfold d2, dot3, sub3, X, Y, Zc; cbn. right. ring.
  - set (w := sub3 b a) in *. set (v := sub3 p a) in *. set (l := norm3 w) in *.
    assert (LP : 0 < l) by lra.
    assert (LL : l * l = dot3 w w) by (unfold l; apply norm3_sq).
    assert (TE : l * l * dot3 (scal3 (/ l) w) (scal3 (/ l) v) = dot3 w v).
    { unfold dot3, scal3, X, Y, Zc; cbn. field. lra. }
    set (t0 := dot3 (scal3 (/ l) w) (scal3 (/ l) v)) in *. 
    assert (WP : 0 < dot3 w w) by (rewrite <- LL; apply Rmult_lt_0_compat; lra). rewrite LL in TE.
    assert (DD : forall k, d2 p (conv2 a b (1 - k) k) = dot3 (sub3 (scal3 k w) v) (sub3 (scal3 k w) v)).
    { intros k. unfold d2, conv2, w, v, dot3, sub3, add3, scal3, X, Y, Zc; cbn. ring. }
    assert (EX : forall k, dot3 (sub3 (scal3 k w) v) (sub3 (scal3 k w) v) = dot3 w w * (k * k - 2 * k * t0) + dot3 v v).
    { intros k. replace (dot3 w w * (k * k - 2 * k * t0)) with (dot3 w w * (k * k) - 2 * k * (dot3 w w * t0)) by ring. rewrite TE.
      unfold dot3, sub3, scal3, X, Y, Zc; cbn. ring. }
    set (t := if Rlt_dec t0 0 then 0 else if Rgt_dec t0 1 then 1 else t0).
    assert (T : 0 <= t <= 1 /\ forall k, 0 <= k <= 1 -> t * t - 2 * t * t0 <= k * k - 2 * k * t0).
    { unfold t. destruct (Rlt_dec t0 0); [|destruct (Rgt_dec t0 1)].
      - split; [lra|]. intros k K. nra.
      - split; [lra|]. intros k K. assert (0 <= (1 - k) * (2 * t0 - 1 - k)) by (apply Rmult_le_pos; lra). nra.
      - split; [lra|]. intros k K. pose proof (Rle_0_sqr (k - t0)). unfold Rsqr in *. nra. }
    destruct T as [T M]. split; [lra|]. split; [lra|]. split; [lra|]. split; [symmetry; apply DD|].
    intros x' y' X0 Y0 S. replace x' with (1 - y') by lra. rewrite DD, !EX.
    apply Rplus_le_compat_r, Rmult_le_compat_l; [lra|]. apply M; lra.
Qed.
