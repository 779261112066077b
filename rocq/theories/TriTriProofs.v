From Coq Require Import List Arith Bool Reals Lra Lia Psatz.
From Verif Require Import Vec EdgeEdgeModel EdgeEdgeProofs TriTriModel.
Import ListNotations.
Open Scope R_scope.

(** ** triangles as convex sets *)
Definition comb (S : tri) (a b c : R) : vec3 := add3 (scal3 a (v0 S)) (add3 (scal3 b (v1 S)) (scal3 c (v2 S))).
Definition inT (S : tri) (x : vec3) : Prop := exists a b c, 0 <= a /\ 0 <= b /\ 0 <= c /\ a + b + c = 1 /\ x = comb S a b c.
Definition strict (S : tri) (x : vec3) : Prop := exists a b c, 0 < a /\ 0 < b /\ 0 < c /\ a + b + c = 1 /\ x = comb S a b c.
Definition onE (S : tri) (i : nat) (x : vec3) : Prop := exists t, 0 <= t <= 1 /\ x = add3 (vx S i) (scal3 t (ev S i)).
Definition d2 (x y : vec3) : R := dot3 (sub3 y x) (sub3 y x).
Definition closest (S T : tri) (x y : vec3) : Prop := inT S x /\ inT T y /\ forall x' y', inT S x' -> inT T y' -> d2 x y <= d2 x' y'.
Ltac u3 := unfold comb, ev, d2, cross3 in *; v3.
Ltac veq := apply vec3_eq; u3.
Lemma d2_sym x y : d2 x y = d2 y x. Proof. u3. ring. Qed.
Lemma d2_pos x y : 0 <= d2 x y. Proof. apply dot3_pos. Qed.
Lemma closest_sym S T x y : closest S T x y -> closest T S y x.
Proof. intros (A & B & M). split; [exact B|]. split; [exact A|]. intros x' y' Hx Hy. rewrite (d2_sym y x), (d2_sym x' y'). auto. Qed.
Lemma strict_in S x : strict S x -> inT S x.
Proof. intros (a & b & c & A & B & C & E & ->). exists a, b, c. repeat split; auto; lra. Qed.
Lemma in_seg S x z t : inT S x -> inT S z -> 0 <= t <= 1 -> inT S (add3 x (scal3 t (sub3 z x))).
Proof.
  intros (a & b & c & A & B & C & E & ->) (a' & b' & c' & A' & B' & C' & E' & ->) T.
  exists ((1 - t) * a + t * a'), ((1 - t) * b + t * b'), ((1 - t) * c + t * c'). repeat split; try nra. destruct S as [s0 s1 s2]. veq; cbn [v0 v1 v2 fst snd]; ring.
Qed.
Lemma in_vx S i : inT S (vx S i).
Proof.
  destruct i as [|[|i]]; [exists 1, 0, 0|exists 0, 1, 0|exists 0, 0, 1]; (repeat split; try lra); destruct S as [s0 s1 s2]; cbn [vx]; veq; cbn [v0 v1 v2 fst snd]; ring.
Qed.
Lemma on_edge_in S i x : (i < 3)%nat -> onE S i x -> inT S x.
Proof. intros Hi (t & T & ->). apply in_seg; [apply in_vx|apply in_vx|exact T]. Qed.
(** *** variational inequality *)
Lemma scalar_var p q : 0 <= q -> (forall t, 0 <= t <= 1 -> 0 <= - 2 * t * p + t * t * q) -> p <= 0.
Proof.
  intros Q H. destruct (Rle_dec p 0) as [|N]; [assumption|exfalso]. assert (0 < p) by lra.
  assert (0 < p / (p + q)) as T0 by (apply Rdiv_lt_0_compat; lra). set (t := p / (p + q)) in *.
  assert (t * (p + q) = p) as Et by (unfold t; field; lra). clearbody t. assert (t <= 1) by nra. specialize (H t ltac:(lra)). nra.
Qed.
Lemma var_ineq S T x y z : closest S T x y -> inT S z -> dot3 (sub3 z x) (sub3 y x) <= 0.
Proof.
  intros (A & B & M) Hz. apply (scalar_var _ (dot3 (sub3 z x) (sub3 z x))); [apply dot3_pos|]. intros t Ht.
  specialize (M _ y (in_seg S x z t A Hz Ht) B).
  assert (d2 (add3 x (scal3 t (sub3 z x))) y = d2 x y - 2 * t * dot3 (sub3 z x) (sub3 y x) + t * t * dot3 (sub3 z x) (sub3 z x)) as E by (clear; u3; ring). lra.
Qed.
Lemma var_ineq2 S T x y z : closest S T x y -> inT T z -> 0 <= dot3 (sub3 z y) (sub3 y x).
Proof. intros C Hz. pose proof (var_ineq T S y x z (closest_sym _ _ _ _ C) Hz) as V. assert (dot3 (sub3 z y) (sub3 x y) = - dot3 (sub3 z y) (sub3 y x)) by (clear; u3; ring). lra. Qed.
(** a slab that separates *)
Lemma shift S T x y x' : closest S T x y -> inT S x' -> inT T (add3 x' (sub3 y x)) -> closest S T x' (add3 x' (sub3 y x)).
Proof. intros (_ & _ & M) A B. split; [exact A|]. split; [exact B|]. intros x2 y2 H2 H3. assert (d2 x' (add3 x' (sub3 y x)) = d2 x y) as -> by (clear; u3; ring). auto. Qed.
(** *** edges *)
Lemma zero_edge S a b c : 0 <= a -> 0 <= b -> 0 <= c -> a + b + c = 1 -> a = 0 \/ b = 0 \/ c = 0 -> exists i, (i < 3)%nat /\ onE S i (comb S a b c).
Proof.
  intros A B C E Z. destruct S as [s0 s1 s2]. destruct Z as [-> |[-> | ->]]; [exists 1%nat|exists 2%nat|exists 0%nat]; (split; [lia|]); [exists c|exists a|exists b]; (split; [lra|]).
  - replace b with (1 - c) by lra. veq; cbn [vx v0 v1 v2 fst snd Nat.modulo Nat.divmod Nat.add Nat.sub]; cbn; ring.
  - replace c with (1 - a) by lra. veq; cbn; ring.
  - replace a with (1 - b) by lra. veq; cbn; ring.
Qed.
Lemma on_edge_or_strict S x : inT S x -> (exists i, (i < 3)%nat /\ onE S i x) \/ strict S x.
Proof.
  intros (a & b & c & A & B & C & E & ->). destruct (Req_EM_T a 0) as [Za|Za]; [left; apply zero_edge; auto|]. destruct (Req_EM_T b 0) as [Zb|Zb]; [left; apply zero_edge; auto|].
  destruct (Req_EM_T c 0) as [Zc|Zc]; [left; apply zero_edge; auto|]. right. exists a, b, c. repeat split; auto; lra.
Qed.
Lemma vertex_edge S k : (k < 3)%nat -> onE S k (vx S k).
Proof. intro. exists 0. split; [lra|]. veq; ring. Qed.
Lemma two_vertices S k p t : (k < 3)%nat -> (p < 3)%nat -> 0 <= t <= 1 -> exists i, (i < 3)%nat /\ onE S i (add3 (vx S k) (scal3 t (sub3 (vx S p) (vx S k)))).
Proof.
  intros Hk Hp Ht. destruct S as [s0 s1 s2].
  assert (forall i s, (i < 3)%nat -> 0 <= s <= 1 -> add3 (vx (mkTri s0 s1 s2) k) (scal3 t (sub3 (vx (mkTri s0 s1 s2) p) (vx (mkTri s0 s1 s2) k))) = add3 (vx (mkTri s0 s1 s2) i) (scal3 s (ev (mkTri s0 s1 s2) i)) ->
    exists i, (i < 3)%nat /\ onE (mkTri s0 s1 s2) i (add3 (vx (mkTri s0 s1 s2) k) (scal3 t (sub3 (vx (mkTri s0 s1 s2) p) (vx (mkTri s0 s1 s2) k))))) as W by (intros i s Hi Hs E; exists i; split; [auto|exists s; auto]).
  destruct k as [|[|[|k]]]; [| | |lia]; (destruct p as [|[|[|p]]]; [| | |lia]).
  - apply (W 0%nat 0); [lia|lra|veq; cbn; ring].
  - apply (W 0%nat t); [lia|lra|veq; cbn; ring].
  - apply (W 2%nat (1 - t)); [lia|lra|veq; cbn; ring].
  - apply (W 0%nat (1 - t)); [lia|lra|veq; cbn; ring].
  - apply (W 1%nat 0); [lia|lra|veq; cbn; ring].
  - apply (W 1%nat t); [lia|lra|veq; cbn; ring].
  - apply (W 2%nat t); [lia|lra|veq; cbn; ring].
  - apply (W 1%nat (1 - t)); [lia|lra|veq; cbn; ring].
  - apply (W 2%nat 0); [lia|lra|veq; cbn; ring].
Qed.
(** a degenerate triangle is the union of its edges *)
Lemma degenerate_edge S x : dot3 (nrm S) (nrm S) = 0 -> inT S x -> exists i, (i < 3)%nat /\ onE S i x.
Proof.
  intros Z (a & b & c & A & B & C & E & ->). destruct S as [s0 s1 s2].
  (* an affine dependence of the vertices *)
  assert (exists u v w, u + v + w = 0 /\ (u <> 0 \/ v <> 0 \/ w <> 0) /\ comb (mkTri s0 s1 s2) u v w = zero3) as (u & v & w & Sm & NZ & Dep).
  { set (p := sub3 s1 s0). set (q := sub3 s2 s1). assert (cross3 p q = zero3) as Cr by (apply dot3_zero; exact Z).
    destruct (Req_EM_T (dot3 p p) 0) as [P0|P0].
    - exists (-1), 1, 0. split; [lra|]. split; [left; lra|]. apply dot3_zero in P0. unfold p in P0. assert (s1 = s0) as -> by (unfold sub3, zero3 in P0; injection P0; intros; apply vec3_eq; lra). veq; cbn; ring.
    - set (k := dot3 p q / dot3 p p). assert (q = scal3 k p) as Q.
      { assert (scal3 (dot3 p p) q = scal3 (dot3 p q) p) as T.
        { assert (sub3 (scal3 (dot3 p p) q) (scal3 (dot3 p q) p) = cross3 (cross3 p q) p) as T by (clear; clearbody p q; veq; ring). rewrite Cr in T.
          assert (cross3 zero3 p = zero3) as T0 by (clearbody p; clear; veq; ring). rewrite T0 in T. revert T. generalize (scal3 (dot3 p p) q) (scal3 (dot3 p q) p). intros g h T. unfold sub3, zero3 in T. injection T; intros; apply vec3_eq; lra. }
        unfold k. clearbody p q. clear - T P0. apply (f_equal (scal3 (/ dot3 p p))) in T.
        assert (scal3 (/ dot3 p p) (scal3 (dot3 p p) q) = q) as E1 by (veq; field; exact P0).
        assert (scal3 (/ dot3 p p) (scal3 (dot3 p q) p) = scal3 (dot3 p q / dot3 p p) p) as E2 by (veq; field; exact P0). congruence. }
      exists (- k), (k + 1), (-1). split; [lra|]. split; [right; right; lra|].
      assert (comb (mkTri s0 s1 s2) (- k) (k + 1) (-1) = sub3 (scal3 k p) q) as -> by (unfold p, q; clear; generalize k; intro; veq; cbn; ring). rewrite Q. clear. clearbody p. generalize k. intro. veq; ring. }
  assert (forall t, comb (mkTri s0 s1 s2) a b c = comb (mkTri s0 s1 s2) (a + t * u) (b + t * v) (c + t * w)) as Mv.
  { intro t. assert (comb (mkTri s0 s1 s2) (a + t * u) (b + t * v) (c + t * w) = add3 (comb (mkTri s0 s1 s2) a b c) (scal3 t (comb (mkTri s0 s1 s2) u v w))) as -> by (clear; veq; cbn; ring). rewrite Dep. generalize (comb (mkTri s0 s1 s2) a b c). intro. clear. veq; ring. }
  (* move until a coordinate vanishes: t is the smallest of -a/u over the negative directions *)
  assert (exists t, 0 <= a + t * u /\ 0 <= b + t * v /\ 0 <= c + t * w /\ (a + t * u = 0 \/ b + t * v = 0 \/ c + t * w = 0)) as (t & T0 & T1 & T2 & TZ).
  { clear Mv Dep Z.
    assert (forall a b c u v w, 0 <= a -> 0 <= b -> 0 <= c -> u < 0 -> exists t, 0 <= a + t * u /\ 0 <= b + t * v /\ 0 <= c + t * w /\ (a + t * u = 0 \/ b + t * v = 0 \/ c + t * w = 0)) as G.
    { clear. intros a b c u v w A B C U. set (f := fun x y => if Rlt_dec y 0 then x / - y else a / - u). assert (forall x y, 0 <= x -> 0 <= f x y) as F0.
      { intros x y Hx. unfold f. destruct (Rlt_dec y 0); apply Rmult_le_pos; auto; left; apply Rinv_0_lt_compat; lra. }
      assert (forall x y t, 0 <= x -> 0 <= t -> t <= f x y -> 0 <= x + t * y) as Fle.
      { intros x y t Hx Ht L. unfold f in L. destruct (Rlt_dec y 0); [|nra]. assert (x / - y * - y = x) by (field; lra). nra. }
      assert (forall x y, y < 0 -> x + f x y * y = 0) as Feq. { intros x y Hy. unfold f. destruct (Rlt_dec y 0); [field; lra|lra]. }
      destruct (Rle_dec (f a u) (f b v)) as [L1|L1].
      - destruct (Rle_dec (f a u) (f c w)) as [L2|L2].
        + exists (f a u). repeat split; [apply Fle; auto; lra|apply Fle; auto|apply Fle; auto|left; auto].
        + exists (f c w). assert (w < 0) as W. { destruct (Rlt_dec w 0); [assumption|]. unfold f in L2. destruct (Rlt_dec w 0); [lra|]. destruct (Rlt_dec u 0); lra. }
          repeat split; [apply Fle; auto; lra|apply Fle; auto; lra|apply Fle; auto; lra|right; right; auto].
      - assert (v < 0) as V. { destruct (Rlt_dec v 0); [assumption|]. unfold f in L1. destruct (Rlt_dec v 0); [lra|]. destruct (Rlt_dec u 0); lra. }
        destruct (Rle_dec (f b v) (f c w)) as [L2|L2].
        + exists (f b v). repeat split; [apply Fle; auto; lra|apply Fle; auto; lra|apply Fle; auto; lra|right; left; auto].
        + exists (f c w). assert (w < 0) as W. { destruct (Rlt_dec w 0); [assumption|]. unfold f in L1, L2. destruct (Rlt_dec w 0); [lra|]. destruct (Rlt_dec u 0); lra. }
          repeat split; [apply Fle; auto; lra|apply Fle; auto; lra|apply Fle; auto; lra|right; right; auto]. }
    destruct (Rlt_dec u 0) as [U|U]; [apply (G a b c u v w); auto|].
    destruct (Rlt_dec v 0) as [V|V]; [destruct (G b a c v u w) as (t & ?); auto; exists t; tauto|].
    destruct (Rlt_dec w 0) as [W|W]; [destruct (G c a b w u v) as (t & ?); auto; exists t; tauto|]. exfalso. lra. }
  rewrite (Mv t). apply zero_edge; auto. nra.
Qed.
