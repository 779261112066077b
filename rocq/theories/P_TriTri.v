(** C62: triangle_triangle_distance (TriTriModel.v), and what it gives for minimum_distance on triangle meshes (C33). *)
From Coq Require Import List Arith ZArith Bool Reals Lra Lia Psatz.
From Verif Require Import NumpyModel TopoModel PyExn Vec GeomModel GeomProofs AabbModel AabbSpec AabbTreeProofs AabbQueryProofs P_Aabb.
From Verif Require Import EdgeEdgeModel EdgeEdgeProofs TriTriModel TriTriProofs TriTri2Proofs TriTri3Proofs TriTri4Proofs.
Import ListNotations.
Open Scope R_scope.

(** x is a point of the closed triangle with vertices a, b, c *)
Definition in_triangle (a b c x : vec3) : Prop :=
  exists u v w, 0 <= u /\ 0 <= v /\ 0 <= w /\ u + v + w = 1 /\ x = add3 (scal3 u a) (add3 (scal3 v b) (scal3 w c)).
(** (twice the area)^2, and the only triangles excluded: non-degenerate ones with (twice the area)^2 <= 10^-15 *)
Definition area2 (a b c : vec3) : R := dot3 (cross3 (sub3 b a) (sub3 c b)) (cross3 (sub3 b a) (sub3 c b)).
Definition not_tiny (a b c : vec3) : Prop := area2 a b c = 0 \/ / 1000000000000000 < area2 a b c.
Lemma in_triangle_inT a b c x : in_triangle a b c x <-> inT (mkTri a b c) x.
Proof. reflexivity. Qed.
Lemma not_tiny_size a b c : not_tiny a b c <-> size_ok (mkTri a b c).
Proof. reflexivity. Qed.

Theorem C62_distance : forall s0 s1 s2 t0 t1 t2, not_tiny s0 s1 s2 -> not_tiny t0 t1 t2 -> let d := triangle_triangle_distance (mkTri s0 s1 s2) (mkTri t0 t1 t2) in
  (exists x y, in_triangle s0 s1 s2 x /\ in_triangle t0 t1 t2 y /\ d = norm3 (sub3 y x)) /\
  forall x y, in_triangle s0 s1 s2 x -> in_triangle t0 t1 t2 y -> d <= norm3 (sub3 y x).
Proof.
  intros s0 s1 s2 t0 t1 t2 HS HT d. destruct (tritri_ok (mkTri s0 s1 s2) (mkTri t0 t1 t2) HS HT) as (x & y & (Hx & Hy & M) & E). fold d in E. split.
  - exists x, y. auto.
  - intros x' y' Hx' Hy'. rewrite E. apply sqrt_le_1_alt. apply (M x' y' Hx' Hy').
Qed.
Print Assumptions C62_distance.
Theorem C62_zero : forall s0 s1 s2 t0 t1 t2, not_tiny s0 s1 s2 -> not_tiny t0 t1 t2 ->
  triangle_triangle_distance (mkTri s0 s1 s2) (mkTri t0 t1 t2) = 0 <-> exists x, in_triangle s0 s1 s2 x /\ in_triangle t0 t1 t2 x.
Proof.
  intros s0 s1 s2 t0 t1 t2 HS HT. destruct (C62_distance s0 s1 s2 t0 t1 t2 HS HT) as [(x & y & Hx & Hy & E) M]. split.
  - intro Z. rewrite Z in E. exists x. split; [exact Hx|]. symmetry in E. apply sqrt_eq_0 in E; [|apply dot3_pos]. apply dot3_zero in E. assert (x = y) as -> by (unfold sub3, zero3 in E; injection E; intros; apply vec3_eq; lra). exact Hy.
  - intros (z & Hz & Hz'). specialize (M z z Hz Hz'). assert (norm3 (sub3 z z) = 0) as Z by (unfold norm3; replace (dot3 _ _) with 0 by (clear; v3; ring); apply sqrt_0). rewrite Z in M. rewrite E in *. pose proof (norm3_pos (sub3 y x)). lra.
Qed.
Print Assumptions C62_zero.
Theorem C62_symmetric : forall s0 s1 s2 t0 t1 t2, not_tiny s0 s1 s2 -> not_tiny t0 t1 t2 ->
  triangle_triangle_distance (mkTri s0 s1 s2) (mkTri t0 t1 t2) = triangle_triangle_distance (mkTri t0 t1 t2) (mkTri s0 s1 s2).
Proof.
  assert (forall s0 s1 s2 t0 t1 t2, not_tiny s0 s1 s2 -> not_tiny t0 t1 t2 -> triangle_triangle_distance (mkTri s0 s1 s2) (mkTri t0 t1 t2) <= triangle_triangle_distance (mkTri t0 t1 t2) (mkTri s0 s1 s2)) as L.
  { intros s0 s1 s2 t0 t1 t2 HS HT. destruct (C62_distance s0 s1 s2 t0 t1 t2 HS HT) as [_ M]. destruct (C62_distance t0 t1 t2 s0 s1 s2 HT HS) as [(y & x & Hy & Hx & E) _]. rewrite E, dist_sym. auto. }
  intros. apply Rle_antisym; apply L; auto.
Qed.
Print Assumptions C62_symmetric.

(** ** tiny triangles *)
Lemma loop_vals S T pairs : forall m sh, Forall (fun ij => fst ij < 3 /\ snd ij < 3)%nat pairs ->
  match edge_loop S T pairs m sh with
  | inl r => exists i j, (i < 3)%nat /\ (j < 3)%nat /\ r = sqrt (d2 (fst (ee S T i j)) (snd (ee S T i j)))
  | inr (m', _) => m' = m \/ exists i j, (i < 3)%nat /\ (j < 3)%nat /\ m' = d2 (fst (ee S T i j)) (snd (ee S T i j))
  end.
Proof.
  induction pairs as [|[i j] rest IH]; intros m sh F; [left; reflexivity|]. inversion_clear F as [|? ? [Hi Hj] Fr]. cbn [fst snd] in Hi, Hj. cbn [edge_loop]. cbv zeta.
  fold (d2 (fst (ee S T i j)) (snd (ee S T i j))). set (dd := d2 (fst (ee S T i j)) (snd (ee S T i j))).
  assert (forall sh', match edge_loop S T rest dd sh' with inl r => exists i j, (i < 3)%nat /\ (j < 3)%nat /\ r = sqrt (d2 (fst (ee S T i j)) (snd (ee S T i j))) | inr (m', _) => m' = m \/ exists i j, (i < 3)%nat /\ (j < 3)%nat /\ m' = d2 (fst (ee S T i j)) (snd (ee S T i j)) end) as G.
  { intro sh'. specialize (IH dd sh' Fr). destruct (edge_loop S T rest dd sh') as [r|[m' b]]; [exact IH|]. right. destruct IH as [-> |IH]; [exists i, j; auto|exact IH]. }
  destruct (Rle_dec dd m); [|apply IH; auto]. destruct (Rle_dec _ 0); [|apply G]. destruct (Rge_dec _ 0); [exists i, j; auto|apply G].
Qed.
Lemma tiny_S h : area2 (0,0,0) (3*h,0,0) (0,3*h,0) = 81 * (h*h*(h*h)).
Proof. unfold area2, cross3. v3. ring. Qed.
Lemma tiny_T h : area2 (h,h,h) (2*h,h,2*h) (h,2*h,2*h) = 3 * (h*h*(h*h)).
Proof. unfold area2, cross3. v3. ring. Qed.
Lemma tiny_edges h i x y : 0 < h -> (i < 3)%nat -> onE (mkTri (0,0,0) (3*h,0,0) (0,3*h,0)) i x -> inT (mkTri (h,h,h) (2*h,h,2*h) (h,2*h,2*h)) y -> h * h < d2 x y.
Proof.
  intros P Hi (t & Ht & ->) (a & b & c & A & B & C & E & ->). replace a with (1 - b - c) by lra.
  assert (forall p q, d2 (p, q, 0) (comb (mkTri (h,h,h) (2*h,h,2*h) (h,2*h,2*h)) (1 - b - c) b c) = (h + b * h - p) * (h + b * h - p) + (h + c * h - q) * (h + c * h - q) + (h + (b + c) * h) * (h + (b + c) * h)) as D by (clear; intros; u3; cbn; ring).
  assert (0 <= b * h) by nra. assert (0 <= c * h) by nra. assert (0 < h * h) by nra.
  assert (forall u, h <= u -> h * h <= u * u) as Sq by (clear - P; intros; nra). assert (forall u, 0 <= u * u) as Sq0 by (clear; intros; nra).
  assert (h * h <= (h + (b + c) * h) * (h + (b + c) * h)) as Q3 by (apply Sq; lra).
  destruct i as [|[|[|i]]]; [| | |lia]; cbn [vx ev v0 v1 v2].
  - assert (add3 (0,0,0) (scal3 t (ev (mkTri (0,0,0) (3*h,0,0) (0,3*h,0)) 0)) = (3 * t * h, 0, 0)) as -> by (veq; cbn; ring). rewrite D. pose proof (Sq0 (h + b * h - 3 * t * h)). pose proof (Sq (h + c * h - 0) ltac:(lra)). lra.
  - assert (add3 (3*h,0,0) (scal3 t (ev (mkTri (0,0,0) (3*h,0,0) (0,3*h,0)) 1)) = (3 * h - 3 * t * h, 3 * t * h, 0)) as -> by (veq; cbn; ring). rewrite D.
    set (u := h + b * h - (3 * h - 3 * t * h)). set (v := h + c * h - 3 * t * h). assert (u + v = - h + b * h + c * h) as Suv by (unfold u, v; ring). clearbody u v.
    pose proof (Sq0 u). pose proof (Sq0 v). destruct (Rlt_dec 0 (b * h + c * h)); [replace ((b + c) * h) with (b * h + c * h) by ring; set (w := b * h + c * h) in *; clearbody w; nra|]. assert (b * h + c * h = 0) by lra. assert ((h + (b + c) * h) * (h + (b + c) * h) = h * h) as -> by (replace ((b + c) * h) with 0 by lra; ring).
    assert (u + v = - h) by lra. assert (0 < u * u + v * v); [|lra]. replace v with (- h - u) by lra. nra.
  - assert (add3 (0,3*h,0) (scal3 t (ev (mkTri (0,0,0) (3*h,0,0) (0,3*h,0)) 2)) = (0, 3 * h - 3 * t * h, 0)) as -> by (veq; cbn; ring). rewrite D. pose proof (Sq0 (h + c * h - (3 * h - 3 * t * h))). pose proof (Sq (h + b * h - 0) ltac:(lra)). lra.
Qed.
(** two right triangles of size 10^-5 whose nearest points are the interior of one and a vertex of the other, 10^-5 apart: neither is degenerate,
    both are ignored by the face tests, and the value returned is not their distance *)
Theorem C62_small_refuted : exists s0 s1 s2 t0 t1 t2, area2 s0 s1 s2 <> 0 /\ area2 t0 t1 t2 <> 0 /\
  (forall x y, in_triangle s0 s1 s2 x -> in_triangle t0 t1 t2 y -> / 100000 <= norm3 (sub3 y x)) /\
  (exists x y, in_triangle s0 s1 s2 x /\ in_triangle t0 t1 t2 y /\ norm3 (sub3 y x) = / 100000) /\
  triangle_triangle_distance (mkTri s0 s1 s2) (mkTri t0 t1 t2) <> / 100000.
Proof.
  set (h := / 100000). assert (0 < h) as P by (unfold h; lra).
  exists (0,0,0), (3*h,0,0), (0,3*h,0), (h,h,h), (2*h,h,2*h), (h,2*h,2*h). assert (0 < h * h) by nra. assert (0 < h * h * (h * h)) by nra.
  split; [rewrite tiny_S; lra|]. split; [rewrite tiny_T; lra|]. split; [|split].
  - intros x y (a & b & c & A & B & C & E & ->) (a' & b' & c' & A' & B' & C' & E' & ->). replace h with (sqrt (h * h)) at 1 by (apply sqrt_square; lra). apply sqrt_le_1_alt.
    replace a' with (1 - b' - c') by lra. assert (0 <= b' * h) by nra. assert (0 <= c' * h) by nra. generalize h, P, H, H1, H2. clear - B' C'. intros h P H H1 H2. v3.
    match goal with |- _ <= ?p * _ + ?q * _ + ?r * _ => assert (r = h + b' * h + c' * h) as Er by ring; rewrite Er; pose proof (Rle_0_sqr p); pose proof (Rle_0_sqr q); unfold Rsqr in * end. nra.
  - exists (h, h, 0), (h, h, h). split; [exists (/3), (/3), (/3); repeat split; try lra; apply vec3_eq; v3; field|]. split; [exists 1, 0, 0; repeat split; try lra; apply vec3_eq; v3; ring|].
    unfold norm3. replace (dot3 _ _) with (h * h) by (generalize h; clear; intro; v3; ring). apply sqrt_square. lra.
  - set (S := mkTri (0,0,0) (3*h,0,0) (0,3*h,0)). set (T := mkTri (h,h,h) (2*h,h,2*h) (h,2*h,2*h)).
    assert (forall i j, (i < 3)%nat -> (j < 3)%nat -> h * h < d2 (fst (ee S T i j)) (snd (ee S T i j))) as Big.
    { intros i j Hi Hj. apply (tiny_edges h i); auto; [apply (ee_ok S T i j)|apply (ee_in S T i j Hi Hj)]. }
    assert (forall m, h * h < m -> sqrt m <> h) as Sq. { intros m Hm Z. assert (0 <= m) as Pm by lra. pose proof (sqrt_sqrt m Pm) as Q. rewrite Z in Q. lra. }
    assert (81 * (h*h*(h*h)) <= thr) as A1 by (unfold h, thr; lra). assert (3 * (h*h*(h*h)) <= thr) as A2 by (unfold h, thr; lra).
    assert (forall X Y, dot3 (nrm X) (nrm X) <= thr -> face_test X Y = (None, false)) as Skip. { clear. intros X Y L. unfold face_test. cbv zeta. destruct (Rgt_dec _ thr); [lra|reflexivity]. }
    unfold triangle_triangle_distance. rewrite (Skip S T) by (rewrite (tiny_S h : dot3 (nrm S) (nrm S) = _); exact A1). rewrite (Skip T S) by (rewrite (tiny_T h : dot3 (nrm T) (nrm T) = _); exact A2).
    pose proof (loop_vals S T pairs9 (dot3 (sub3 (v0 S) (v0 T)) (sub3 (v0 S) (v0 T)) + 10) false ltac:(unfold pairs9; repeat constructor)) as L.
    destruct (edge_loop S T pairs9 _ false) as [r|[m sh]]; [destruct L as (i & j & Hi & Hj & ->); apply Sq; auto|].
    destruct (sh || false || false); [|lra]. apply Sq. destruct L as [-> |(i & j & Hi & Hj & ->)]; [|auto].
    pose proof (dot3_pos (sub3 (v0 S) (v0 T))). assert (h * h < 10) by (unfold h; lra). lra.
Qed.
Print Assumptions C62_small_refuted.

(** the vertex of a triangle above the middle of another one (found by a face test only), and two crossing triangles *)
Example C62_nonvacuous :
  triangle_triangle_distance (mkTri (0,0,0) (3,0,0) (0,3,0)) (mkTri (1,1,1) (2,1,2) (1,2,2)) = 1 /\
  triangle_triangle_distance (mkTri (0,0,0) (3,0,0) (0,3,0)) (mkTri (1,1,1) (1,1,-1) (2,1,1)) = 0.
Proof.
  assert (not_tiny (0,0,0) (3,0,0) (0,3,0)) as N1 by (right; unfold area2, cross3; v3; lra).
  assert (not_tiny (1,1,1) (2,1,2) (1,2,2)) as N2 by (right; unfold area2, cross3; v3; lra).
  assert (not_tiny (1,1,1) (1,1,-1) (2,1,1)) as N3 by (right; unfold area2, cross3; v3; lra). split.
  - destruct (C62_distance _ _ _ _ _ _ N1 N2) as [(x & y & (a & b & c & A & B & C & E & ->) & (a' & b' & c' & A' & B' & C' & E' & ->) & D) M].
    apply Rle_antisym.
    + specialize (M (1,1,0) (1,1,1)). eapply Rle_trans; [apply M|].
      * exists (/3), (/3), (/3). repeat split; try lra. apply vec3_eq; v3; field.
      * exists 1, 0, 0. repeat split; try lra. apply vec3_eq; v3; ring.
      * unfold norm3. replace (dot3 _ _) with 1 by (v3; ring). rewrite sqrt_1. lra.
    + rewrite D. replace 1 with (sqrt 1) at 1 by apply sqrt_1. apply sqrt_le_1_alt. clear - B' C' E'. replace a' with (1 - b' - c') by lra. v3.
      match goal with |- _ <= ?p * _ + ?q * _ + ?r * _ => assert (r = 1 + b' + c') as Er by ring; rewrite Er; pose proof (Rle_0_sqr p); pose proof (Rle_0_sqr q); unfold Rsqr in * end. nra.
  - apply C62_zero; auto. exists (1, 1, 0). split; [exists (/3), (/3), (/3)|exists (/2), (/2), 0]; (repeat split; try lra); apply vec3_eq; v3; field.
Qed.

(** ** C33 without an assumption on the triangle distance: minimum_distance.py:64 passes the three rows of each triangle *)
Definition row3 (v : vec) : vec3 := (nth 0 v 0, nth 1 v 0, nth 2 v 0).
Definition tri_of (vs : list vec) : tri := mkTri (row3 (nth 0 vs [])) (row3 (nth 1 vs [])) (row3 (nth 2 vs [])).
Definition tri_dist (a b : list vec) : R := triangle_triangle_distance (tri_of a) (tri_of b).
(** p is a point of the triangle mesh (V, F) *)
Definition mesh_point (V : list vec) (F : list (list Z)) (p : vec3) : Prop :=
  exists f i j k, In f F /\ f = [i; j; k] /\ in_triangle (row3 (nth (Z.to_nat i) V [])) (row3 (nth (Z.to_nat j) V [])) (row3 (nth (Z.to_nat k) V [])) p.
Definition ok_faces (V : list vec) (F : list (list Z)) : Prop :=
  Forall (fun f => exists i j k, f = [i; j; k] /\ not_tiny (row3 (nth (Z.to_nat i) V [])) (row3 (nth (Z.to_nat j) V [])) (row3 (nth (Z.to_nat k) V []))) F.
Lemma face_of V F a : ok_faces V F -> (a < length F)%nat -> exists i j k, nth a F [] = [i; j; k] /\ size_ok (tri_of (vert_of V F a)) /\
  tri_of (vert_of V F a) = mkTri (row3 (nth (Z.to_nat i) V [])) (row3 (nth (Z.to_nat j) V [])) (row3 (nth (Z.to_nat k) V [])).
Proof.
  intros O Ha. unfold ok_faces in O. rewrite Forall_forall in O. destruct (O (nth a F []) (nth_In F [] Ha)) as (i & j & k & E & N). exists i, j, k. split; [exact E|].
  unfold vert_of. rewrite E. cbn [map]. unfold tri_of. cbn [nth]. split; [exact N|reflexivity].
Qed.
Lemma combo_of V F a x : ok_faces V F -> (a < length F)%nat -> inT (tri_of (vert_of V F a)) x -> exists w, combo 3 w (vert_of V F a) [X x; Y x; Zc x].
Proof.
  intros O Ha (u & v & w & U & Vv & W & E & ->). destruct (face_of V F a O Ha) as (i & j & k & Ef & _ & _). exists [u; v; w]. unfold vert_of. rewrite Ef. cbn [map].
  split; [reflexivity|]. split; [reflexivity|]. split; [constructor; [auto|constructor; [auto|constructor; [auto|constructor]]]|]. split; [cbn; lra|].
  intros q Hq. destruct q as [|[|[|q]]]; [| | |lia]; unfold comb, tri_of, row3; cbn [nth v0 v1 v2 wsum]; v3; ring.
Qed.
Theorem C33_triangle_meshes : forall argsort V1 F1 V2 F2 fuel, is_argsort argsort -> valid_mesh 3 V1 F1 -> valid_mesh 3 V2 F2 -> ok_faces V1 F1 -> ok_faces V2 F2 ->
  ((2 * length F1 - 1) * (2 * length F2 - 1) <= fuel)%nat ->
  exists d, minimum_distance argsort tri_dist fuel 3 V1 F1 V2 F2 = Ok (Some d) /\
    (exists x y, mesh_point V1 F1 x /\ mesh_point V2 F2 y /\ d = norm3 (sub3 y x)) /\
    forall x y, mesh_point V1 F1 x -> mesh_point V2 F2 y -> d <= norm3 (sub3 y x).
Proof.
  intros s V1 F1 V2 F2 fuel A VM1 VM2 O1 O2 FU.
  assert (attained 3 tri_dist V1 F1 V2 F2) as AT.
  { intros a b Ha Hb. destruct (face_of V1 F1 a O1 Ha) as (_ & _ & _ & _ & S1 & _). destruct (face_of V2 F2 b O2 Hb) as (_ & _ & _ & _ & S2 & _).
    destruct (tritri_ok _ _ S1 S2) as (x & y & (Hx & Hy & _) & E). destruct (combo_of V1 F1 a x O1 Ha Hx) as (w1 & C1). destruct (combo_of V2 F2 b y O2 Hb Hy) as (w2 & C2).
    exists w1, [X x; Y x; Zc x], w2, [X y; Y y; Zc y]. split; [exact C1|]. split; [exact C2|]. unfold tri_dist. rewrite E. unfold norm3. f_equal. unfold dist2. cbn. v3. ring. }
  destruct (C33_minimum_distance s tri_dist 3 V1 F1 V2 F2 fuel A VM1 VM2 AT FU) as (a & b & Ha & Hb & E & M).
  exists (tri_dist (vert_of V1 F1 a) (vert_of V2 F2 b)). split; [exact E|]. split.
  - destruct (face_of V1 F1 a O1 Ha) as (i & j & k & Ef & S1 & T1). destruct (face_of V2 F2 b O2 Hb) as (i' & j' & k' & Ef' & S2 & T2). destruct (tritri_ok _ _ S1 S2) as (x & y & (Hx & Hy & _) & Ed). exists x, y. split; [|split].
    + exists (nth a F1 []), i, j, k. split; [apply nth_In, Ha|]. split; [exact Ef|]. rewrite T1 in Hx. exact Hx.
    + exists (nth b F2 []), i', j', k'. split; [apply nth_In, Hb|]. split; [exact Ef'|]. rewrite T2 in Hy. exact Hy.
    + exact Ed.
  - intros x y (f & i & j & k & If & Ef & Hx) (f' & i' & j' & k' & If' & Ef' & Hy). destruct (In_nth F1 f [] If) as (a' & Ha' & Ea). destruct (In_nth F2 f' [] If') as (b' & Hb' & Eb).
    eapply Rle_trans; [apply (M a' b' Ha' Hb')|].
    destruct (face_of V1 F1 a' O1 Ha') as (i1 & j1 & k1 & Ef1 & S1 & T1). destruct (face_of V2 F2 b' O2 Hb') as (i2 & j2 & k2 & Ef2 & S2 & T2).
    assert ([i1; j1; k1] = [i; j; k]) as Q1 by congruence. injection Q1 as -> -> ->. assert ([i2; j2; k2] = [i'; j'; k']) as Q2 by congruence. injection Q2 as -> -> ->.
    unfold tri_dist. rewrite T1, T2 in *. apply C62_distance; auto.
Qed.
Print Assumptions C33_triangle_meshes.
Example C33_triangle_nonvacuous : ok_faces [[0;0;0]; [1;0;0]; [0;1;0]] [[0;1;2]%Z] /\ valid_mesh 3 [[0;0;0]; [1;0;0]; [0;1;0]] [[0;1;2]%Z].
Proof.
  split; [|repeat split; try lia; try congruence; repeat constructor; cbn; lia]. constructor; [|constructor]. exists 0%Z, 1%Z, 2%Z. split; [reflexivity|]. right. change (Z.to_nat 0) with 0%nat. change (Z.to_nat 1) with 1%nat. change (Z.to_nat 2) with 2%nat. unfold area2, cross3, row3. cbn [nth]. v3. lra.
Qed.
