From Coq Require Import List Arith Bool Reals Lra Lia Psatz.
From Verif Require Import Vec EdgeEdgeModel EdgeEdgeProofs TriTriModel TriTriProofs TriTri2Proofs TriTri3Proofs.
Import ListNotations.
Open Scope R_scope.

(** ** the distance of two triangles is attained *)
Section Attain.
Variables (Z : Type) (zs : Z -> Prop) (f : R -> Z -> R) (K : R).
Hypothesis HK : 0 <= K.
Hypothesis Lip : forall s s' z, 0 <= s <= 1 -> 0 <= s' <= 1 -> zs z -> f s z <= f s' z + K * Rabs (s - s').
Hypothesis Min : forall s, 0 <= s <= 1 -> exists z, zs z /\ forall z', zs z' -> f s z <= f s z'.
Lemma clamp_in s : 0 <= Rmax 0 (Rmin 1 s) <= 1.
Proof. unfold Rmax, Rmin. destruct (Rle_dec 1 s), (Rle_dec 0 _); lra. Qed.
Lemma clamp_lip s t : Rabs (Rmax 0 (Rmin 1 s) - Rmax 0 (Rmin 1 t)) <= Rabs (s - t).
Proof.
  unfold Rmax, Rmin. destruct (Rle_dec 1 s), (Rle_dec 1 t); repeat match goal with |- context [Rle_dec 0 ?b] => destruct (Rle_dec 0 b) end; unfold Rabs;
  repeat match goal with |- context [Rcase_abs ?a] => destruct (Rcase_abs a) end; lra.
Qed.
Lemma clamp_id s : 0 <= s <= 1 -> Rmax 0 (Rmin 1 s) = s.
Proof. intro. unfold Rmax, Rmin. destruct (Rle_dec 1 s), (Rle_dec 0 _); lra. Qed.
Definition lows (s r : R) : Prop := exists z, zs z /\ r = - f (Rmax 0 (Rmin 1 s)) z.
Lemma lows_bound s : bound (lows s).
Proof. destruct (Min _ (clamp_in s)) as (z & _ & M). exists (- f (Rmax 0 (Rmin 1 s)) z). intros r (z' & Hz' & ->). specialize (M z' Hz'). lra. Qed.
Lemma lows_ne s : exists r, lows s r.
Proof. destruct (Min _ (clamp_in s)) as (z & Hz & _). exists (- f (Rmax 0 (Rmin 1 s)) z). exists z. auto. Qed.
Definition low (s : R) : R := - proj1_sig (completeness (lows s) (lows_bound s) (lows_ne s)).
Lemma low_ok s : exists z, zs z /\ low s = f (Rmax 0 (Rmin 1 s)) z /\ forall z', zs z' -> low s <= f (Rmax 0 (Rmin 1 s)) z'.
Proof.
  destruct (Min _ (clamp_in s)) as (z & Hz & M). unfold low. destruct (completeness _ _ _) as [m [U L]]. cbn [proj1_sig].
  assert (- f (Rmax 0 (Rmin 1 s)) z <= m) by (apply U; exists z; auto).
  assert (m <= - f (Rmax 0 (Rmin 1 s)) z) by (apply L; intros r (z' & Hz' & ->); specialize (M z' Hz'); lra).
  exists z. split; [exact Hz|]. split; [lra|]. intros z' Hz'. specialize (M z' Hz'). lra.
Qed.
Lemma low_lip s t : low s <= low t + K * Rabs (s - t).
Proof.
  destruct (low_ok s) as (_ & _ & _ & M). destruct (low_ok t) as (z & Hz & E & _). specialize (M z Hz). pose proof (Lip _ _ z (clamp_in s) (clamp_in t) Hz) as L. pose proof (clamp_lip s t). rewrite E.
  assert (K * Rabs (Rmax 0 (Rmin 1 s) - Rmax 0 (Rmin 1 t)) <= K * Rabs (s - t)) by (apply Rmult_le_compat_l; auto). lra.
Qed.
Lemma low_cont c : continuity_pt low c.
Proof.
  intros e He. exists (e / (K + 1)). split; [apply Rdiv_lt_0_compat; lra|]. intros x [_ Hx]. cbn in *. unfold R_dist in *.
  pose proof (low_lip x c) as A. pose proof (low_lip c x) as B. rewrite (Rabs_minus_sym c x) in B. pose proof (Rabs_pos (x - c)).
  assert (K * Rabs (x - c) < e). { assert (e / (K + 1) * (K + 1) = e) by (field; lra). nra. }
  apply Rabs_def1; lra.
Qed.
Lemma attain : exists s z, 0 <= s <= 1 /\ zs z /\ forall s' z', 0 <= s' <= 1 -> zs z' -> f s z <= f s' z'.
Proof.
  destruct (continuity_ab_min low 0 1 ltac:(lra)) as (s & M & Hs); [intros; apply low_cont|]. destruct (low_ok s) as (z & Hz & E & _). exists s, z. split; [exact Hs|]. split; [exact Hz|].
  intros s' z' Hs' Hz'. specialize (M s' Hs'). destruct (low_ok s') as (_ & _ & _ & M'). specialize (M' z' Hz'). rewrite (clamp_id s' Hs') in M'. rewrite (clamp_id s Hs) in E. lra.
Qed.
End Attain.

Lemma norm3_pos a : 0 <= norm3 a. Proof. apply sqrt_pos. Qed.
Lemma norm3_sq a : norm3 a * norm3 a = dot3 a a. Proof. apply sqrt_sqrt, dot3_pos. Qed.
Lemma norm3_tri a b : norm3 (add3 a b) <= norm3 a + norm3 b.
Proof.
  pose proof (norm3_pos a). pose proof (norm3_pos b). pose proof (norm3_sq a). pose proof (norm3_sq b). pose proof (norm3_sq (add3 a b)). pose proof (norm3_pos (add3 a b)).
  assert (dot3 a b <= norm3 a * norm3 b) as CS.
  { apply Rsqr_incr_0_var; [|nra]. unfold Rsqr. replace (norm3 a * norm3 b * (norm3 a * norm3 b)) with (norm3 a * norm3 a * (norm3 b * norm3 b)) by ring. rewrite H1, H2.
    pose proof (dot3_pos (cross3 a b)) as D. assert (dot3 (cross3 a b) (cross3 a b) = dot3 a a * dot3 b b - dot3 a b * dot3 a b) as E by (clear; u3; ring). lra. }
  assert (dot3 (add3 a b) (add3 a b) = dot3 a a + 2 * dot3 a b + dot3 b b) as E by (clear; u3; ring). nra.
Qed.
Lemma norm3_scal k a : norm3 (scal3 k a) = Rabs k * norm3 a.
Proof. unfold norm3. assert (dot3 (scal3 k a) (scal3 k a) = Rsqr k * dot3 a a) as -> by (clear; unfold Rsqr; u3; ring). rewrite sqrt_mult; [|apply Rle_0_sqr|apply dot3_pos]. rewrite sqrt_Rsqr_abs. reflexivity. Qed.
(** the points of a triangle, with parameters in the unit square *)
Definition pt (S : tri) (a b : R) : vec3 := add3 (v0 S) (scal3 a (add3 (sub3 (v1 S) (v0 S)) (scal3 b (sub3 (v2 S) (v1 S))))).
Lemma pt_in S a b : 0 <= a <= 1 -> 0 <= b <= 1 -> inT S (pt S a b).
Proof. intros. exists (1 - a), (a * (1 - b)), (a * b). repeat split; try nra. destruct S as [p q r]. unfold pt. veq; cbn; ring. Qed.
Lemma in_pt S x : inT S x -> exists a b, 0 <= a <= 1 /\ 0 <= b <= 1 /\ x = pt S a b.
Proof.
  intros (a & b & c & A & B & C & E & ->). destruct (Req_EM_T (b + c) 0) as [Z|Z].
  - exists 0, 0. split; [lra|]. split; [lra|]. assert (b = 0) as -> by lra. assert (c = 0) as -> by lra. assert (a = 1) as -> by lra. destruct S as [p q r]. unfold pt. veq; cbn; ring.
  - assert (0 < b + c) as P by lra. exists (b + c), (c / (b + c)). split; [lra|]. split; [split; [apply Rmult_le_pos; [lra|left; apply Rinv_0_lt_compat; lra]|]; assert (c / (b + c) * (b + c) = c) by (field; lra); nra|].
    replace a with (1 - b - c) by lra. clear - P. destruct S as [p q r]. unfold pt. veq; cbn; field; lra.
Qed.
Definition len (S : tri) : R := norm3 (sub3 (v1 S) (v0 S)) + norm3 (sub3 (v2 S) (v1 S)).
Lemma len_pos S : 0 <= len S. Proof. unfold len. pose proof (norm3_pos (sub3 (v1 S) (v0 S))). pose proof (norm3_pos (sub3 (v2 S) (v1 S))). lra. Qed.
Lemma pt_lip S a b a' b' : 0 <= a <= 1 -> 0 <= b <= 1 -> 0 <= a' <= 1 -> 0 <= b' <= 1 -> norm3 (sub3 (pt S a b) (pt S a' b')) <= len S * Rabs (a - a') + len S * Rabs (b - b').
Proof.
  intros A B A' B'. assert (sub3 (pt S a b) (pt S a' b') = add3 (scal3 (a - a') (add3 (sub3 (v1 S) (v0 S)) (scal3 b (sub3 (v2 S) (v1 S))))) (scal3 (a' * (b - b')) (sub3 (v2 S) (v1 S)))) as -> by (unfold pt; clear; generalize (v0 S) (v1 S) (v2 S); intros; veq; ring).
  set (u := sub3 (v1 S) (v0 S)). set (v := sub3 (v2 S) (v1 S)). unfold len. fold u v. pose proof (norm3_pos u). pose proof (norm3_pos v). pose proof (norm3_tri (scal3 (a - a') (add3 u (scal3 b v))) (scal3 (a' * (b - b')) v)) as T.
  pose proof (norm3_tri u (scal3 b v)) as T2. rewrite !norm3_scal in *. rewrite Rabs_mult in T. rewrite (Rabs_pos_eq b) in T2 by lra. rewrite (Rabs_pos_eq a') in T by lra.
  pose proof (Rabs_pos (a - a')). pose proof (Rabs_pos (b - b')). revert T T2 H H0 H1 H2. generalize (norm3 (add3 (scal3 (a - a') (add3 u (scal3 b v))) (scal3 (a' * (b - b')) v))) (norm3 (add3 u (scal3 b v))) (norm3 u) (norm3 v) (Rabs (a - a')) (Rabs (b - b')). intros. clear - A B A' B' H H0 H1 H2 T T2.
  assert (r3 * r0 <= r3 * (r1 + b * r2)) by (apply Rmult_le_compat_l; auto). assert (0 <= r3 * r2) by nra. assert (0 <= r4 * r2) by nra. assert (0 <= r4 * r1) by nra. nra.
Qed.
Lemma dist_lip a a' b : norm3 (sub3 b a) <= norm3 (sub3 b a') + norm3 (sub3 a a').
Proof. assert (sub3 b a = add3 (sub3 b a') (scal3 (-1) (sub3 a a'))) as -> by (clear; veq; ring). eapply Rle_trans; [apply norm3_tri|]. rewrite norm3_scal. replace (Rabs (-1)) with 1 by (rewrite Rabs_left; lra). lra. Qed.
Lemma dist_sym a b : norm3 (sub3 b a) = norm3 (sub3 a b).
Proof. unfold norm3. f_equal. clear. u3. ring. Qed.
(** one more parameter, from a family of points in a triangle *)
Lemma attain_pt (T : tri) (x : vec3) : exists b, inT T b /\ forall b', inT T b' -> norm3 (sub3 b x) <= norm3 (sub3 b' x).
Proof.
  assert (forall g, 0 <= g <= 1 -> exists d, (0 <= d <= 1) /\ forall d', 0 <= d' <= 1 -> norm3 (sub3 (pt T g d) x) <= norm3 (sub3 (pt T g d') x)) as I.
  { intros g Hg. destruct (attain unit (fun _ => True) (fun d _ => norm3 (sub3 (pt T g d) x)) (len T) (len_pos T)) as (d & [] & Hd & _ & M).
    - intros s s' _ Hs Hs' _. rewrite !(dist_sym x). eapply Rle_trans; [apply (dist_lip _ (pt T g s'))|]. pose proof (pt_lip T g s g s' Hg Hs Hg Hs') as L. replace (g - g) with 0 in L by ring. rewrite Rabs_R0 in L. lra.
    - intros s Hs. exists tt. split; [exact I|]. intros []. lra.
    - exists d. split; [exact Hd|]. intros d' Hd'. apply (M d' tt Hd' I). }
  destruct (attain R (fun d => 0 <= d <= 1) (fun g d => norm3 (sub3 (pt T g d) x)) (len T) (len_pos T)) as (g & d & Hg & Hd & M).
  - intros s s' d Hs Hs' Hd. rewrite !(dist_sym x). eapply Rle_trans; [apply (dist_lip _ (pt T s' d))|]. pose proof (pt_lip T s d s' d Hs Hd Hs' Hd) as L. replace (d - d) with 0 in L by ring. rewrite Rabs_R0 in L. lra.
  - exact I.
  - exists (pt T g d). split; [apply pt_in; auto|]. intros b' Hb. destruct (in_pt T b' Hb) as (g' & d' & Hg' & Hd' & ->). apply M; auto.
Qed.
Lemma exists_closest S T : exists x y, closest S T x y.
Proof.
  assert (forall a, 0 <= a <= 1 -> exists z : R * vec3, (0 <= fst z <= 1 /\ inT T (snd z)) /\ forall z', 0 <= fst z' <= 1 /\ inT T (snd z') -> norm3 (sub3 (snd z) (pt S a (fst z))) <= norm3 (sub3 (snd z') (pt S a (fst z')))) as I.
  { intros a Ha. destruct (attain vec3 (inT T) (fun b y => norm3 (sub3 y (pt S a b))) (len S) (len_pos S)) as (b & y & Hb & Hy & M).
    - intros s s' y Hs Hs' Hy. eapply Rle_trans; [apply (dist_lip _ (pt S a s'))|]. pose proof (pt_lip S a s a s' Ha Hs Ha Hs') as L. replace (a - a) with 0 in L by ring. rewrite Rabs_R0 in L. lra.
    - intros s Hs. apply attain_pt.
    - exists (b, y). split; [split; auto|]. intros [b' y'] [Hb' Hy']. apply M; auto. }
  destruct (attain (R * vec3) (fun z => 0 <= fst z <= 1 /\ inT T (snd z)) (fun a z => norm3 (sub3 (snd z) (pt S a (fst z)))) (len S) (len_pos S)) as (a & [b y] & Ha & [Hb Hy] & M); [|exact I|].
  - intros s s' [b y] Hs Hs' [Hb Hy]. cbn [fst snd] in *. eapply Rle_trans; [apply (dist_lip _ (pt S s' b))|]. pose proof (pt_lip S s b s' b Hs Hb Hs' Hb) as L. replace (b - b) with 0 in L by ring. rewrite Rabs_R0 in L. lra.
  - cbn [fst snd] in *. exists (pt S a b), y. split; [apply pt_in; auto|]. split; [exact Hy|]. intros x' y' Hx' Hy'. destruct (in_pt S x' Hx') as (a' & b' & Ha' & Hb' & ->). specialize (M a' (b', y') Ha' (conj Hb' Hy')). cbn [fst snd] in M.
    unfold norm3 in M. apply sqrt_le_0 in M; [exact M|apply dot3_pos|apply dot3_pos].
Qed.

(** ** the whole function *)
Lemma is_distance_sym S T r : is_distance S T r -> is_distance T S r.
Proof. intros (x & y & C & ->). exists y, x. split; [apply closest_sym, C|apply dist_sym]. Qed.
Lemma not_disjoint S T x y : ~ disjoint S T -> closest S T x y -> d2 x y = 0.
Proof.
  intros ND (_ & _ & M). destruct (Req_EM_T (d2 x y) 0) as [|N]; [assumption|]. exfalso. apply ND. intros z Hx Hy. specialize (M z z Hx Hy). pose proof (d2_pos x y). assert (d2 z z = 0) by (clear; u3; ring). lra.
Qed.
Lemma tritri_ok S T : size_ok S -> size_ok T -> is_distance S T (triangle_triangle_distance S T).
Proof.
  intros SS ST. destruct (exists_closest S T) as (x & y & C). unfold triangle_triangle_distance.
  pose proof (loop_ok S T (d2 x y) x y C eq_refl pairs9 (dot3 (sub3 (v0 S) (v0 T)) (sub3 (v0 S) (v0 T)) + 10) false) as L.
  destruct (edge_loop S T pairs9 _ false) as [r|[m sh]].
  { apply L; [unfold pairs9; repeat constructor|]. destruct C as (_ & _ & M). specialize (M _ _ (in_vx S 0) (in_vx T 0)). rewrite (d2_sym (vx S 0)) in M. cbn [vx] in M. change (dot3 (sub3 (v0 S) (v0 T)) (sub3 (v0 S) (v0 T))) with (d2 (v0 T) (v0 S)). lra. }
  destruct L as (Lm & Lsh & NE0); [unfold pairs9; repeat constructor| |].
  { destruct C as (_ & _ & M). specialize (M _ _ (in_vx S 0) (in_vx T 0)). rewrite (d2_sym (vx S 0)) in M. cbn [vx] in M. change (dot3 (sub3 (v0 S) (v0 T)) (sub3 (v0 S) (v0 T))) with (d2 (v0 T) (v0 S)). lra. }
  assert (no_edges S T) as NE.
  { intros i j x' y' Hi Hj C' Ex Ey. destruct (ee_closest S T i j x' y' Hi Hj C' Ex Ey) as [Ce _]. apply (NE0 i j); auto. unfold pairs9. destruct i as [|[|[|i]]]; [| | |lia]; (destruct j as [|[|[|j]]]; [| | |lia]); cbn; tauto. }
  destruct (face_test S T) as [[r|] sh1] eqn:E1; [apply (face_exact S T r sh1 E1)|].
  destruct (face_test T S) as [[r|] sh2] eqn:E2; [apply is_distance_sym, (face_exact T S r sh2 E2)|].
  destruct (Rlt_dec 0 (d2 x y)) as [P|P].
  - exfalso. destruct (some_face S T x y SS ST NE C P) as [(r & b & E)|(r & b & E)]; rewrite E in *; discriminate.
  - pose proof (d2_pos x y). assert (d2 x y = 0) as Z by lra.
    assert (~ disjoint S T) as ND. { intro D. unfold d2 in Z. apply dot3_zero in Z. assert (y = x) as -> by (unfold sub3, zero3 in Z; injection Z; intros; apply vec3_eq; lra). apply (D x); apply C. }
    destruct (sh || sh1 || sh2) eqn:Es.
    + exfalso. apply orb_true_iff in Es as [Es|Es]; [apply orb_true_iff in Es as [Es|Es]|]; subst; apply ND; [destruct (Lsh eq_refl) as [?|?]; [discriminate|assumption]|apply (face_disjoint S T None E1)|].
      intros z Hz Hz'. apply (face_disjoint T S None E2 z Hz' Hz).
    + exists x, y. split; [exact C|]. unfold norm3. fold (d2 x y). rewrite Z, sqrt_0. reflexivity.
Qed.
