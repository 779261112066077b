From Coq Require Import Reals Lra Psatz.
From Verif Require Import Vec EdgeEdgeModel.
Open Scope R_scope.

Definition on_segment (P Q x : vec3) (t : R) : Prop := 0 <= t <= 1 /\ x = add3 P (scal3 t (sub3 Q P)).
(** squared distance between the points at parameters t and u *)
Definition sqf (P A Q B : vec3) (t u : R) : R := dot3 (sub3 (add3 P (scal3 t A)) (add3 Q (scal3 u B))) (sub3 (add3 P (scal3 t A)) (add3 Q (scal3 u B))).
Ltac v3 := repeat match goal with v : vec3 |- _ => destruct v as [[? ?] ?] end; unfold sqf, dot3, sub3, add3, scal3, X, Y, Zc, zero3 in *; cbn [fst snd] in *.
Lemma dot3_pos a : 0 <= dot3 a a. Proof. v3. nra. Qed.
Lemma dot3_zero a : dot3 a a = 0 -> a = zero3.
Proof. v3. intros H. assert (r = 0) by nra. assert (r1 = 0) by nra. assert (r0 = 0) by nra. congruence. Qed.
Lemma sqf_expand P A Q B t u : let T := sub3 Q P in
  sqf P A Q B t u = dot3 T T + t * t * dot3 A A + u * u * dot3 B B - 2 * t * dot3 A T + 2 * u * dot3 B T - 2 * t * u * dot3 A B.
Proof. cbv zeta. v3. ring. Qed.
(** convexity along a segment *)
Lemma sqf_convex P A Q B t1 u1 t2 u2 l : 0 <= l <= 1 -> sqf P A Q B ((1 - l) * t1 + l * t2) ((1 - l) * u1 + l * u2) <= (1 - l) * sqf P A Q B t1 u1 + l * sqf P A Q B t2 u2.
Proof.
  intros H. assert (E : (1 - l) * sqf P A Q B t1 u1 + l * sqf P A Q B t2 u2 - sqf P A Q B ((1 - l) * t1 + l * t2) ((1 - l) * u1 + l * u2) =
    l * (1 - l) * dot3 (sub3 (scal3 (t1 - t2) A) (scal3 (u1 - u2) B)) (sub3 (scal3 (t1 - t2) A) (scal3 (u1 - u2) B))) by (v3; ring).
  pose proof (dot3_pos (sub3 (scal3 (t1 - t2) A) (scal3 (u1 - u2) B))). assert (0 <= l * (1 - l)) by nra. nra.
Qed.
Definition clamp01 (t : R) : R := if Rle_dec t 0 then 0 else if Rge_dec t 1 then 1 else t.
Lemma clamp01_range t : 0 <= clamp01 t <= 1. Proof. unfold clamp01. destruct Rle_dec; [lra|]. destruct Rge_dec; lra. Qed.
(** the clamped vertex minimises a parabola on [0,1] *)
Lemma clamp01_min a b t : 0 < a -> 0 <= t <= 1 -> let s := clamp01 (b / a) in a * s * s - 2 * b * s <= a * t * t - 2 * b * t.
Proof.
  intros A H. cbv zeta. assert (E : b = a * (b / a)) by (field; lra). revert E. generalize (b / a). intros q ->.
  cut (0 <= a * (t - clamp01 q) * (t + clamp01 q - 2 * q)).
  { generalize (clamp01 q). intros s K. assert (EQ : a * t * t - 2 * (a * q) * t - (a * s * s - 2 * (a * q) * s) = a * (t - s) * (t + s - 2 * q)) by ring. lra. }
  unfold clamp01. destruct Rle_dec; [|destruct Rge_dec].
  - replace (a * (t - 0) * (t + 0 - 2 * q)) with (a * (t * (t - 2 * q))) by ring. apply Rmult_le_pos; [lra|]. apply Rmult_le_pos; lra.
  - replace (a * (t - 1) * (t + 1 - 2 * q)) with (a * ((1 - t) * (2 * q - 1 - t))) by ring. apply Rmult_le_pos; [lra|]. apply Rmult_le_pos; lra.
  - replace (a * (t - q) * (t + q - 2 * q)) with (a * ((t - q) * (t - q))) by ring. apply Rmult_le_pos; [lra|]. pose proof (Rle_0_sqr (t - q)). unfold Rsqr in *. lra.
Qed.
(** minimum over t for a fixed u *)
Lemma min_t P A Q B u t : 0 <= t <= 1 -> dot3 A A <> 0 -> sqf P A Q B (clamp01 ((dot3 A (sub3 Q P) + u * dot3 A B) / dot3 A A)) u <= sqf P A Q B t u.
Proof.
  intros H NZ. pose proof (dot3_pos A). rewrite !sqf_expand. cbv zeta.
  pose proof (clamp01_min (dot3 A A) (dot3 A (sub3 Q P) + u * dot3 A B) t ltac:(lra) H) as M. cbv zeta in M. set (s := clamp01 _) in *. clearbody s. lra.
Qed.
(** the first pair: minimal over [0,1] x R *)
Lemma first_pair P A Q B t u : let T := sub3 Q P in let denom := dot3 A A * dot3 B B - dot3 A B * dot3 A B in dot3 B B <> 0 ->
  let s := clamp01 (if Req_EM_T denom 0 then 0 else (dot3 A T * dot3 B B - dot3 B T * dot3 A B) / denom) in
  0 <= t <= 1 -> sqf P A Q B s ((s * dot3 A B - dot3 B T) / dot3 B B) <= sqf P A Q B t u.
Proof.
  intros T denom NB s H. pose proof (dot3_pos B) as PB. assert (QB : 0 < dot3 B B) by lra.
  assert (CS : 0 <= denom).
  { replace denom with (dot3 (cross3 A B) (cross3 A B)); [apply dot3_pos|]. unfold denom, cross3. clear. v3. ring. }
  (* reduced function *)
  assert (RED : forall t u, dot3 B B * sqf P A Q B t u = (u * dot3 B B - (t * dot3 A B - dot3 B T)) * (u * dot3 B B - (t * dot3 A B - dot3 B T)) +
     (denom * t * t - 2 * (dot3 A T * dot3 B B - dot3 B T * dot3 A B) * t) + (dot3 T T * dot3 B B - dot3 B T * dot3 B T)).
  { intros. unfold denom, T. rewrite sqf_expand. cbv zeta. ring. }
  apply (Rmult_le_reg_l (dot3 B B)); [exact QB|]. rewrite (RED s), (RED t u).
  replace ((s * dot3 A B - dot3 B T) / dot3 B B * dot3 B B) with (s * dot3 A B - dot3 B T) by (field; lra).
  replace (_ - _) with 0 by ring. set (w := u * dot3 B B - (t * dot3 A B - dot3 B T)). pose proof (Rle_0_sqr w) as W. unfold Rsqr in W.
  cut (denom * s * s - 2 * (dot3 A T * dot3 B B - dot3 B T * dot3 A B) * s <= denom * t * t - 2 * (dot3 A T * dot3 B B - dot3 B T * dot3 A B) * t); [lra|].
  unfold s in *. destruct (Req_EM_T denom 0) as [D|D].
  - assert (Z : sub3 (scal3 (dot3 B B) A) (scal3 (dot3 A B) B) = zero3).
    { apply dot3_zero. replace (dot3 _ _) with (dot3 B B * denom) by (unfold denom; clear; v3; ring). rewrite D. ring. }
    assert (K : dot3 A T * dot3 B B - dot3 B T * dot3 A B = 0).
    { replace (dot3 A T * dot3 B B - dot3 B T * dot3 A B) with (dot3 (sub3 (scal3 (dot3 B B) A) (scal3 (dot3 A B) B)) T) by (clearbody T; clear; v3; ring). rewrite Z. clearbody T. clear. v3. ring. }
    rewrite K, D. lra.
  - apply clamp01_min; lra.
Qed.
(** crossing the line u = 0 or u = 1 *)
Lemma cross_line P A Q B c t1 u1 t u m : 0 <= t1 <= 1 -> 0 <= t <= 1 -> sqf P A Q B t1 u1 <= sqf P A Q B t u -> (forall s, 0 <= s <= 1 -> m <= sqf P A Q B s c) ->
  (u1 <= c <= u \/ u <= c <= u1) -> m <= sqf P A Q B t u.
Proof.
  intros H1 H LE M C. destruct (Req_EM_T u1 u) as [E|NE].
  - assert (Hc : u = c) by lra. rewrite Hc. apply M. exact H.
  - set (l := (c - u1) / (u - u1)). assert (L : 0 <= l <= 1).
    { unfold l. destruct C as [C|C].
      - assert (0 < u - u1) by lra. split; [apply Rmult_le_pos; [lra|left; now apply Rinv_0_lt_compat]|]. apply (Rmult_le_reg_r (u - u1)); [lra|]. unfold Rdiv. rewrite Rmult_assoc, Rinv_l; lra.
      - assert (0 < u1 - u) by lra. replace ((c - u1) / (u - u1)) with ((u1 - c) / (u1 - u)) by (field; lra). split; [apply Rmult_le_pos; [lra|left; now apply Rinv_0_lt_compat]|]. apply (Rmult_le_reg_r (u1 - u)); [lra|]. unfold Rdiv. rewrite Rmult_assoc, Rinv_l; lra. }
    pose proof (sqf_convex P A Q B t1 u1 t u l L) as CV. replace ((1 - l) * u1 + l * u) with c in CV by (unfold l; field; lra).
    assert (0 <= (1 - l) * t1 + l * t <= 1) by nra. pose proof (M _ H0). nra.
Qed.
Lemma along_clamp P A x y : exists t, 0 <= t <= 1 /\ along P A (npdiv x y) = add3 P (scal3 t A) /\ (y <> 0 -> t = clamp01 (x / y)).
Proof.
  unfold npdiv, along, clamp01. destruct Req_EM_T as [E|E]; [exists 0|destruct Rle_dec; [exists 0|destruct Rge_dec; [exists 1|exists (x / y)]]]; (split; [lra|split; [|tauto]]); try reflexivity; clear; apply vec3_eq; v3; ring.
Qed.
Lemma along_some P A t : along P A (Some t) = add3 P (scal3 (clamp01 t) A).
Proof. unfold along, clamp01. destruct Rle_dec; [|destruct Rge_dec]; try reflexivity; apply vec3_eq; v3; ring. Qed.
Lemma sub3_zero_norm P A t : A = zero3 -> add3 P (scal3 t A) = P.
Proof. intros ->. apply vec3_eq; v3; ring. Qed.
Lemma edge_edge_ok P1 Q1 P2 Q2 : let '(d, x, y) := edge_edge_distance P1 Q1 P2 Q2 in
  exists t u, 0 <= t <= 1 /\ 0 <= u <= 1 /\ x = add3 P1 (scal3 t (sub3 Q1 P1)) /\ y = add3 P2 (scal3 u (sub3 Q2 P2)) /\ d = norm3 (sub3 x y) /\
    forall t' u', 0 <= t' <= 1 -> 0 <= u' <= 1 -> sqf P1 (sub3 Q1 P1) P2 (sub3 Q2 P2) t u <= sqf P1 (sub3 Q1 P1) P2 (sub3 Q2 P2) t' u'.
Proof.
  unfold edge_edge_distance. cbv zeta. generalize (sub3 Q1 P1) (sub3 Q2 P2). intros A B. rename P1 into P, P2 into Q.
  set (T := sub3 Q P). set (denom := dot3 A A * dot3 B B - dot3 A B * dot3 A B).
  set (t0 := if Req_EM_T denom 0 then 0 else (dot3 A T * dot3 B B - dot3 B T * dot3 A B) / denom).
  assert (CL : (if Rlt_dec t0 0 then 0 else if Rgt_dec t0 1 then 1 else t0) = clamp01 t0) by (unfold clamp01; repeat (destruct Rlt_dec || destruct Rle_dec || destruct Rgt_dec || destruct Rge_dec); lra).
  rewrite CL. set (s := clamp01 t0). assert (SR := clamp01_range t0). fold s in SR.
  set (u0 := if Req_EM_T (dot3 B B) 0 then 0 else (s * dot3 A B - dot3 B T) / dot3 B B).
  assert (FP : dot3 B B <> 0 -> forall t u, 0 <= t <= 1 -> sqf P A Q B s u0 <= sqf P A Q B t u).
  { intros NB t u H. unfold u0. destruct (Req_EM_T (dot3 B B) 0); [contradiction|]. exact (first_pair P A Q B t u NB H). }
  assert (SMALL : forall c t, 0 <= t <= 1 -> (dot3 A A <> 0 -> t = clamp01 ((dot3 A T + c * dot3 A B) / dot3 A A)) -> forall t', 0 <= t' <= 1 -> sqf P A Q B t c <= sqf P A Q B t' c).
  { intros c t H E t' H'. destruct (Req_EM_T (dot3 A A) 0) as [Z|Z].
    - apply dot3_zero in Z. unfold sqf. rewrite !(sub3_zero_norm P A _ Z). lra.
    - rewrite (E Z). apply min_t; auto. }
  assert (BZ : dot3 B B = 0 -> forall t u u', sqf P A Q B t u = sqf P A Q B t u').
  { intros Z t u u'. apply dot3_zero in Z. unfold sqf. rewrite !(sub3_zero_norm Q B _ Z). reflexivity. }
  destruct (Rle_dec u0 0) as [L0|L0]; [|destruct (Rge_dec u0 1) as [L1|L1]]; cbn [fst snd].
  - destruct (along_clamp P A (dot3 A T) (dot3 A A)) as (t & TR & E & TC). exists t, 0. split; [exact TR|]. split; [lra|]. split; [exact E|]. split; [apply vec3_eq; clear; v3; ring|]. split; [reflexivity|].
    assert (M : forall t', 0 <= t' <= 1 -> sqf P A Q B t 0 <= sqf P A Q B t' 0) by (apply SMALL; auto; intros Z; rewrite (TC Z); f_equal; f_equal; ring).
    intros t' u' H H'. destruct (Req_EM_T (dot3 B B) 0) as [Z|Z]; [rewrite (BZ Z t' u' 0); auto|].
    apply (cross_line P A Q B 0 s u0 t' u' _ SR H (FP Z t' u' H) M). left. lra.
  - destruct (along_clamp P A (dot3 A T + dot3 A B) (dot3 A A)) as (t & TR & E & TC). exists t, 1. split; [exact TR|]. split; [lra|]. split; [exact E|]. split; [apply vec3_eq; clear; v3; ring|]. split; [reflexivity|].
    assert (M : forall t', 0 <= t' <= 1 -> sqf P A Q B t 1 <= sqf P A Q B t' 1) by (apply SMALL; auto; intros Z; rewrite (TC Z); f_equal; f_equal; ring).
    intros t' u' H H'. destruct (Req_EM_T (dot3 B B) 0) as [Z|Z]; [rewrite (BZ Z t' u' 1); auto|].
    apply (cross_line P A Q B 1 s u0 t' u' _ SR H (FP Z t' u' H) M). right. lra.
  - assert (Z : dot3 B B <> 0) by (intros Z; unfold u0 in L0; destruct (Req_EM_T (dot3 B B) 0); [lra|contradiction]).
    exists s, u0. split; [exact SR|]. split; [lra|]. split; [rewrite along_some; f_equal; f_equal; unfold clamp01; destruct Rle_dec; [lra|]; destruct Rge_dec; lra|]. split; [reflexivity|]. split; [reflexivity|].
    intros t' u' H H'. apply FP; auto.
Qed.
