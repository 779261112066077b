(** C56 *)
From Coq Require Import Reals Lra.
From Verif Require Import Vec EdgeEdgeModel EdgeEdgeProofs.
Open Scope R_scope.

(** x is the point at parameter t of the segment from P to Q *)
Definition seg_point (P Q : vec3) (t : R) : vec3 := add3 P (scal3 t (sub3 Q P)).
Theorem C56_segments : forall P1 Q1 P2 Q2 d x y, edge_edge_distance P1 Q1 P2 Q2 = (d, x, y) ->
  (exists t, 0 <= t <= 1 /\ x = seg_point P1 Q1 t) /\ (exists u, 0 <= u <= 1 /\ y = seg_point P2 Q2 u) /\ d = norm3 (sub3 x y) /\
  (forall t u, 0 <= t <= 1 -> 0 <= u <= 1 -> d <= norm3 (sub3 (seg_point P1 Q1 t) (seg_point P2 Q2 u))).
Proof.
  intros P1 Q1 P2 Q2 d x y E. pose proof (edge_edge_ok P1 Q1 P2 Q2) as H. rewrite E in H. destruct H as (t & u & T & U & -> & -> & -> & M).
  split; [eauto|]. split; [eauto|]. split; [reflexivity|]. intros t' u' T' U'. apply sqrt_le_1_alt. apply (M t' u' T' U').
Qed.
Print Assumptions C56_segments.
(** swapping the two segments does not change the distance; zero exactly when the segments meet *)
Theorem C56_symmetric : forall P1 Q1 P2 Q2, fst (fst (edge_edge_distance P1 Q1 P2 Q2)) = fst (fst (edge_edge_distance P2 Q2 P1 Q1)).
Proof.
  assert (S : forall a b, norm3 (sub3 a b) = norm3 (sub3 b a)) by (intros; unfold norm3; f_equal; v3; ring).
  assert (L : forall P1 Q1 P2 Q2, fst (fst (edge_edge_distance P1 Q1 P2 Q2)) <= fst (fst (edge_edge_distance P2 Q2 P1 Q1))).
  { intros P1 Q1 P2 Q2. destruct (edge_edge_distance P1 Q1 P2 Q2) as [[d x] y] eqn:E1. destruct (edge_edge_distance P2 Q2 P1 Q1) as [[d' x'] y'] eqn:E2. cbn.
    apply C56_segments in E1. destruct E1 as (_ & _ & _ & M). apply C56_segments in E2. destruct E2 as ((t & T & ->) & (u & U & ->) & -> & _). rewrite S. auto. }
  intros. apply Rle_antisym; apply L.
Qed.
Print Assumptions C56_symmetric.
Theorem C56_zero : forall P1 Q1 P2 Q2, fst (fst (edge_edge_distance P1 Q1 P2 Q2)) = 0 <-> exists t u, 0 <= t <= 1 /\ 0 <= u <= 1 /\ seg_point P1 Q1 t = seg_point P2 Q2 u.
Proof.
  intros P1 Q1 P2 Q2. destruct (edge_edge_distance P1 Q1 P2 Q2) as [[d x] y] eqn:E1. apply C56_segments in E1. destruct E1 as ((t & T & ->) & (u & U & ->) & -> & M). cbn [fst]. split.
  - intros Z. exists t, u. split; [exact T|]. split; [exact U|]. apply sqrt_eq_0 in Z; [|apply dot3_pos]. apply dot3_zero in Z. revert Z. generalize (seg_point P1 Q1 t) (seg_point P2 Q2 u). intros a b Z. unfold sub3, zero3 in Z. injection Z. intros. apply vec3_eq; lra.
  - intros (t' & u' & T' & U' & Q). specialize (M t' u' T' U'). rewrite Q in M. apply Rle_antisym; [|apply sqrt_pos]. eapply Rle_trans; [exact M|]. right.
    unfold norm3. replace (dot3 _ _) with 0; [apply sqrt_0|]. generalize (seg_point P2 Q2 u'). intros a. v3. ring.
Qed.
Print Assumptions C56_zero.
(** crossing diagonals of a unit square at height 1 above each other *)
Example C56_nonvacuous : fst (fst (edge_edge_distance (0,0,0) (1,1,0) (1,0,1) (0,1,1))) = 1.
Proof.
  unfold edge_edge_distance. cbv zeta. v3.
  repeat (match goal with |- context [if Req_EM_T ?a 0 then _ else _] => destruct (Req_EM_T a 0); [exfalso; lra|] end).
  match goal with |- context [Rlt_dec ?a 0] => replace a with (/2) by field end.
  destruct (Rlt_dec (/2) 0); [exfalso; lra|]. destruct (Rgt_dec (/2) 1); [exfalso; lra|].
  match goal with |- context [Rle_dec ?a 0] => replace a with (/2) by field end.
  destruct (Rle_dec (/2) 0); [exfalso; lra|]. destruct (Rge_dec (/2) 1); [exfalso; lra|]. unfold along.
  destruct (Rle_dec (/2) 0); [exfalso; lra|]. destruct (Rge_dec (/2) 1); [exfalso; lra|]. cbn [fst snd]. unfold norm3. transitivity (sqrt 1); [f_equal; v3; field|apply sqrt_1].
Qed.
