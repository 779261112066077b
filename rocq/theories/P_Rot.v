(** C48 *)
From Coq Require Import Reals Lra Psatz.
From Verif Require Import Vec RotModel EdgeEdgeProofs.
Open Scope R_scope.

(** *** specification: 2x2 and 3x3 matrices by rows *)
Definition app2 (M : mat2) (x : vec2) : vec2 := (dot2 (fst M) x, dot2 (snd M) x).
Definition app3 (M : mat3) (x : vec3) : vec3 := (dot3 (fst (fst M)) x, dot3 (snd (fst M)) x, dot3 (snd M) x).
Definition is_rotation2 (M : mat2) : Prop := dot2 (fst M) (fst M) = 1 /\ dot2 (snd M) (snd M) = 1 /\ dot2 (fst M) (snd M) = 0 /\ det2 (fst M) (snd M) = 1.
Definition orthogonal3 (M : mat3) : Prop := let r0 := fst (fst M) in let r1 := snd (fst M) in let r2 := snd M in
  dot3 r0 r0 = 1 /\ dot3 r1 r1 = 1 /\ dot3 r2 r2 = 1 /\ dot3 r0 r1 = 0 /\ dot3 r0 r2 = 0 /\ dot3 r1 r2 = 0.
Definition det3 (M : mat3) : R := dot3 (fst (fst M)) (cross3 (snd (fst M)) (snd M)).
Definition is_rotation3 (M : mat3) : Prop := orthogonal3 M /\ det3 M = 1.

Lemma sq1 d : d * d = 1 -> d = 1 \/ d = -1.
Proof. intros H. destruct (Rmult_integral (d - 1) (d + 1)) as [E|E]; [lra|left; lra|right; lra]. Qed.
Lemma sq_le1 d : d * d <= 1 -> -1 <= d <= 1.
Proof. intros H. split; apply Rnot_lt_le; intros L; nra. Qed.
Ltac v2 := repeat match goal with v : vec2 |- _ => destruct v as [? ?] end; unfold app2, dot2, det2, scal2, sub2, add2, neg2, eye2 in *; cbn [fst snd] in *.
Ltac pe := repeat match goal with |- (_, _) = (_, _) => apply f_equal2 end; ring.
Ltac m3 := unfold app3, is_rotation3, orthogonal3, det3, madd, mscal, mmul, rowmul, col, neg3, eye3, cross3 in *; v3.

Lemma norm2_unit v : v <> (0, 0) -> dot2 (normalized2 v) (normalized2 v) = 1.
Proof.
  intros H. unfold normalized2. assert (P : 0 < dot2 v v). { destruct v as [x y]. unfold dot2. cbn. assert (x <> 0 \/ y <> 0) by (destruct (Req_dec x 0), (Req_dec y 0); subst; auto). nra. }
  replace (dot2 _ _) with (/ norm2 v * / norm2 v * dot2 v v) by (v2; ring). unfold norm2. assert (S : sqrt (dot2 v v) * sqrt (dot2 v v) = dot2 v v) by (apply sqrt_sqrt; lra).
  assert (0 < sqrt (dot2 v v)) by (apply sqrt_lt_R0; lra). rewrite <- S at 3. field. lra.
Qed.
Lemma norm3_unit v : v <> zero3 -> dot3 (normalized3 v) (normalized3 v) = 1.
Proof.
  intros H. unfold normalized3. assert (P : 0 < dot3 v v). { pose proof (dot3_pos v). destruct (Req_dec (dot3 v v) 0) as [E|E]; [apply dot3_zero in E; contradiction|lra]. }
  replace (dot3 _ _) with (/ norm3 v * / norm3 v * dot3 v v) by (unfold norm3; generalize (sqrt (dot3 v v)); intros; v3; ring). unfold norm3. assert (S : sqrt (dot3 v v) * sqrt (dot3 v v) = dot3 v v) by (apply sqrt_sqrt; lra).
  assert (0 < sqrt (dot3 v v)) by (apply sqrt_lt_R0; lra). rewrite <- S at 3. field. lra.
Qed.
(** two dimensions: every pair of non-zero vectors *)
Theorem C48_2d : forall v w : vec2, v <> (0, 0) -> w <> (0, 0) ->
  is_rotation2 (rotation2 v w) /\ app2 (rotation2 v w) (normalized2 v) = normalized2 w.
Proof.
  intros v w Hv Hw. apply norm2_unit in Hv, Hw. unfold rotation2. revert Hv Hw. generalize (normalized2 v) (normalized2 w). clear v w. intros a b Ha Hb. cbv zeta.
  assert (L : dot2 a b * dot2 a b + det2 a b * det2 a b = 1) by (replace 1 with (dot2 a a * dot2 b b) by (rewrite Ha, Hb; ring); v2; ring).
  assert (E1 : forall c s, c = dot2 a b -> s = det2 a b -> app2 ((c, - s), (s, c)) a = b).
  { intros c s -> ->. assert (Q : app2 ((dot2 a b, - det2 a b), (det2 a b, dot2 a b)) a = scal2 (dot2 a a) b) by (destruct a, b; unfold app2, dot2, det2, scal2; cbn; f_equal; ring). rewrite Q, Ha. destruct b; unfold scal2; cbn; f_equal; ring. }
  assert (E2 : forall c s, c = dot2 a b -> s = det2 a b -> is_rotation2 ((c, - s), (s, c))).
  { assert (G : forall c s, c * c + s * s = 1 -> is_rotation2 ((c, - s), (s, c))) by (intros; unfold is_rotation2, dot2, det2; cbn [fst snd]; repeat split; lra). intros c s -> ->. apply G. lra. }
  assert (SA : forall c s (M : mat2), M = ((c, -s), (s, c)) -> c = dot2 a b -> s = det2 a b -> is_rotation2 M /\ app2 M a = b) by (intros c s M -> A B; auto).
  destruct (Req_EM_T (det2 a b) 0) as [D|D].
  - rewrite D in L. destruct (Rlt_dec (dot2 a b) 0).
    + assert (dot2 a b = -1) by (destruct (sq1 (dot2 a b)); lra). apply (SA (-1) 0); [unfold neg2, eye2, scal2; cbn; repeat f_equal; ring|lra|lra].
    + assert (dot2 a b = 1) by (destruct (sq1 (dot2 a b)); lra). apply (SA 1 0); [unfold eye2; repeat f_equal; ring|lra|lra].
  - assert (B : -1 <= dot2 a b <= 1) by (apply sq_le1; pose proof (Rle_0_sqr (det2 a b)); unfold Rsqr in *; lra). pose proof (sin_acos _ B) as S. pose proof (cos_acos _ B) as C.
    destruct (Rlt_dec (det2 a b) 0) as [N|N].
    + apply (SA (cos (- acos (dot2 a b))) (sin (- acos (dot2 a b)))); [reflexivity| |]; rewrite ?cos_neg, ?sin_neg; [exact C|]. rewrite S.
      replace (1 - (dot2 a b)²) with ((- det2 a b)²) by (unfold Rsqr; lra). rewrite sqrt_Rsqr; lra.
    + apply (SA (cos (acos (dot2 a b))) (sin (acos (dot2 a b)))); [reflexivity|exact C|]. rewrite S.
      replace (1 - (dot2 a b)²) with ((det2 a b)²) by (unfold Rsqr; lra). rewrite sqrt_Rsqr; lra.
Qed.
Print Assumptions C48_2d.

Definition skew (v : vec3) : mat3 := ((0, - Zc v, Y v), (Zc v, 0, - X v), (- Y v, X v, 0)).
Definition rod (v : vec3) (k : R) : mat3 := madd (madd eye3 (skew v)) (mscal k (mmul (skew v) (skew v))).
Lemma rod_expand x y z k : rod (x, y, z) k =
  ((1 - k * (y * y + z * z), k * x * y - z, k * x * z + y), (k * x * y + z, 1 - k * (x * x + z * z), k * y * z - x), (k * x * z - y, k * y * z + x, 1 - k * (x * x + y * y))).
Proof. unfold rod, skew, madd, mscal, mmul, rowmul, col, eye3, add3, scal3, dot3, X, Y, Zc. cbn [fst snd]. pe. Qed.
Lemma rod_rotation v k c : 2 * k - k * k * dot3 v v = 1 -> k * dot3 v v = 1 - c -> c * c + dot3 v v = 1 -> is_rotation3 (rod v k).
Proof.
  destruct v as [[x y] w]. rewrite rod_expand. intros K1 K2 K3. split.
  - set (z := 2 * k - k * k * dot3 (x, y, w) (x, y, w) - 1). assert (Z : z = 0) by (unfold z; lra). unfold orthogonal3; cbv zeta.
    assert (D : forall i j (r : R), i = r + z * j -> i = r) by (intros i j r; rewrite Z; lra).
    repeat split; (eapply (D _ _ _)); [instantiate (1 := - (y * y + w * w))|instantiate (1 := - (x * x + w * w))|instantiate (1 := - (x * x + y * y))|instantiate (1 := x * y)|instantiate (1 := x * w)|instantiate (1 := y * w)]; unfold z, dot3, X, Y, Zc; cbn [fst snd]; ring.
  - transitivity ((1 - k * dot3 (x,y,w) (x,y,w)) * (1 - k * dot3 (x,y,w) (x,y,w)) + dot3 (x,y,w) (x,y,w)); [unfold det3, dot3, cross3, X, Y, Zc; cbn [fst snd]; ring|]. rewrite K2. lra.
Qed.
Lemma rod_maps a b k : dot3 a a = 1 -> dot3 b b = 1 -> k * dot3 (cross3 a b) (cross3 a b) = 1 - dot3 a b -> app3 (rod (cross3 a b) k) a = b.
Proof.
  intros A B K.
  assert (E : app3 (rod (cross3 a b) k) a = add3 a (add3 (sub3 (scal3 (dot3 a a) b) (scal3 (dot3 a b) a)) (scal3 (- (k * dot3 (cross3 a b) (cross3 a b))) a))) by (clear; destruct (cross3 a b) as [[x y] z] eqn:Q; rewrite rod_expand; destruct a as [[a0 a1] a2], b as [[b0 b1] b2]; unfold cross3, X, Y, Zc in Q; cbn [fst snd] in Q; injection Q as <- <- <-; unfold app3, add3, sub3, scal3, dot3, X, Y, Zc; cbn [fst snd]; pe).
  rewrite E, K, A. apply vec3_eq; clear; v3; ring.
Qed.
Lemma lagrange a b : dot3 a a = 1 -> dot3 b b = 1 -> dot3 a b * dot3 a b + dot3 (cross3 a b) (cross3 a b) = 1.
Proof. intros A B. replace 1 with (dot3 a a * dot3 b b) by (rewrite A, B; ring). clear. m3. ring. Qed.
Lemma rotation3_cases v w : let a := normalized3 v in let b := normalized3 w in
  (cross3 a b = zero3 /\ rotation3 v w = if Rlt_dec (dot3 a b) 0 then neg3 eye3 else eye3) \/
  (cross3 a b <> zero3 /\ rotation3 v w = rod (cross3 a b) ((1 - dot3 a b) / (norm3 (cross3 a b) * norm3 (cross3 a b)))).
Proof.
  intros a b. unfold rotation3. fold a b. cbv zeta. set (c := cross3 a b).
  destruct (Req_EM_T (X c) 0) as [Hx|Hx]; [destruct (Req_EM_T (Y c) 0) as [Hy|Hy]; [destruct (Req_EM_T (Zc c) 0) as [Hz|Hz]|]|]; [left; split; [apply vec3_eq; auto|reflexivity]|..]; (right; split; [intros E; rewrite E in *; cbn in *; lra|reflexivity]).
Qed.
(** three dimensions: every pair of non-zero vectors that does not point in opposite directions *)
Theorem C48_3d_partial : forall v w : vec3, v <> zero3 -> w <> zero3 -> dot3 (normalized3 v) (normalized3 w) <> -1 ->
  is_rotation3 (rotation3 v w) /\ app3 (rotation3 v w) (normalized3 v) = normalized3 w.
Proof.
  intros v w Hv Hw NA. apply norm3_unit in Hv, Hw. destruct (rotation3_cases v w) as [(Z & ->)|(NZ & ->)]; revert NA Hv Hw.
  - revert Z. generalize (normalized3 v) (normalized3 w). intros a b Z NA Ha Hb. pose proof (lagrange a b Ha Hb) as L. rewrite Z in L. replace (dot3 zero3 zero3) with 0 in L by (clear; v3; ring).
    assert (C : dot3 a b = 1) by (destruct (sq1 (dot3 a b)); lra). destruct Rlt_dec; [lra|]. split; [clear; m3; repeat split; ring|].
    assert (E : b = a). { assert (S : sub3 b a = zero3) by (apply dot3_zero; replace (dot3 _ _) with (dot3 a a + dot3 b b - 2 * dot3 a b) by (clear; v3; ring); lra). unfold sub3, zero3 in S. injection S. intros. apply vec3_eq; lra. }
    subst b. clear. apply vec3_eq; m3; ring.
  - revert NZ. generalize (normalized3 v) (normalized3 w). intros a b NZ NA Ha Hb. pose proof (lagrange a b Ha Hb) as L.
    assert (P : 0 < dot3 (cross3 a b) (cross3 a b)) by (pose proof (dot3_pos (cross3 a b)); destruct (Req_dec (dot3 (cross3 a b) (cross3 a b)) 0) as [E|E]; [apply dot3_zero in E; contradiction|lra]).
    assert (S : norm3 (cross3 a b) * norm3 (cross3 a b) = dot3 (cross3 a b) (cross3 a b)) by (apply sqrt_sqrt; lra). rewrite S.
    set (q := dot3 (cross3 a b) (cross3 a b)) in *. set (k := (1 - dot3 a b) / q).
    assert (K : k * q = 1 - dot3 a b) by (unfold k; field; lra). split.
    + apply (rod_rotation _ k (dot3 a b)); fold q; auto. apply (Rmult_eq_reg_r q); [|lra]. replace ((2 * k - k * k * q) * q) with (2 * (k * q) - (k * q) * (k * q)) by ring. rewrite K. lra.
    + apply rod_maps; auto.
Qed.
Print Assumptions C48_3d_partial.
(** opposite directions in 3D: the result is the point reflection -I, not a rotation *)
Theorem C48_3d_refuted : forall (v : vec3) (s : R), v <> zero3 -> 0 < s ->
  rotation3 v (scal3 (- s) v) = neg3 eye3 /\ orthogonal3 (rotation3 v (scal3 (- s) v)) /\ det3 (rotation3 v (scal3 (- s) v)) = -1 /\
  app3 (rotation3 v (scal3 (- s) v)) (normalized3 v) = normalized3 (scal3 (- s) v).
Proof.
  intros v s Hv S. assert (U := norm3_unit v Hv).
  assert (P : 0 < dot3 v v) by (pose proof (dot3_pos v); destruct (Req_dec (dot3 v v) 0) as [E|E]; [apply dot3_zero in E; contradiction|lra]).
  assert (N : normalized3 (scal3 (- s) v) = scal3 (-1) (normalized3 v)).
  { unfold normalized3. assert (E : norm3 (scal3 (- s) v) = s * norm3 v). { unfold norm3. replace (dot3 _ _) with (s * s * dot3 v v) by (clear; v3; ring). rewrite sqrt_mult; [|nra|lra]. rewrite sqrt_square; lra. }
    rewrite E. assert (0 < norm3 v) by (apply sqrt_lt_R0; lra). set (n := norm3 v) in *. clearbody n. apply vec3_eq; clear U; v3; field; split; lra. }
  assert (R : rotation3 v (scal3 (- s) v) = neg3 eye3).
  { destruct (rotation3_cases v (scal3 (- s) v)) as [(_ & ->)|(NZ & _)].
    - rewrite N. destruct Rlt_dec as [L|L]; [reflexivity|]. exfalso. apply L. replace (dot3 _ _) with (- dot3 (normalized3 v) (normalized3 v)) by (generalize (normalized3 v); clear; intros; v3; ring). lra.
    - exfalso. apply NZ. rewrite N. generalize (normalized3 v). clear. intros a. apply vec3_eq; unfold cross3; v3; ring. }
  rewrite R. split; [reflexivity|]. split; [clear; m3; repeat split; ring|]. split; [clear; m3; ring|]. rewrite N. generalize (normalized3 v). clear. intros. apply vec3_eq; m3; ring.
Qed.
Print Assumptions C48_3d_refuted.
Example C48_nonvacuous : (1,0,0) <> zero3 /\ (0,1,0) <> zero3 /\ dot3 (normalized3 (1,0,0)) (normalized3 (0,1,0)) <> -1.
Proof. repeat split; try (intros E; injection E; intros; lra). unfold normalized3. replace (dot3 _ _) with 0; [lra|]. v3. ring. Qed.
