From Verif Require Import PyExn Vec MatModel MatProofs GeomModel GeomSpec.
From Coq Require Import Psatz.
Open Scope R_scope.

(** ** areas *)
Definition heron (a b c : R) : R := 2*a*b + 2*b*c + 2*c*a - a*a - b*b - c*c.

Lemma dblA_heron a b c : 0 <= a -> 0 <= b -> 0 <= c -> dblA (a,b,c) = 0.5 * sqrt (Rmax (heron a b c) 0).
Proof.
  intros Ha Hb Hc. unfold dblA, X, Y, Zc; cbn. f_equal. f_equal. f_equal. unfold heron.
  pose proof (sqrt_def a Ha) as A. pose proof (sqrt_def b Hb) as B. pose proof (sqrt_def c Hc) as C.
  set (x := sqrt a) in *. set (y := sqrt b) in *. set (z := sqrt c) in *. clearbody x y z. subst. ring.
Qed.

Lemma dblA_nonneg l : 0 <= dblA l.
Proof. unfold dblA. apply Rmult_le_pos; [lra | apply sqrt_pos]. Qed.

Lemma dblA_sq a b c : 0 <= a -> 0 <= b -> 0 <= c -> 0 <= heron a b c -> 4 * (dblA (a,b,c) * dblA (a,b,c)) = heron a b c.
Proof.
  intros Ha Hb Hc H. rewrite dblA_heron by auto. rewrite Rmax_left by lra.
  pose proof (sqrt_def _ H). nra.
Qed.
Lemma dblA_pos_heron a b c : 0 <= a -> 0 <= b -> 0 <= c -> dblA (a,b,c) <> 0 -> 0 < heron a b c.
Proof.
  intros Ha Hb Hc N. destruct (Rlt_le_dec 0 (heron a b c)); auto. exfalso. apply N.
  rewrite dblA_heron by auto. rewrite Rmax_right by lra. rewrite sqrt_0. lra.
Qed.

Lemma dotl_comm a b : dotl a b = dotl b a.
Proof. revert b; induction a as [|x a IH]; intros [|y b]; cbn; auto. rewrite IH; lra. Qed.
Lemma dotl_nonneg a : 0 <= dotl a a.
Proof. induction a; cbn; [lra|]. pose proof (Rle_0_sqr a). unfold Rsqr in *. lra. Qed.
Lemma sqlen_nonneg a b : 0 <= sqlen a b.
Proof. apply dotl_nonneg. Qed.
Lemma sqlen_sym a b : sqlen a b = sqlen b a.
Proof.
  unfold sqlen. revert b; induction a as [|x a IH]; intros [|y b]; cbn; auto. rewrite IH. lra.
Qed.
(** law of cosines for rows of equal length *)
Lemma sqlen_cos p q r : length p = length q -> length q = length r ->
  sqlen q r = sqlen p q + sqlen p r - 2 * dotl (subl q p) (subl r p).
Proof.
  unfold sqlen. revert q r; induction p as [|x p IH]; intros [|y q] [|z r]; cbn; try discriminate; [lra|].
  intros L1 L2. rewrite (IH q r) by congruence. ring.
Qed.
Lemma subl_len a b : length a = length b -> length (subl a b) = length a.
Proof. revert b; induction a as [|x a IH]; intros [|y b]; cbn; auto; discriminate. Qed.
Lemma cauchy_schwarz a b : length a = length b -> dotl a b * dotl a b <= dotl a a * dotl b b.
Proof.
  revert b; induction a as [|x a IH]; intros [|y b] L; cbn; try discriminate; [lra|].
  injection L as L. specialize (IH b L).
  pose proof (dotl_nonneg a) as A. pose proof (dotl_nonneg b) as B.
  set (p := dotl a b) in *. set (q := dotl a a) in *. set (r := dotl b b) in *. clearbody p q r.
  (* need 2xyp <= x²r + y²q *)
  assert (2 * (x * y) * p <= x*x*r + y*y*q); [|nra].
  destruct (Req_dec q 0) as [->|Nq].
  - assert (p = 0) by nra. subst p. nra.
  - assert (0 < q) by lra. assert (0 <= q * (x*x*r + y*y*q - 2*(x*y)*p)); [|nra].
    assert (0 <= (x*p - y*q)*(x*p - y*q)) by apply Rle_0_sqr. nra.
Qed.

(** area via the Gram determinant, any dimension *)
Lemma doublearea_gram V t : length (V (c0 t)) = length (V (c1 t)) -> length (V (c0 t)) = length (V (c2 t)) ->
  doublearea V t = sqrt (gram (subl (V (c1 t)) (V (c0 t))) (subl (V (c2 t)) (V (c0 t)))).
Proof.
  intros L1 L2. unfold doublearea, lsq_face. rewrite dblA_heron by apply sqlen_nonneg.
  set (p := V (c0 t)) in *. set (q := V (c1 t)) in *. set (r := V (c2 t)) in *.
  rewrite (sqlen_sym r q), (sqlen_cos p q r) by congruence.
  set (d := dotl (subl q p) (subl r p)).
  assert (G : heron (sqlen p q + sqlen p r - 2 * d) (sqlen p r) (sqlen q p) = 4 * gram (subl q p) (subl r p)).
  { rewrite (sqlen_sym q p). unfold heron, gram. fold (sqlen q p). fold (sqlen r p). rewrite (sqlen_sym q p), (sqlen_sym r p). fold d. ring. }
  rewrite G.
  assert (CS : 0 <= gram (subl q p) (subl r p)).
  { unfold gram. pose proof (cauchy_schwarz (subl q p) (subl r p)). rewrite !subl_len in H by congruence. specialize (H ltac:(congruence)). lra. }
  rewrite Rmax_left by lra. rewrite sqrt_mult by lra. replace 4 with (2*2) by ring. rewrite sqrt_square by lra. lra.
Qed.

Lemma doublearea_3d (V : Z -> vec3) t :
  doublearea (fun i => row_of3 (V i)) t = norm3 (cross3 (sub3 (V (c1 t)) (V (c0 t))) (sub3 (V (c2 t)) (V (c0 t)))).
Proof.
  rewrite doublearea_gram by reflexivity. unfold norm3. f_equal. unfold gram, row_of3, dot3, cross3, sub3; cbn. unfold X, Y, Zc; cbn. ring.
Qed.
Lemma doublearea_2d (V : Z -> vec2) t :
  doublearea (fun i => row_of2 (V i)) t = Rabs (det2 (sub2 (V (c1 t)) (V (c0 t))) (sub2 (V (c2 t)) (V (c0 t)))).
Proof.
  rewrite doublearea_gram by reflexivity. rewrite <- sqrt_Rsqr_abs. f_equal.
  unfold gram, row_of2, det2, sub2, Rsqr; cbn. ring.
Qed.
Lemma doublearea_signed V t : doublearea_signed2 V t = det2 (sub2 (V (c1 t)) (V (c0 t))) (sub2 (V (c2 t)) (V (c0 t))).
Proof. unfold doublearea_signed2, det2, sub2; cbn. ring. Qed.

Lemma heron_sym1 a b c : heron a b c = heron b a c. Proof. unfold heron; ring. Qed.
Lemma heron_sym2 a b c : heron a b c = heron a c b. Proof. unfold heron; ring. Qed.
Lemma doublearea_perm V a b c : doublearea V (a,b,c) = doublearea V (b,a,c) /\ doublearea V (a,b,c) = doublearea V (b,c,a).
Proof.
  unfold doublearea, lsq_face, c0, c1, c2; cbn. rewrite !dblA_heron by apply sqlen_nonneg.
  rewrite (sqlen_sym (V c) (V a)), (sqlen_sym (V b) (V a)), (sqlen_sym (V c) (V b)).
  split; do 3 f_equal; unfold heron; ring.
Qed.

Lemma volume_det V a b c d : volume V (a,b,c,d) = det3 (sub3 (V b) (V a)) (sub3 (V c) (V a)) (sub3 (V d) (V a)) / 6.
Proof. unfold volume, det3, dot3, cross3, sub3, X, Y, Zc; cbn. field. Qed.
Lemma volume_flip V a b c d : volume V (b,a,c,d) = - volume V (a,b,c,d) /\ volume V (a,c,b,d) = - volume V (a,b,c,d)
  /\ volume V (a,b,d,c) = - volume V (a,b,c,d).
Proof. unfold volume, dot3, cross3, sub3, X, Y, Zc; cbn. repeat split; field. Qed.
Lemma volume_translate V w t : volume (fun i => add3 (V i) w) t = volume V t.
Proof. destruct t as [[[a b] c] d]. unfold volume, dot3, cross3, sub3, add3, X, Y, Zc; cbn. field. Qed.

(** ** cotangent Laplacian *)
Definition lap_blocks (L : faces_lsq) : list trip :=
  let blk (r c : tri -> Z) (v : r3 -> R) := map (fun p => (r (fst p), c (fst p), v (cotw (snd p)))) L in
    blk c0 c1 (fun C => - Zc C) ++ blk c1 c0 (fun C => - Zc C) ++
    blk c1 c2 (fun C => - X C) ++ blk c2 c1 (fun C => - X C) ++
    blk c2 c0 (fun C => - Y C) ++ blk c0 c2 (fun C => - Y C) ++
    blk c0 c0 (fun C => Y C + Zc C) ++ blk c1 c1 (fun C => Zc C + X C) ++ blk c2 c2 (fun C => X C + Y C).

Ltac in_blocks I :=
  repeat (rewrite in_app_iff in I); repeat rewrite in_map_iff in I;
  repeat match type of I with _ \/ _ => destruct I as [I|I] end;
  destruct I as (? & <- & ?I).
Lemma lap_shape n L : valid n (map fst L) -> forall t, In t (lap_blocks L) -> (0 <= trow t < n)%Z /\ (0 <= tcol t < n)%Z.
Proof.
  intros Va t I. unfold lap_blocks in I.
  in_blocks I; match goal with H : In ?p L |- _ => destruct (Va (fst p) (in_map _ _ _ H)) as (A & B & C) end; cbn; tauto.
Qed.

(** per-face sum of a weighting over the nine triplets *)
Lemma sum_blocks9 (w : trip -> R) L :
  sumf w (lap_blocks L) = sumf (fun p => let t := fst p in let C := cotw (snd p) in
     w (c0 t, c1 t, - Zc C) + w (c1 t, c0 t, - Zc C) + w (c1 t, c2 t, - X C) + w (c2 t, c1 t, - X C)
     + w (c2 t, c0 t, - Y C) + w (c0 t, c2 t, - Y C)
     + w (c0 t, c0 t, Y C + Zc C) + w (c1 t, c1 t, Zc C + X C) + w (c2 t, c2 t, X C + Y C)) L.
Proof.
  unfold lap_blocks. repeat rewrite sumf_app. repeat rewrite sumf_map. repeat rewrite <- sumf_plus.
  apply sumf_ext. intros p _. cbn. ring.
Qed.

Lemma lap_sym L i j : entry (lap_blocks L) i j = entry (lap_blocks L) j i.
Proof.
  unfold entry. rewrite !sum_blocks9. apply sumf_ext. intros [t l] _. cbn zeta. cbn [fst snd].
  unfold trow, tcol, tval; cbn.
  rewrite !(andb_comm (_ =? i)%Z). ring.
Qed.
Lemma lap_const n L i : valid (Z.of_nat n) (map fst L) -> mulv n (lap_blocks L) (fun _ => 1) i = 0.
Proof.
  intros Va. rewrite mulv_trip by (intros t I; apply (lap_shape _ _ Va t I)).
  rewrite sum_blocks9. apply sumf_zero. intros [t l] _. cbn zeta; cbn [fst snd]. unfold trow, tcol, tval; cbn.
  destruct (c0 t =? i)%Z, (c1 t =? i)%Z, (c2 t =? i)%Z; ring.
Qed.

Definition face_energy (l : r3) (x0 x1 x2 : R) : R :=
  Zc (cotw l) * (x0 - x1)^2 + X (cotw l) * (x1 - x2)^2 + Y (cotw l) * (x2 - x0)^2.
Lemma lap_quad n L x : valid (Z.of_nat n) (map fst L) ->
  quadform n (lap_blocks L) x = sumf (fun p => face_energy (snd p) (x (c0 (fst p))) (x (c1 (fst p))) (x (c2 (fst p)))) L.
Proof.
  intros Va. rewrite quadform_trip; [|intros t I; apply (lap_shape _ _ Va t I) ..].
  rewrite sum_blocks9. apply sumf_ext. intros [t l] _. cbn zeta; cbn [fst snd]. unfold trow, tcol, tval, face_energy; cbn. ring.
Qed.

(** lengths of a triangle: non-negative squares and non-zero area *)
Definition nondeg (l : r3) : Prop := 0 <= X l /\ 0 <= Y l /\ 0 <= Zc l /\ dblA l <> 0.

Lemma face_energy_nonneg l x0 x1 x2 : nondeg l -> 0 <= face_energy l x0 x1 x2.
Proof.
  destruct l as [[a b] c]. intros (Ha & Hb & Hc & N). unfold X, Y, Zc in Ha, Hb, Hc; cbn in Ha, Hb, Hc.
  pose proof (dblA_pos_heron a b c Ha Hb Hc N) as H. pose proof (dblA_sq a b c Ha Hb Hc (Rlt_le _ _ H)) as S.
  pose proof (dblA_nonneg (a,b,c)) as P. unfold face_energy, cotw, X, Y, Zc; cbn [fst snd].
  set (A := dblA (a,b,c)) in *. assert (PA : 0 < A) by lra.
  set (p := x0 - x1). set (q := x1 - x2). replace (x2 - x0) with (-(p+q)) by (unfold p, q; ring).
  replace (0.25 * (a + b - c) / A * p ^ 2 + 0.25 * (b + c - a) / A * q ^ 2 + 0.25 * (c + a - b) / A * (- (p + q)) ^ 2)
    with ((0.25 / A) * ((a+b-c)*p^2 + (b+c-a)*q^2 + (c+a-b)*(p+q)^2)) by (field; lra).
  apply Rmult_le_pos; [apply Rlt_le; apply Rdiv_lt_0_compat; lra|].
  clear S N A PA P. clearbody p q. clear x0 x1 x2.
  (* 2a p^2 + 2(c+a-b) p q + 2c q^2, discriminant -heron *)
  replace ((a+b-c)*p^2 + (b+c-a)*q^2 + (c+a-b)*(p+q)^2) with (2*a*p^2 + 2*(c+a-b)*(p*q) + 2*c*q^2) by ring.
  unfold heron in H.
  destruct (Req_dec a 0) as [->|Na].
  - exfalso. pose proof (Rle_0_sqr (b-c)) as Q. unfold Rsqr in Q. nra.
  - assert (0 < a) by lra.
    assert (0 <= a * (2*a*p^2 + 2*(c+a-b)*(p*q) + 2*c*q^2)); [|nra].
    replace (a * (2*a*p^2 + 2*(c+a-b)*(p*q) + 2*c*q^2))
      with (2*(a*p + (c+a-b)/2*q)^2 + (2*a*b + 2*b*c + 2*c*a - a*a - b*b - c*c)/2 * q^2) by field.
    assert (0 <= (a*p + (c+a-b)/2*q)^2) by apply pow2_ge_0.
    assert (0 <= q^2) by apply pow2_ge_0. nra.
Qed.

(** ** grad *)
Lemma dot_cross_l a b : dot3 (cross3 a b) a = 0.
Proof. unfold dot3, cross3, X, Y, Zc; cbn; ring. Qed.
Lemma dot_self_nonneg a : 0 <= dot3 a a.
Proof. unfold dot3. pose proof (Rle_0_sqr (X a)). pose proof (Rle_0_sqr (Y a)). pose proof (Rle_0_sqr (Zc a)). unfold Rsqr in *. lra. Qed.
Lemma norm3_sq a : norm3 a * norm3 a = dot3 a a.
Proof. apply sqrt_def, dot_self_nonneg. Qed.
Lemma norm3_nonneg a : 0 <= norm3 a. Proof. apply sqrt_pos. Qed.
Lemma norm3_zero a : norm3 a = 0 -> dot3 a a = 0.
Proof. intros Q. rewrite <- norm3_sq, Q. ring. Qed.
Lemma dot_self_zero a : dot3 a a = 0 -> a = zero3.
Proof.
  unfold dot3. intros Q. pose proof (Rle_0_sqr (X a)). pose proof (Rle_0_sqr (Y a)). pose proof (Rle_0_sqr (Zc a)). unfold Rsqr in *.
  apply vec3_eq; cbn; unfold X, Y, Zc in *; nra.
Qed.
Lemma norm_eq a b : dot3 a a = dot3 b b -> norm3 a = norm3 b.
Proof. unfold norm3. congruence. Qed.
Lemma cross_norm_perp u v : dot3 u u = 1 -> dot3 u v = 0 -> norm3 (cross3 u v) = norm3 v.
Proof.
  intros U P. apply norm_eq.
  assert (Q : dot3 (cross3 u v) (cross3 u v) = dot3 u u * dot3 v v - dot3 u v * dot3 u v)
    by (unfold dot3, cross3, X, Y, Zc; cbn; ring).
  rewrite Q, U, P. ring.
Qed.


Lemma unit_scal n : norm3 n <> 0 -> dot3 (scal3 (/ norm3 n) n) (scal3 (/ norm3 n) n) = 1.
Proof.
  intros N. replace (dot3 (scal3 (/ norm3 n) n) (scal3 (/ norm3 n) n)) with (/norm3 n * /norm3 n * dot3 n n)
    by (unfold dot3, scal3, X, Y, Zc; cbn; ring).
  rewrite <- norm3_sq. field; auto.
Qed.

(** the closed form of the two basis vectors: (n x e) / |n|^2 *)
Lemma eperp_eq n v : norm3 n <> 0 -> v <> zero3 -> dot3 n v = 0 ->
  eperp (scal3 (/ norm3 n) n) v (norm3 n) = scal3 (/ dot3 n n) (cross3 n v).
Proof.
  intros N Nv P. unfold eperp.
  assert (NV : norm3 v <> 0) by (intros Q; apply Nv, dot_self_zero, norm3_zero; auto).
  rewrite cross_norm_perp.
  - rewrite <- (norm3_sq n). set (k := norm3 n) in *.
    apply vec3_eq; unfold scal3, cross3, X, Y, Zc; cbn; field; auto.
  - apply unit_scal; auto.
  - replace (dot3 (scal3 (/ norm3 n) n) v) with (/norm3 n * dot3 n v) by (unfold dot3, scal3, X, Y, Zc; cbn; ring).
    rewrite P; ring.
Qed.

Definition face_grad (V : Z -> vec3) (x : Z -> R) (t : tri) : vec3 :=
  add3 (scal3 (x (c1 t) - x (c0 t)) (fst (face_eperps V t))) (scal3 (x (c2 t) - x (c0 t)) (snd (face_eperps V t))).

Lemma fnormal_alt V t : cross3 (sub3 (V (c2 t)) (V (c1 t))) (sub3 (V (c0 t)) (V (c2 t))) = fnormal V t.
Proof. unfold fnormal, cross3, sub3, X, Y, Zc; cbn. apply vec3_eq; cbn; ring. Qed.

Lemma dot_comb k1 k2 s a b w : s <> 0 ->
  dot3 (add3 (scal3 k1 (scal3 (/s) a)) (scal3 k2 (scal3 (/s) b))) w * s = k1 * dot3 a w + k2 * dot3 b w.
Proof. intros. unfold dot3, add3, scal3, X, Y, Zc; cbn. field; auto. Qed.

Lemma face_grad_spec V x t : fnormal V t <> zero3 ->
  dot3 (face_grad V x t) (sub3 (V (c1 t)) (V (c0 t))) = x (c1 t) - x (c0 t)
  /\ dot3 (face_grad V x t) (sub3 (V (c2 t)) (V (c0 t))) = x (c2 t) - x (c0 t)
  /\ dot3 (face_grad V x t) (fnormal V t) = 0.
Proof.
  intros N. assert (NN : norm3 (fnormal V t) <> 0) by (intros Q; apply N, dot_self_zero, norm3_zero; auto).
  assert (ND : dot3 (fnormal V t) (fnormal V t) <> 0) by (intros Q; apply N, dot_self_zero; auto).
  unfold face_grad, face_eperps. rewrite fnormal_alt. cbn [fst snd].
  rewrite !eperp_eq; auto.
  - unfold fnormal in *. set (p := V (c0 t)) in *. set (q := V (c1 t)) in *. set (r := V (c2 t)) in *. clearbody p q r.
    set (n := cross3 (sub3 q p) (sub3 r p)) in *.
    set (D := dot3 n n) in *.
    repeat split.
    + apply (Rmult_eq_reg_r D); auto.
      rewrite dot_comb by auto.
      unfold D, n, dot3, cross3, sub3, X, Y, Zc; cbn. ring.
    + apply (Rmult_eq_reg_r D); auto.
      rewrite dot_comb by auto.
      unfold D, n, dot3, cross3, sub3, X, Y, Zc; cbn. ring.
    + apply (Rmult_eq_reg_r D); auto.
      rewrite dot_comb by auto.
      rewrite !dot_cross_l. ring.
  - intros Q. apply N. unfold fnormal. rewrite Q. unfold zero3, cross3, sub3, X, Y, Zc; cbn. apply vec3_eq; cbn; ring.
  - unfold fnormal, dot3, cross3, sub3, X, Y, Zc; cbn; ring.
  - intros Q. apply N. unfold fnormal.
    replace (sub3 (V (c2 t)) (V (c0 t))) with zero3.
    + unfold zero3, cross3, sub3, X, Y, Zc; cbn. apply vec3_eq; cbn; ring.
    + unfold sub3, zero3 in *. injection Q as Q1 Q2 Q3. apply vec3_eq; unfold X, Y, Zc in *; cbn in *; lra.
  - unfold fnormal, dot3, cross3, sub3, X, Y, Zc; cbn; ring.
Qed.

Lemma sum_pick_combine {A} (g : Z * A -> R) (F : list A) f t : nth_error F f = Some t ->
  sumf (fun p => if (fst p =? Z.of_nat f)%Z then g p else 0) (combine (map Z.of_nat (seq 0 (length F))) F) = g (Z.of_nat f, t).
Proof.
  intros E.
  assert (G : forall s F f t, nth_error F f = Some t ->
    sumf (fun p => if (fst p =? Z.of_nat (s + f))%Z then g p else 0) (combine (map Z.of_nat (seq s (length F))) F) = g (Z.of_nat (s + f), t)).
  { clear. intros s F; revert s. induction F as [|u F IH]; intros s [|f] t E; cbn in E; try discriminate.
    - injection E as ->. cbn. rewrite Nat.add_0_r, Z.eqb_refl.
      rewrite sumf_zero; [lra|]. intros [k v] I. cbn. apply in_combine_l in I. apply in_map_iff in I as (j & <- & I).
      apply in_seq in I. destruct (Z.eqb_spec (Z.of_nat j) (Z.of_nat s)); auto. lia.
    - cbn [length seq map combine sumf fst]. destruct (Z.eqb_spec (Z.of_nat s) (Z.of_nat (s + S f))); [lia|].
      rewrite Rplus_0_l. replace (s + S f)%nat with (S s + f)%nat by lia. apply IH; auto. }
  apply (G 0%nat); auto.
Qed.
Lemma idx_combine {A} (F : list A) p : In p (combine (map Z.of_nat (seq 0 (length F))) F) -> (0 <= fst p < Z.of_nat (length F))%Z /\ In (snd p) F.
Proof.
  destruct p as [k v]. intros I. split; [|eapply in_combine_r; eauto]. apply in_combine_l in I. cbn.
  apply in_map_iff in I as (j & <- & I). apply in_seq in I. lia.
Qed.

Definition grad_blocks (V : Z -> vec3) (F : list tri) : list trip :=
  let m := Z.of_nat (length F) in
  let fs := combine (map Z.of_nat (seq 0 (length F))) F in
  let blk (off : Z) (c : tri -> Z) (v : vec3 * vec3 -> R) :=
    map (fun p => (off + fst p, c (snd p), v (face_eperps V (snd p)))%Z) fs in
  let comp (off : Z) (co : vec3 -> R) :=
    blk off c1 (fun e => co (fst e)) ++ blk off c0 (fun e => - co (fst e)) ++
    blk off c2 (fun e => co (snd e)) ++ blk off c0 (fun e => - co (snd e)) in
  comp 0%Z X ++ comp m Y ++ comp (2 * m)%Z Zc.

Lemma grad_shape V F n : valid n F -> forall t, In t (grad_blocks V F) -> (0 <= trow t < 3 * Z.of_nat (length F))%Z /\ (0 <= tcol t < n)%Z.
Proof.
  intros Va t I. unfold grad_blocks in I.
  in_blocks I; match goal with H : In ?p (combine _ _) |- _ => apply idx_combine in H as [? H]; apply Va in H end; unfold trow, tcol; cbn [fst snd]; lia.
Qed.

Definition grad_comp (k : nat) (v : vec3) : R := match k with 0%nat => X v | 1%nat => Y v | _ => Zc v end.
Lemma grad_row_sum V x F f t k : nth_error F f = Some t -> (k < 3)%nat ->
  sumf (fun t => if (trow t =? Z.of_nat (k * length F + f))%Z then tval t * x (tcol t) else 0) (grad_blocks V F) = grad_comp k (face_grad V x t).
Proof.
  intros E K. assert (L : (f < length F)%nat) by (apply nth_error_Some; congruence).
  unfold grad_blocks. repeat rewrite sumf_app. repeat rewrite sumf_map. unfold trow, tcol, tval; cbn [fst snd].
  set (fs := combine (map Z.of_nat (seq 0 (length F))) F).
  assert (P : forall (off : Z) (g : Z * tri -> R), off = Z.of_nat (k * length F) ->
    sumf (fun p => if (off + fst p =? Z.of_nat (k * length F + f))%Z then g p else 0) fs = g (Z.of_nat f, t)).
  { intros off g ->. rewrite <- (sum_pick_combine g F f t E). apply sumf_ext. intros p _.
    destruct (Z.eqb_spec (Z.of_nat (k * length F) + fst p) (Z.of_nat (k * length F + f))), (Z.eqb_spec (fst p) (Z.of_nat f)); auto; lia. }
  assert (N : forall (off : Z) k' (g : Z * tri -> R), off = Z.of_nat (k' * length F) -> k' <> k ->
    sumf (fun p => if (off + fst p =? Z.of_nat (k * length F + f))%Z then g p else 0) fs = 0).
  { intros off k' g -> Nk. apply sumf_zero. intros p I. apply idx_combine in I as [I _].
    destruct (Z.eqb_spec (Z.of_nat (k' * length F) + fst p) (Z.of_nat (k * length F + f))); auto. exfalso.
    assert (Z.of_nat k' * Z.of_nat (length F) + fst p = Z.of_nat k * Z.of_nat (length F) + Z.of_nat f)%Z by lia.
    assert (Z.of_nat k' <> Z.of_nat k) by lia. nia. }
  unfold face_grad. cbn [fst snd].
  destruct k as [|[|[|k]]]; [| | | lia].
  - rewrite !(P 0%Z) by reflexivity. rewrite !(N (Z.of_nat (length F)) 1%nat), !(N (2 * Z.of_nat (length F))%Z 2%nat) by lia.
    cbn. unfold add3, scal3, X; cbn. ring.
  - rewrite !(N 0%Z 0%nat) by lia. rewrite !(P (Z.of_nat (length F))) by lia. rewrite !(N (2 * Z.of_nat (length F))%Z 2%nat) by lia.
    cbn. unfold add3, scal3, Y; cbn. ring.
  - rewrite !(N 0%Z 0%nat) by lia. rewrite !(N (Z.of_nat (length F)) 1%nat) by lia. rewrite !(P (2 * Z.of_nat (length F))%Z) by lia.
    cbn. unfold add3, scal3, Zc; cbn. ring.
Qed.

Lemma grad3_ok V n F : valid (Z.of_nat n) F ->
  exists G, grad3 V (Z.of_nat n) F = Ok G
   /\ forall x f t, nth_error F f = Some t -> fnormal V t <> zero3 ->
      exists g, g = (mulv n G x (Z.of_nat f), mulv n G x (Z.of_nat (length F + f)), mulv n G x (Z.of_nat (2 * length F + f)))
        /\ dot3 g (sub3 (V (c1 t)) (V (c0 t))) = x (c1 t) - x (c0 t)
        /\ dot3 g (sub3 (V (c2 t)) (V (c0 t))) = x (c2 t) - x (c0 t)
        /\ dot3 g (fnormal V t) = 0.
Proof.
  intros Va. exists (grad_blocks V F). split.
  - apply csr_ok. apply grad_shape; auto.
  - intros x f t E N. exists (face_grad V x t). split; [|apply face_grad_spec; auto].
    assert (C : cols_in n (grad_blocks V F)) by (intros u I; apply (grad_shape V F _ Va u I)).
    rewrite !mulv_trip by auto.
    pose proof (grad_row_sum V x F f t 0 E ltac:(lia)) as H0. pose proof (grad_row_sum V x F f t 1 E ltac:(lia)) as H1.
    pose proof (grad_row_sum V x F f t 2 E ltac:(lia)) as H2.
    replace (1 * length F + f)%nat with (length F + f)%nat in H1 by lia.
    replace (0 * length F + f)%nat with f in H0 by lia.
    rewrite H0, H1, H2. clear. generalize (face_grad V x t) as v. intros [[? ?] ?]; reflexivity.
Qed.

Lemma frame_decomp u v w : scal3 (dot3 (cross3 u v) (cross3 u v)) w =
  add3 (add3 (scal3 (dot3 w u) (cross3 v (cross3 u v))) (scal3 (dot3 w v) (cross3 (cross3 u v) u))) (scal3 (dot3 w (cross3 u v)) (cross3 u v)).
Proof. unfold scal3, add3, cross3, dot3, X, Y, Zc; cbn. apply vec3_eq; unfold X, Y, Zc; cbn; ring. Qed.
Lemma frame_unique u v w w' : cross3 u v <> zero3 -> dot3 w u = dot3 w' u -> dot3 w v = dot3 w' v ->
  dot3 w (cross3 u v) = dot3 w' (cross3 u v) -> w = w'.
Proof.
  intros N A B C. pose proof (frame_decomp u v w) as E. rewrite A, B, C, <- frame_decomp in E.
  assert (D : dot3 (cross3 u v) (cross3 u v) <> 0) by (intros Q; apply N, dot_self_zero; auto).
  set (k := dot3 (cross3 u v) (cross3 u v)) in *. clearbody k.
  destruct w as [[a b] c], w' as [[a' b'] c']. unfold scal3, X, Y, Zc in E; cbn in E. injection E as E1 E2 E3.
  apply vec3_eq; unfold X, Y, Zc; cbn; eapply Rmult_eq_reg_l; eauto.
Qed.

(** exact on affine functions: the tangential part of the slope *)
Lemma grad3_affine V n F G : valid (Z.of_nat n) F -> grad3 V (Z.of_nat n) F = Ok G ->
  forall (s : vec3) (d : R) f t, nth_error F f = Some t -> fnormal V t <> zero3 ->
    let x := fun i => dot3 s (V i) + d in
    let nn := fnormal V t in
    (mulv n G x (Z.of_nat f), mulv n G x (Z.of_nat (length F + f)), mulv n G x (Z.of_nat (2 * length F + f)))
    = sub3 s (scal3 (dot3 s nn / dot3 nn nn) nn).
Proof.
  intros Va Q s d f t E N x nn. destruct (grad3_ok V n F Va) as (G' & Q' & H). rewrite Q in Q'. injection Q' as <-.
  destruct (H x f t E N) as (g & <- & A & B & C). fold nn in C.
  assert (D : dot3 nn nn <> 0) by (intros Z0; apply N, dot_self_zero; auto).
  assert (P1 : dot3 nn (sub3 (V (c1 t)) (V (c0 t))) = 0) by (unfold nn, fnormal, dot3, cross3, sub3, X, Y, Zc; cbn; ring).
  assert (P2 : dot3 nn (sub3 (V (c2 t)) (V (c0 t))) = 0) by (unfold nn, fnormal, dot3, cross3, sub3, X, Y, Zc; cbn; ring).
  assert (LIN : forall k w, dot3 (sub3 s (scal3 k nn)) w = dot3 s w - k * dot3 nn w) by (intros; unfold dot3, sub3, scal3, X, Y, Zc; cbn; ring).
  assert (LIN2 : forall a b, dot3 s (sub3 a b) = dot3 s a - dot3 s b) by (intros; unfold dot3, sub3, X, Y, Zc; cbn; ring).
  apply (frame_unique (sub3 (V (c1 t)) (V (c0 t))) (sub3 (V (c2 t)) (V (c0 t)))); auto.
  - rewrite A, LIN, P1, LIN2. unfold x. ring.
  - rewrite B, LIN, P2, LIN2. unfold x. ring.
  - fold (fnormal V t). fold nn. rewrite C, LIN. field; auto.
Qed.

Lemma entry_filter p M i j : (forall t, In t M -> trow t = i -> p t = true) -> entry (filter p M) i j = entry M i j.
Proof.
  intros Q. unfold entry. rewrite sumf_filter. apply sumf_ext. intros t I.
  destruct (Z.eqb_spec (trow t) i); cbn [andb]; [rewrite (Q t I); auto | destruct (p t); auto].
Qed.

Definition pad (v : vec2) : vec3 := (fst v, snd v, 0).
Lemma grad2_affine V n F : valid (Z.of_nat n) F -> exists G, grad2 V (Z.of_nat n) F = Ok G /\
  (forall t, In t G -> (0 <= trow t < 2 * Z.of_nat (length F))%Z) /\
  forall (s : vec2) (d : R) f t, nth_error F f = Some t -> det2 (sub2 (V (c1 t)) (V (c0 t))) (sub2 (V (c2 t)) (V (c0 t))) <> 0 ->
    let x := fun i => dot2 s (V i) + d in
    mulv n G x (Z.of_nat f) = fst s /\ mulv n G x (Z.of_nat (length F + f)) = snd s.
Proof.
  intros Va. destruct (grad3_ok (fun i => pad (V i)) n F Va) as (G & Q & _).
  unfold grad2. fold (pad). change (fun i => (fst (V i), snd (V i), 0)) with (fun i => pad (V i)). rewrite Q. cbn [bind].
  eexists; split; [reflexivity|]. split.
  { intros t I. apply filter_In in I as [I L]. apply Z.ltb_lt in L.
    assert (Q' := Q). unfold grad3 in Q'. apply csr_inv in Q' as [-> Sh]. destruct (Sh t I). lia. }
  intros s d f t E N. set (x := fun i => dot2 s (V i) + d).
  assert (L : (f < length F)%nat) by (apply nth_error_Some; congruence).
  assert (FN : fnormal (fun i => pad (V i)) t <> zero3).
  { intros Z0. apply N. unfold fnormal, cross3, sub3, pad, zero3, X, Y, Zc in Z0; cbn in Z0. injection Z0 as _ _ Z1. unfold det2, sub2; cbn. lra. }
  pose proof (grad3_affine (fun i => pad (V i)) n F G Va Q (pad s) d f t E FN) as H. cbn zeta in H.
  assert (XE : forall i, dot3 (pad s) (pad (V i)) + d = x i) by (intros; unfold x, dot3, pad, dot2, X, Y, Zc; cbn; ring).
  assert (D0 : dot3 (pad s) (fnormal (fun i => pad (V i)) t) = 0).
  { unfold fnormal, dot3, cross3, sub3, pad, X, Y, Zc; cbn. ring. }
  assert (M : forall i, (i < 2 * length F)%nat -> mulv n (filter (fun t => (trow t <? 2 * Z.of_nat (length F))%Z) G) x (Z.of_nat i)
     = mulv n G (fun i => dot3 (pad s) (pad (V i)) + d) (Z.of_nat i)).
  { intros i Li. unfold mulv, sumn. apply sumf_ext. intros j _. rewrite entry_filter, XE; auto.
    intros u _ Ru. apply Z.ltb_lt. lia. }
  rewrite !M by lia.
  set (a := mulv n G _ (Z.of_nat f)) in *. set (b := mulv n G _ (Z.of_nat (length F + f))) in *. set (c := mulv n G _ _) in H.
  rewrite D0 in H. unfold Rdiv in H. rewrite Rmult_0_l in H.
  unfold sub3, scal3, pad, X, Y, Zc in H; cbn in H. injection H as Ha Hb _.
  split; [rewrite Ha | rewrite Hb]; ring.
Qed.
