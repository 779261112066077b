From Verif Require Import PyExn Vec MatModel MatProofs GeomModel GeomSpec GeomProofs.
From Coq Require Import Psatz.
Open Scope R_scope.

(** ** barycentric coordinates *)
Lemma bary2_ok p v1 v2 v3 : det2 (sub2 v2 v1) (sub2 v3 v1) <> 0 ->
  let b := bary2 p v1 v2 v3 in
  X b + Y b + Zc b = 1 /\ add2 (add2 (scal2 (X b) v1) (scal2 (Y b) v2)) (scal2 (Zc b) v3) = p.
Proof.
  intros N b. destruct p as [px py], v1 as [a1 a2], v2 as [b1 b2], v3 as [d1 d2].
  unfold det2, sub2 in N; cbn in N.
  assert (N' : (a1 - d1) * (b2 - d2) - (a2 - d2) * (b1 - d1) <> 0) by (intros Q; apply N; lra).
  unfold b, bary2, X, Y, Zc, add2, scal2, sub2; cbn. split; [field; auto|]. f_equal; field; auto.
Qed.

Lemma cross_self_gram u v : dot3 (cross3 u v) (cross3 u v) = dot3 u u * dot3 v v - dot3 u v * dot3 u v.
Proof. unfold dot3, cross3, X, Y, Zc; cbn; ring. Qed.

Lemma dot_lin_add k1 k2 a b w : dot3 (add3 (scal3 k1 a) (scal3 k2 b)) w = k1 * dot3 a w + k2 * dot3 b w.
Proof. unfold dot3, add3, scal3, X, Y, Zc; cbn; ring. Qed.
Lemma dot_lin_sub k a b w : dot3 (sub3 a (scal3 k b)) w = dot3 a w - k * dot3 b w.
Proof. unfold dot3, sub3, scal3, X, Y, Zc; cbn; ring. Qed.
Lemma dot_comm a b : dot3 a b = dot3 b a.
Proof. unfold dot3; ring. Qed.
Lemma cross_perp_l a b : dot3 (cross3 a b) a = 0.
Proof. unfold dot3, cross3, X, Y, Zc; cbn; ring. Qed.
Lemma cross_perp_r a b : dot3 (cross3 a b) b = 0.
Proof. unfold dot3, cross3, X, Y, Zc; cbn; ring. Qed.
Lemma bary_id1 u v w : dot3 (cross3 w v) (cross3 u v) * dot3 u u + dot3 (cross3 u w) (cross3 u v) * dot3 v u = dot3 w u * dot3 (cross3 u v) (cross3 u v).
Proof. unfold dot3, cross3, X, Y, Zc; cbn; ring. Qed.
Lemma bary_id2 u v w : dot3 (cross3 w v) (cross3 u v) * dot3 u v + dot3 (cross3 u w) (cross3 u v) * dot3 v v = dot3 w v * dot3 (cross3 u v) (cross3 u v).
Proof. unfold dot3, cross3, X, Y, Zc; cbn; ring. Qed.

(** 3D: reproduces the orthogonal projection of p on the plane of the triangle *)
Lemma bary3_ok p v1 v2 v3 : let N := cross3 (sub3 v2 v1) (sub3 v3 v1) in N <> zero3 ->
  let b := bary3 p v1 v2 v3 in
  let q := add3 (add3 (scal3 (X b) v1) (scal3 (Y b) v2)) (scal3 (Zc b) v3) in
  X b + Y b + Zc b = 1 /\ q = sub3 p (scal3 (dot3 (sub3 p v1) N / dot3 N N) N).
Proof.
  intros N NN b q. split; [unfold b, bary3, X, Y, Zc; cbn; ring|].
  assert (D : dot3 N N <> 0) by (intros Q; apply NN, dot_self_zero; auto).
  set (u := sub3 v2 v1) in *. set (v := sub3 v3 v1) in *. set (w := sub3 p v1) in *.
  assert (QE : q = add3 v1 (add3 (scal3 (Y b) u) (scal3 (Zc b) v))).
  { unfold q, b, bary3, u, v, add3, scal3, sub3, X, Y, Zc; cbn. apply vec3_eq; unfold X, Y, Zc; cbn; ring. }
  rewrite QE.
  assert (G : add3 (scal3 (Y b) u) (scal3 (Zc b) v) = sub3 w (scal3 (dot3 w N / dot3 N N) N)).
  { change (Y b) with (dot3 (cross3 w v) N / dot3 N N). change (Zc b) with (dot3 (cross3 u w) N / dot3 N N).
    pose proof (bary_id1 u v w) as I1. pose proof (bary_id2 u v w) as I2.
    pose proof (cross_perp_l u v) as P1. pose proof (cross_perp_r u v) as P2. fold N in I1, I2, P1, P2.
    apply (frame_unique u v); auto; fold N; rewrite dot_lin_add, dot_lin_sub.
    - rewrite P1. apply (Rmult_eq_reg_r (dot3 N N)); auto. transitivity (dot3 w u * dot3 N N); [rewrite <- I1; field; auto | ring].
    - rewrite P2. apply (Rmult_eq_reg_r (dot3 N N)); auto. transitivity (dot3 w v * dot3 N N); [rewrite <- I2; field; auto | ring].
    - rewrite (dot_comm u N), (dot_comm v N), P1, P2. field; auto. }
  rewrite G. unfold w. unfold add3, sub3, X, Y, Zc; cbn. apply vec3_eq; unfold X, Y, Zc; cbn; ring.
Qed.

Lemma bary2_corners v1 v2 v3 : det2 (sub2 v2 v1) (sub2 v3 v1) <> 0 ->
  bary2 v1 v1 v2 v3 = (1,0,0) /\ bary2 v2 v1 v2 v3 = (0,1,0) /\ bary2 v3 v1 v2 v3 = (0,0,1).
Proof.
  intros N. destruct v1 as [a1 a2], v2 as [b1 b2], v3 as [d1 d2].
  unfold det2, sub2 in N; cbn in N.
  assert (N' : (a1 - d1) * (b2 - d2) - (a2 - d2) * (b1 - d1) <> 0) by (intros Q; apply N; lra).
  unfold bary2, sub2; cbn. repeat split; repeat f_equal; field; auto.
Qed.
Lemma bary3_corners v1 v2 v3 : cross3 (sub3 v2 v1) (sub3 v3 v1) <> zero3 ->
  bary3 v1 v1 v2 v3 = (1,0,0) /\ bary3 v2 v1 v2 v3 = (0,1,0) /\ bary3 v3 v1 v2 v3 = (0,0,1).
Proof.
  intros N. assert (D : dot3 (cross3 (sub3 v2 v1) (sub3 v3 v1)) (cross3 (sub3 v2 v1) (sub3 v3 v1)) <> 0) by (intros Q; apply N, dot_self_zero; auto).
  assert (Z0 : forall a b, dot3 (cross3 (sub3 v1 v1) a) b = 0) by (intros; unfold dot3, cross3, sub3, X, Y, Zc; cbn; ring).
  assert (Z1 : forall a b, dot3 (cross3 a (sub3 v1 v1)) b = 0) by (intros; unfold dot3, cross3, sub3, X, Y, Zc; cbn; ring).
  assert (Z2 : forall a b, dot3 (cross3 a a) b = 0) by (intros; unfold dot3, cross3, sub3, X, Y, Zc; cbn; ring).
  unfold bary3. rewrite !Z0, !Z1, !Z2.
  set (k := dot3 (cross3 (sub3 v2 v1) (sub3 v3 v1)) (cross3 (sub3 v2 v1) (sub3 v3 v1))) in *. clearbody k.
  repeat split; repeat f_equal; field; auto.
Qed.

(** ** mass matrices *)
Lemma heron_pos_sides a b c : 0 <= a -> 0 <= b -> 0 <= c -> 0 < heron a b c -> 0 < a /\ 0 < b /\ 0 < c.
Proof.
  intros Ha Hb Hc H. unfold heron in H. pose proof (Rle_0_sqr (a-b)). pose proof (Rle_0_sqr (b-c)). pose proof (Rle_0_sqr (c-a)). unfold Rsqr in *.
  repeat split; match goal with |- 0 < ?v => destruct (Req_dec v 0); [subst; exfalso; nra | lra] end.
Qed.

(** cosine signs and the barycentric weights in terms of squared lengths *)
Lemma voronoi_weights a b c : 0 <= a -> 0 <= b -> 0 <= c -> dblA (a,b,c) <> 0 ->
  exists k, 0 < k /\
    X (cosines (a,b,c)) * sqrt a = k * (a * (b + c - a)) /\
    Y (cosines (a,b,c)) * sqrt b = k * (b * (c + a - b)) /\
    Zc (cosines (a,b,c)) * sqrt c = k * (c * (a + b - c)) /\
    (X (cosines (a,b,c)) < 0 <-> b + c - a < 0) /\
    (Y (cosines (a,b,c)) < 0 <-> c + a - b < 0) /\
    (Zc (cosines (a,b,c)) < 0 <-> a + b - c < 0) /\
    (X (cosines (a,b,c)) + 0 = (b + c - a) / (2 * sqrt c * sqrt b)).
Proof.
  intros Ha Hb Hc N. pose proof (dblA_pos_heron a b c Ha Hb Hc N) as H.
  destruct (heron_pos_sides a b c Ha Hb Hc H) as (Pa & Pb & Pc).
  pose proof (sqrt_lt_R0 a Pa) as A. pose proof (sqrt_lt_R0 b Pb) as B. pose proof (sqrt_lt_R0 c Pc) as C.
  pose proof (sqrt_def a Ha) as A2. pose proof (sqrt_def b Hb) as B2. pose proof (sqrt_def c Hc) as C2.
  unfold cosines, X, Y, Zc; cbn. set (x := sqrt a) in *. set (y := sqrt b) in *. set (z := sqrt c) in *. clearbody x y z.
  assert (SG : forall u v w, 0 < v -> 0 < w -> (u / (2 * v * w) < 0 <-> u < 0)).
  { intros u v w Hv Hw. assert (0 < 2 * v * w) by nra. split; intros Q.
    - replace u with (u / (2*v*w) * (2*v*w)) by (field; lra). nra.
    - unfold Rdiv. assert (0 < / (2*v*w)) by (apply Rinv_0_lt_compat; auto). nra. }
  exists (/ (2 * x * y * z)). split; [apply Rinv_0_lt_compat; repeat apply Rmult_lt_0_compat; lra|].
  repeat split; try (apply SG; auto; fail).
  - rewrite <- A2, <- B2, <- C2. field; lra.
  - rewrite <- A2, <- B2, <- C2. field; lra.
  - rewrite <- A2, <- B2, <- C2. field; lra.
  - intros Q. apply SG in Q; auto. lra.
  - intros Q. apply SG; auto. lra.
  - intros Q. apply SG in Q; auto. lra.
  - intros Q. apply SG; auto. lra.
  - intros Q. apply SG in Q; auto. lra.
  - intros Q. apply SG; auto. lra.
  - rewrite Rplus_0_r. f_equal. ring.
Qed.

Lemma not_two_obtuse a b c : 0 <= a -> 0 <= b -> 0 <= c -> b + c - a < 0 -> c + a - b < 0 -> False.
Proof. intros. lra. Qed.

(** hybrid Voronoi cell areas of one triangle: sum to the area, non-negative, and equal to the
    circumcentric areas (l1^2 cot1 + l2^2 cot2)/8 in the non-obtuse case *)
Lemma voronoi_quads_ok l : nondeg l -> let q := voronoi_quads l in
  X q + Y q + Zc q = dblA l / 2 /\ 0 <= X q /\ 0 <= Y q /\ 0 <= Zc q
  /\ (Zc l + Y l - X l >= 0 -> Zc l + X l - Y l >= 0 -> X l + Y l - Zc l >= 0 ->
      X q = (Y l * Y (cotw l) + Zc l * Zc (cotw l)) / 4
      /\ Y q = (Zc l * Zc (cotw l) + X l * X (cotw l)) / 4
      /\ Zc q = (X l * X (cotw l) + Y l * Y (cotw l)) / 4)
  /\ (Zc l + Y l - X l < 0 -> q = (dblA l / 4, dblA l / 8, dblA l / 8))
  /\ (X l + Zc l - Y l < 0 -> q = (dblA l / 8, dblA l / 4, dblA l / 8))
  /\ (X l + Y l - Zc l < 0 -> q = (dblA l / 8, dblA l / 8, dblA l / 4)).
Proof.
  destruct l as [[a b] c]. intros (Ha & Hb & Hc & N). unfold X, Y, Zc in Ha, Hb, Hc; cbn in Ha, Hb, Hc. cbn zeta.
  pose proof (dblA_pos_heron a b c Ha Hb Hc N) as H. pose proof (dblA_sq a b c Ha Hb Hc (Rlt_le _ _ H)) as S.
  pose proof (dblA_nonneg (a,b,c)) as P.
  destruct (voronoi_weights a b c Ha Hb Hc N) as (k & Pk & Wx & Wy & Wz & Sx & Sy & Sz & _).
  unfold voronoi_quads. change (sqrt (X (a,b,c))) with (sqrt a). change (sqrt (Y (a,b,c))) with (sqrt b). change (sqrt (Zc (a,b,c))) with (sqrt c).
  rewrite Wx, Wy, Wz.
  assert (HE : k * (a * (b + c - a)) + k * (b * (c + a - b)) + k * (c * (a + b - c)) = k * heron a b c) by (unfold heron; ring).
  rewrite HE. unfold cotw, X, Y, Zc; cbn [fst snd].
  set (A := dblA (a,b,c)) in *. assert (PA : 0 < A) by lra.
  assert (R1 : forall x, k * x / (k * heron a b c) = x / (4 * (A*A))) by (intros; rewrite S; field; lra).
  rewrite !R1. clear R1. clearbody A. replace 0.5 with (1/2) by lra. replace 0.25 with (1/4) by lra.
  fold (X (cosines (a,b,c))) (Y (cosines (a,b,c))) (Zc (cosines (a,b,c))).
  destruct (Rlt_dec (X (cosines (a,b,c))) 0) as [O0|O0]; [apply (proj1 Sx) in O0 | assert (O0' : ~ b + c - a < 0) by (intros Q; apply O0, Sx; auto); clear O0; rename O0' into O0];
  (destruct (Rlt_dec (Y (cosines (a,b,c))) 0) as [O1|O1]; [apply (proj1 Sy) in O1 | assert (O1' : ~ c + a - b < 0) by (intros Q; apply O1, Sy; auto); clear O1; rename O1' into O1]);
  (destruct (Rlt_dec (Zc (cosines (a,b,c))) 0) as [O2|O2]; [apply (proj1 Sz) in O2 | assert (O2' : ~ a + b - c < 0) by (intros Q; apply O2, Sz; auto); clear O2; rename O2' into O2]);
  try (exfalso; lra); cbn [fst snd].
  - repeat split; try lra; intros; try (exfalso; lra). apply vec3_eq; unfold X, Y, Zc; cbn [fst snd]; lra.
  - repeat split; try lra; intros; try (exfalso; lra). apply vec3_eq; unfold X, Y, Zc; cbn [fst snd]; lra.
  - repeat split; try lra; intros; try (exfalso; lra). apply vec3_eq; unfold X, Y, Zc; cbn [fst snd]; lra.
  - assert (I : 0 < / (4 * (A * A))) by (apply Rinv_0_lt_compat; nra).
    assert (T0 : 0 <= a * (b + c - a) / (4 * (A*A)) * (1/2) * A) by (apply Rmult_le_pos; [apply Rmult_le_pos; [unfold Rdiv; apply Rmult_le_pos; [nra|lra]|lra]|lra]).
    assert (T1 : 0 <= b * (c + a - b) / (4 * (A*A)) * (1/2) * A) by (apply Rmult_le_pos; [apply Rmult_le_pos; [unfold Rdiv; apply Rmult_le_pos; [nra|lra]|lra]|lra]).
    assert (T2 : 0 <= c * (a + b - c) / (4 * (A*A)) * (1/2) * A) by (apply Rmult_le_pos; [apply Rmult_le_pos; [unfold Rdiv; apply Rmult_le_pos; [nra|lra]|lra]|lra]).
    repeat split; try lra; intros; try (exfalso; lra); try (field; lra).
    unfold heron in S. transitivity ((2*a*b+2*b*c+2*c*a-a*a-b*b-c*c) / (4 * (A*A)) * (1/2) * A); [field; lra|]. rewrite <- S. field. lra.
Qed.

Definition mass_blocks (L : faces_lsq) (ty : mass_type) : list trip :=
  let blk (r c : tri -> Z) (v : r3 -> R) := map (fun p => (r (fst p), c (fst p), v (snd p))) L in
  match ty with
  | Voronoi => blk c0 c0 (fun l => X (voronoi_quads l)) ++ blk c1 c1 (fun l => Y (voronoi_quads l)) ++ blk c2 c2 (fun l => Zc (voronoi_quads l))
  | Barycentric => blk c0 c0 (fun l => dblA l / 6) ++ blk c1 c1 (fun l => dblA l / 6) ++ blk c2 c2 (fun l => dblA l / 6)
  | _ => let o := fun l => dblA l / 24 in let d := fun l => dblA l / 12 in
    blk c0 c1 o ++ blk c1 c0 o ++ blk c1 c2 o ++ blk c2 c1 o ++ blk c2 c0 o ++ blk c0 c2 o ++ blk c0 c0 d ++ blk c1 c1 d ++ blk c2 c2 d
  end.
Lemma mass_shape n L ty : valid n (map fst L) -> forall t, In t (mass_blocks L ty) -> (0 <= trow t < n)%Z /\ (0 <= tcol t < n)%Z.
Proof.
  intros Va t I. destruct ty; unfold mass_blocks in I;
  in_blocks I; match goal with H : In ?p L |- _ => destruct (Va (fst p) (in_map _ _ _ H)) as (A & B & C) end; cbn; tauto.
Qed.
Lemma mass_is n L ty : valid n (map fst L) -> ty <> OtherType -> massmatrix_intrinsic L n ty = Ok (mass_blocks L ty).
Proof. intros Va N. destruct ty; try congruence; apply csr_ok; intros t I; exact (mass_shape n L _ Va t I). Qed.

Lemma mass_total n L ty : valid (Z.of_nat n) (map fst L) -> ty <> OtherType -> (forall p, In p L -> nondeg (snd p)) ->
  exists M, massmatrix_intrinsic L (Z.of_nat n) ty = Ok M
    /\ sumn n (fun i => sumn n (fun j => entry M (Z.of_nat i) (Z.of_nat j))) = sumf (fun p => dblA (snd p) / 2) L
    /\ (forall i j, entry M i j = entry M j i)
    /\ (forall i j, 0 <= entry M i j)
    /\ (ty <> Full -> forall i j, i <> j -> entry M i j = 0).
Proof.
  intros Va N ND. exists (mass_blocks L ty). split; [apply mass_is; auto|].
  assert (SH := mass_shape _ _ ty Va). split; [|split; [|split]].
  - rewrite total_trip; [|intros t I; apply (SH t I) ..].
    destruct ty; try congruence; unfold mass_blocks; repeat rewrite sumf_app; repeat rewrite sumf_map; repeat rewrite <- sumf_plus;
      apply sumf_ext; intros p I; unfold tval; cbn; try field.
    rewrite <- Rplus_assoc. apply voronoi_quads_ok. auto.
  - intros i j. unfold entry. destruct ty; try congruence; unfold mass_blocks; repeat rewrite sumf_app; repeat rewrite sumf_map; repeat rewrite <- sumf_plus;
      apply sumf_ext; intros p I; unfold trow, tcol, tval; cbn; rewrite ?(andb_comm (_ =? i)%Z); try ring.
  - intros i j. apply sumf_nonneg. intros t I. destruct (_ && _); [|lra].
    destruct ty; try congruence; unfold mass_blocks in I; in_blocks I; unfold tval; cbn;
     try (match goal with |- context [dblA ?l] => pose proof (dblA_nonneg l); lra end);
     match goal with H : In ?p L |- _ => destruct (voronoi_quads_ok _ (ND _ H)) as (_ & ? & ? & ? & _); auto end.
  - intros NF i j Nij. unfold entry. apply sumf_zero. intros t I.
    destruct (Z.eqb_spec (trow t) i), (Z.eqb_spec (tcol t) j); cbn; auto. exfalso. apply Nij.
    destruct ty; try congruence; unfold mass_blocks in I; in_blocks I; cbn in *; congruence.
Qed.

Lemma mass_polyline_total V n E : (forall e, In e E -> (0 <= fst e < Z.of_nat n)%Z /\ (0 <= snd e < Z.of_nat n)%Z) ->
  exists M, massmatrix_polyline V (Z.of_nat n) E = Ok M
    /\ sumn n (fun i => sumn n (fun j => entry M (Z.of_nat i) (Z.of_nat j))) = sumf (edge_length V) E
    /\ (forall i j, i <> j -> entry M i j = 0) /\ (forall i j, 0 <= entry M i j).
Proof.
  intros Va. eexists. 
  assert (SH : forall t, In t (map (fun e => (fst e, fst e, edge_length V e / 2)) E ++ map (fun e => (snd e, snd e, edge_length V e / 2)) E) ->
     (0 <= trow t < Z.of_nat n)%Z /\ (0 <= tcol t < Z.of_nat n)%Z).
  { intros t I. in_blocks I; match goal with H : In _ E |- _ => apply Va in H end; cbn; tauto. }
  split; [apply csr_ok; exact SH|]. split; [|split].
  - rewrite total_trip; [|intros t I; apply (SH t I) ..]. rewrite sumf_app, !sumf_map, <- sumf_plus. apply sumf_ext. intros. unfold tval; cbn. field.
  - intros i j Nij. apply sumf_zero. intros t I. destruct (Z.eqb_spec (trow t) i), (Z.eqb_spec (tcol t) j); cbn; auto. exfalso. apply Nij.
    in_blocks I; cbn in *; congruence.
  - intros i j. apply sumf_nonneg. intros t I. destruct (_ && _); [|lra]. in_blocks I; unfold tval; cbn; unfold edge_length;
     match goal with |- context [sqrt ?l] => pose proof (sqrt_pos l); lra end.
Qed.

(** polyline gradient: difference quotient *)
Lemma grad_polyline_ok V n E : (forall e, In e E -> (0 <= fst e < Z.of_nat n)%Z /\ (0 <= snd e < Z.of_nat n)%Z) ->
  exists G, grad_polyline V (Z.of_nat n) E = Ok G
    /\ forall x f e, nth_error E f = Some e -> edge_length V e <> 0 ->
       mulv n G x (Z.of_nat f) = (x (snd e) - x (fst e)) / edge_length V e.
Proof.
  intros Va. eexists.
  set (es := combine (map Z.of_nat (seq 0 (length E))) E).
  assert (SH : forall t, In t (map (fun p => (fst p, fst (snd p), - (1 / edge_length V (snd p)))) es ++
     map (fun p => (fst p, snd (snd p), 1 / edge_length V (snd p))) es) ->
     (0 <= trow t < Z.of_nat (length E))%Z /\ (0 <= tcol t < Z.of_nat n)%Z).
  { intros t I. in_blocks I; match goal with H : In _ es |- _ => apply idx_combine in H as [? H]; apply Va in H end; unfold trow, tcol; cbn; tauto. }
  split; [apply csr_ok; exact SH|]. intros x f e Ee NZ.
  rewrite mulv_trip by (intros t I; apply (SH t I)). rewrite sumf_app, !sumf_map. unfold trow, tcol, tval; cbn [fst snd].
  unfold es. rewrite !(sum_pick_combine (fun p => _) E f e Ee). cbn. field; auto.
Qed.

(** ** Dirichlet energy: x' L x = sum over faces of area * |grad x|^2 *)
Lemma grad_norm_sq V x t : fnormal V t <> zero3 ->
  let v02 := sub3 (V (c0 t)) (V (c2 t)) in let v10 := sub3 (V (c1 t)) (V (c0 t)) in
  let k1 := x (c1 t) - x (c0 t) in let k2 := x (c2 t) - x (c0 t) in
  dot3 (face_grad V x t) (face_grad V x t) * dot3 (fnormal V t) (fnormal V t)
  = k1*k1*dot3 v02 v02 + 2*k1*k2*dot3 v02 v10 + k2*k2*dot3 v10 v10.
Proof.
  intros N v02 v10 k1 k2.
  assert (D : dot3 (fnormal V t) (fnormal V t) <> 0) by (intros Q; apply N, dot_self_zero; auto).
  destruct (face_grad_spec V x t N) as (A & B & C).
  set (g := face_grad V x t) in *. set (n := fnormal V t) in *.
  pose proof (frame_decomp (sub3 (V (c1 t)) (V (c0 t))) (sub3 (V (c2 t)) (V (c0 t))) g) as E.
  fold (fnormal V t) in E. fold n in E. rewrite A, B, C in E. fold k1 k2 in E.
  assert (E2 : dot3 (scal3 (dot3 n n) g) g = k1 * dot3 (cross3 (sub3 (V (c2 t)) (V (c0 t))) n) g + k2 * dot3 (cross3 n (sub3 (V (c1 t)) (V (c0 t)))) g).
  { rewrite E. unfold dot3, add3, scal3, X, Y, Zc; cbn. ring. }
  assert (E3 : dot3 (scal3 (dot3 n n) g) g = dot3 g g * dot3 n n) by (generalize (dot3 n n) as kk; intros; unfold dot3, scal3, X, Y, Zc; cbn; ring).
  rewrite <- E3, E2.
  apply (Rmult_eq_reg_r (dot3 n n)); auto.
  assert (E4 : forall w, dot3 w g * dot3 n n = dot3 w (scal3 (dot3 n n) g)) by (intros; generalize (dot3 n n) as kk; intros; unfold dot3, scal3, X, Y, Zc; cbn; ring).
  transitivity (k1 * (dot3 (cross3 (sub3 (V (c2 t)) (V (c0 t))) n) g * dot3 n n) + k2 * (dot3 (cross3 n (sub3 (V (c1 t)) (V (c0 t)))) g * dot3 n n)); [ring|].
  rewrite !E4, E. clear -k1 k2. unfold n, fnormal, v02, v10. generalize (V (c0 t)) as p, (V (c1 t)) as q, (V (c2 t)) as r. clearbody k1 k2. intros.
  unfold dot3, add3, scal3, cross3, sub3, X, Y, Zc; cbn. ring.
Qed.

Lemma face_energy_dirichlet V x t : fnormal V t <> zero3 ->
  face_energy (lsq_face (fun i => row_of3 (V i)) t) (x (c0 t)) (x (c1 t)) (x (c2 t))
  = doublearea (fun i => row_of3 (V i)) t / 2 * dot3 (face_grad V x t) (face_grad V x t).
Proof.
  intros N. pose proof (grad_norm_sq V x t N) as G. cbn zeta in G.
  assert (D : dot3 (fnormal V t) (fnormal V t) <> 0) by (intros Q; apply N, dot_self_zero; auto).
  unfold face_energy, cotw. fold (doublearea (fun i => row_of3 (V i)) t).
  rewrite doublearea_3d. fold (fnormal V t).
  assert (NN : norm3 (fnormal V t) <> 0) by (intros Q; apply D, norm3_zero; auto).
  pose proof (norm3_sq (fnormal V t)) as SQ. rewrite <- SQ in G.
  set (A := norm3 (fnormal V t)) in *. set (g2 := dot3 (face_grad V x t) (face_grad V x t)) in *.
  assert (G2 : g2 = (g2 * (A * A)) / (A * A)) by (field; auto). rewrite G2, G. clear G2 G. clearbody A.
  unfold lsq_face, sqlen, row_of3, dotl, subl, dot3, sub3, X, Y, Zc; cbn [fst snd].
  replace 0.25 with (1/4) by lra. field; auto.
Qed.

Lemma triangle_nondeg l : triangle_lengths l -> nondeg l.
Proof.
  destruct l as [[a b] c]. unfold triangle_lengths, nondeg, X, Y, Zc; cbn [fst snd]. intros (A & B & C & H1 & H2 & H3).
  repeat split; auto. unfold dblA, X, Y, Zc; cbn [fst snd].
  set (x := sqrt a) in *. set (y := sqrt b) in *. set (z := sqrt c) in *.
  assert (P : 0 < (x+(y+z)) * (z-(x-y)) * (z+(x-y)) * (x+(y-z))) by (repeat apply Rmult_lt_0_compat; lra).
  rewrite Rmax_left by lra. pose proof (sqrt_lt_R0 _ P). lra.
Qed.
Lemma nondeg_3d V t : fnormal V t <> zero3 -> nondeg (lsq_face (fun i => row_of3 (V i)) t).
Proof.
  intros N. unfold nondeg. repeat split; try apply sqlen_nonneg. fold (doublearea (fun i => row_of3 (V i)) t).
  rewrite doublearea_3d. intros Q. apply N, dot_self_zero, norm3_zero; auto.
Qed.
Lemma lap_is n L : valid n (map fst L) -> cotangent_laplacian_intrinsic L n = Ok (lap_blocks L).
Proof. intros Va. apply csr_ok. intros t I; exact (lap_shape n L Va t I). Qed.

Lemma cot_lap_ok L n : valid (Z.of_nat n) (map fst L) -> (forall p, In p L -> triangle_lengths (snd p)) ->
  exists M, cotangent_laplacian_intrinsic L (Z.of_nat n) = Ok M
    /\ (forall i j, entry M i j = entry M j i)
    /\ (forall c i, mulv n M (fun _ => c) i = 0)
    /\ (forall x, 0 <= quadform n M x).
Proof.
  intros Va T. exists (lap_blocks L). split; [apply lap_is; auto|]. split; [apply lap_sym|]. split.
  - intros c i. pose proof (lap_const n L i Va) as Q. unfold mulv, sumn in *.
    rewrite <- (Rmult_0_r c), <- Q, <- sumf_scal. apply sumf_ext. intros; ring.
  - intros x. rewrite lap_quad by auto. apply sumf_nonneg. intros p I. apply face_energy_nonneg, triangle_nondeg; auto.
Qed.

Lemma with_lsq_fst V F : map fst (with_lsq V F) = F.
Proof. unfold with_lsq. rewrite map_map. cbn. apply map_id. Qed.

Lemma cot_lap_3d V F n : valid (Z.of_nat n) F -> (forall t, In t F -> fnormal V t <> zero3) ->
  exists M G, cotangent_laplacian (fun i => row_of3 (V i)) (Z.of_nat n) F = Ok M
    /\ grad3 V (Z.of_nat n) F = Ok G
    /\ (forall i j, entry M i j = entry M j i)
    /\ (forall c i, mulv n M (fun _ => c) i = 0)
    /\ (forall x, 0 <= quadform n M x)
    /\ (forall x, quadform n M x = sumf (fun p => let '(f, t) := p in
          norm3 (fnormal V t) / 2 * ((mulv n G x (Z.of_nat f))^2 + (mulv n G x (Z.of_nat (length F + f)))^2
                                     + (mulv n G x (Z.of_nat (2 * length F + f)))^2))
          (combine (seq 0 (length F)) F)).
Proof.
  intros Va T. unfold cotangent_laplacian.
  assert (Va' : valid (Z.of_nat n) (map fst (with_lsq (fun i => row_of3 (V i)) F))) by (rewrite with_lsq_fst; auto).
  exists (lap_blocks (with_lsq (fun i => row_of3 (V i)) F)), (grad_blocks V F).
  split; [apply lap_is; auto|]. split; [apply csr_ok, grad_shape; auto|]. split; [apply lap_sym|].
  assert (EN : forall p, In p (with_lsq (fun i => row_of3 (V i)) F) -> nondeg (snd p)).
  { intros p I. unfold with_lsq in I. apply in_map_iff in I as (t & <- & I). apply nondeg_3d; auto. }
  split; [|split].
  - intros c i. pose proof (lap_const n (with_lsq (fun i => row_of3 (V i)) F) i Va') as Q. unfold mulv, sumn in *.
    rewrite <- (Rmult_0_r c), <- Q, <- sumf_scal. apply sumf_ext. intros; ring.
  - intros x. rewrite lap_quad by auto. apply sumf_nonneg. intros p I. apply face_energy_nonneg; auto.
  - intros x. rewrite lap_quad by auto. unfold with_lsq. rewrite sumf_map. cbn [fst snd].
    assert (C : cols_in n (grad_blocks V F)) by (intros u I; apply (grad_shape V F _ Va u I)).
    assert (G : forall s F', (forall k t, nth_error F' k = Some t -> nth_error F (s + k) = Some t) ->
      sumf (fun t => face_energy (lsq_face (fun i => row_of3 (V i)) t) (x (c0 t)) (x (c1 t)) (x (c2 t))) F' =
      sumf (fun p => let '(f, t) := p in
          norm3 (fnormal V t) / 2 * ((mulv n (grad_blocks V F) x (Z.of_nat f))^2 + (mulv n (grad_blocks V F) x (Z.of_nat (length F + f)))^2
                                     + (mulv n (grad_blocks V F) x (Z.of_nat (2 * length F + f)))^2)) (combine (seq s (length F')) F')).
    { intros s F'; revert s; induction F' as [|t F' IH]; intros s Q; [reflexivity|]. cbn [length seq combine sumf].
      rewrite (IH (S s)) by (intros k u E; rewrite Nat.add_succ_comm; apply (Q (S k)); auto). f_equal.
      assert (E := Q 0%nat t eq_refl). rewrite Nat.add_0_r in E.
      rewrite face_energy_dirichlet by (apply T; eapply nth_error_In; eauto). rewrite doublearea_3d. fold (fnormal V t).
      rewrite !mulv_trip by auto.
      pose proof (grad_row_sum V x F s t 0 E ltac:(lia)) as H0. pose proof (grad_row_sum V x F s t 1 E ltac:(lia)) as H1.
      pose proof (grad_row_sum V x F s t 2 E ltac:(lia)) as H2.
      replace (1 * length F + s)%nat with (length F + s)%nat in H1 by lia.
      replace (0 * length F + s)%nat with s in H0 by lia.
      rewrite H0, H1, H2. generalize (face_grad V x t) as v. generalize (norm3 (fnormal V t)) as A. intros A [[a b] c].
      unfold dot3, grad_comp, X, Y, Zc; cbn [fst snd]. field. }
    apply (G 0%nat). auto.
Qed.

Lemma mass_3d V F n ty : valid (Z.of_nat n) F -> (forall t, In t F -> fnormal V t <> zero3) -> ty <> OtherType ->
  exists M, massmatrix (fun i => row_of3 (V i)) (Z.of_nat n) F ty = Ok M
    /\ sumn n (fun i => sumn n (fun j => entry M (Z.of_nat i) (Z.of_nat j))) = sumf (fun t => norm3 (fnormal V t) / 2) F
    /\ (forall i j, entry M i j = entry M j i)
    /\ (forall i j, 0 <= entry M i j)
    /\ (ty <> Full -> forall i j, i <> j -> entry M i j = 0).
Proof.
  intros Va T N. unfold massmatrix. destruct (mass_total n (with_lsq (fun i => row_of3 (V i)) F) ty) as (M & E & S & R); auto.
  - rewrite with_lsq_fst; auto.
  - intros p I. unfold with_lsq in I. apply in_map_iff in I as (t & <- & I). apply nondeg_3d; auto.
  - exists M. split; auto. split; auto. rewrite S. unfold with_lsq. rewrite sumf_map. apply sumf_ext. intros t I. cbn [fst snd].
    fold (doublearea (fun i => row_of3 (V i)) t). rewrite doublearea_3d. reflexivity.
Qed.
