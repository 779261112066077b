(** Lemmas for P_Flip: valences, the shape test, igl's flip as a witness *)
From Coq Require Import Reals Lra List Arith Bool Lia ZArith.
From Verif Require Import Vec SplitModel SplitProofs Split3Proofs Split4Proofs FlipModel FlipProofs.
Import ListNotations.
Open Scope nat_scope.

(** -- valences -- *)
Definition b2n (b : bool) : nat := if b then 1 else 0.
Lemma count_S p M : length (filter p (seq 0 (S M))) = length (filter p (seq 0 M)) + b2n (p M).
Proof. rewrite seq_S, filter_app, app_length. cbn. destruct (p M); cbn; lia. Qed.
Lemma count_two p p' M a b : a < M -> b < M -> a <> b -> (forall f, f < M -> f <> a -> f <> b -> p' f = p f) ->
  length (filter p' (seq 0 M)) + b2n (p a) + b2n (p b) = length (filter p (seq 0 M)) + b2n (p' a) + b2n (p' b).
Proof.
  intros A B NE E. assert (K : forall k, k <= M -> length (filter p' (seq 0 k)) + (if a <? k then b2n (p a) else 0) + (if b <? k then b2n (p b) else 0) = length (filter p (seq 0 k)) + (if a <? k then b2n (p' a) else 0) + (if b <? k then b2n (p' b) else 0)).
  { induction k as [|k IH]; intros Hk; [reflexivity|]. rewrite !count_S. specialize (IH ltac:(lia)).
    destruct (Nat.eq_dec k a) as [->|Na]; [|destruct (Nat.eq_dec k b) as [->|Nb]].
    - destruct (Nat.ltb_spec a a), (Nat.ltb_spec a (S a)), (Nat.ltb_spec b a), (Nat.ltb_spec b (S a)); lia.
    - destruct (Nat.ltb_spec b b), (Nat.ltb_spec b (S b)), (Nat.ltb_spec a b), (Nat.ltb_spec a (S b)); lia.
    - rewrite (E k) by lia. destruct (Nat.ltb_spec a k), (Nat.ltb_spec a (S k)), (Nat.ltb_spec b k), (Nat.ltb_spec b (S k)); lia. }
  specialize (K M (le_n M)). destruct (Nat.ltb_spec a M), (Nat.ltb_spec b M); lia.
Qed.
Definition has_corner (F : nat -> nat -> nat) (v f : nat) : bool := Nat.eqb (F f 0) v || Nat.eqb (F f 1) v || Nat.eqb (F f 2) v.
Lemma has_rot F v f c : c < 3 -> has_corner F v f = Nat.eqb (F f c) v || Nat.eqb (F f ((c + 1) mod 3)) v || Nat.eqb (F f ((c + 2) mod 3)) v.
Proof. intros L. unfold has_corner. destruct (three c L) as [->|[->| ->]]; cbn; destruct (F f 0 =? v), (F f 1 =? v), (F f 2 =? v); reflexivity. Qed.
Lemma flip_valence F F' M N f1 c1 f2 c2 v1 v2 v3 v4 : omesh F M N -> f1 < M -> c1 < 3 -> f2 < M -> c2 < 3 -> he F f1 c1 = swap (he F f2 c2) ->
  v1 = F f1 ((c1 + 1) mod 3) -> v2 = F f1 ((c1 + 2) mod 3) -> v4 = F f1 c1 -> v3 = F f2 c2 -> flipped F F' M f1 c1 f2 c2 ->
  forall v, valence F' M v + b2n (Nat.eqb v v1) + b2n (Nat.eqb v v2) = valence F M v + b2n (Nat.eqb v v3) + b2n (Nat.eqb v v4).
Proof.
  intros HO L1 K1 L2 K2 HR V1 V2 V4 V3 HF v. pose proof (fne F M N f1 c1 f2 c2 HO L1 K1 K2 HR _ _ _ _ v1 v2 eq_refl eq_refl eq_refl eq_refl V1 V2) as NE.
  destruct (fvb F f1 c1 f2 c2 HR _ _ _ _ v1 v2 eq_refl eq_refl eq_refl eq_refl V1 V2) as (B1 & B2). destruct (fdist F M N f1 c1 f2 c2 HO L1 K1 L2 K2 HR _ _ _ _ v1 v2 v3 v4 eq_refl eq_refl eq_refl eq_refl V1 V2 V4 V3) as (Z1 & Z2 & Z3 & Z4 & Z5 & Z6 & _).
  destruct (fnew F F' M f1 c1 f2 c2 _ _ v1 v2 v3 v4 eq_refl eq_refl V1 V2 V4 V3 HF) as (A1 & A2 & A3 & A4 & A5 & A6 & AO).
  pose proof (count_two (has_corner F v) (has_corner F' v) M f1 f2 L1 L2 NE) as C. specialize (C ltac:(intros f Lf N1 N2; unfold has_corner; rewrite !AO by (auto; lia); reflexivity)).
  fold (has_corner F v) in *. change (length (filter (has_corner F v) (seq 0 M))) with (valence F M v) in C. change (length (filter (has_corner F' v) (seq 0 M))) with (valence F' M v) in C.
  rewrite (has_rot F v f1 c1), (has_rot F v f2 c2) in C by auto. rewrite <- V1, <- V2, <- V3, <- V4, B1, B2 in C. unfold has_corner in C. rewrite A1, A2, A3, A4, A5, A6 in C.
  assert (SY : forall x, (v =? x) = (x =? v)) by (intros; apply Nat.eqb_sym). rewrite (SY v1), (SY v2), (SY v3), (SY v4).
  destruct (Nat.eqb_spec v1 v), (Nat.eqb_spec v2 v), (Nat.eqb_spec v3 v), (Nat.eqb_spec v4 v); cbn in *; try congruence; lia.
Qed.
Lemma face_counts_ok F N : forall M, omesh F M N -> forall v, face_counts F M v = Z.of_nat (valence F M v).
Proof.
  intros M HO. pose proof (om_dist _ _ _ HO) as OD. clear HO. induction M as [|M IH]; intros v; [reflexivity|].
  unfold face_counts. rewrite seq_S, fold_left_app. cbn [fold_left plus]. fold (face_counts F M). unfold valence. fold (has_corner F v). rewrite count_S. change (length (filter (has_corner F v) (seq 0 M))) with (valence F M v).
  rewrite Nat2Z.inj_add, <- IH by (intros; eapply OD; eauto). assert (D1 : F M 0 <> F M 1) by (intros E; apply OD in E; lia). assert (D2 : F M 0 <> F M 2) by (intros E; apply OD in E; lia). assert (D3 : F M 1 <> F M 2) by (intros E; apply OD in E; lia).
  unfold bump, set1, has_corner. destruct (Nat.eqb_spec v (F M 0)), (Nat.eqb_spec v (F M 1)), (Nat.eqb_spec v (F M 2)), (Nat.eqb_spec (F M 0) v), (Nat.eqb_spec (F M 1) v), (Nat.eqb_spec (F M 2) v), (Nat.eqb_spec (F M 2) (F M 1)), (Nat.eqb_spec (F M 2) (F M 0)), (Nat.eqb_spec (F M 1) (F M 0)); cbn [orb b2n]; try congruence; repeat match goal with E : v = _ |- _ => rewrite <- E; clear E end; lia.
Qed.
Lemma neighbours_ok F M x y : edge F M x y -> In y (neighbours F M x) /\ In x (neighbours F M y).
Proof.
  intros (f & c & Lf & Lc & E). unfold he in E. assert (E1 := f_equal fst E). assert (E2 := f_equal snd E). cbn [fst snd] in E1, E2. assert (Ic : In c [0; 1; 2]) by (destruct (three c Lc) as [->|[->| ->]]; cbn; auto). unfold neighbours. split; apply in_flat_map; exists f; (split; [apply in_seq; lia|]); apply in_flat_map; exists c; (split; [auto|]); cbv zeta; apply in_or_app; rewrite E1, E2.
  - left. rewrite Nat.eqb_refl. left; auto. - right. rewrite Nat.eqb_refl. left; auto.
Qed.
Definition zsum (n : nat) (g : nat -> Z) : Z := fold_right Z.add 0%Z (map g (seq 0 n)).
Lemma zsum_S n g : zsum (S n) g = (zsum n g + g n)%Z.
Proof. unfold zsum. rewrite seq_S, map_app, fold_right_app. cbn [map fold_right plus]. assert (G : forall l a, fold_right Z.add a l = (fold_right Z.add 0 l + a)%Z) by (induction l as [|x l IH]; intros a; cbn; [lia|rewrite IH; lia]). rewrite G. lia. Qed.
Lemma zsum_ext n g g' : (forall v, v < n -> g v = g' v) -> zsum n g = zsum n g'.
Proof. intros E. unfold zsum. f_equal. apply map_ext_in. intros v I. apply in_seq in I. apply E. lia. Qed.
Lemma zsum_set n g a x : a < n -> zsum n (set1 g a x) = (zsum n g - g a + x)%Z.
Proof.
  induction n as [|n IH]; intros L; [lia|]. rewrite !zsum_S. unfold set1 at 2. destruct (Nat.eqb_spec n a) as [->|NE].
  - rewrite (zsum_ext a (set1 g a x) g) by (intros v Lv; unfold set1; destruct (Nat.eqb_spec v a); [lia|auto]). lia.
  - rewrite IH by lia. lia.
Qed.

(** -- the shape test -- *)
Definition normal (A B C : vec3) : vec3 := cross3 (sub3 B A) (sub3 C A).
(** the two vectors are nonzero and at most sixty degrees apart *)
Definition within60 (u v : vec3) : Prop := (0 < norm3 u /\ 0 < norm3 v /\ norm3 u * norm3 v / 2 <= dot3 u v)%R.
Definition good_shape (p1 p2 p3 p4 : vec3) : Prop :=
  within60 (normal p4 p1 p2) (normal p1 p3 p4) /\ within60 (normal p4 p1 p2) (normal p2 p4 p3) /\ within60 (normal p3 p2 p1) (normal p1 p3 p4) /\ within60 (normal p3 p2 p1) (normal p2 p4 p3).
Lemma nsq v : (norm3 v * norm3 v = dot3 v v)%R.
Proof. unfold norm3. apply sqrt_sqrt. unfold dot3. nra. Qed.
Lemma heron_ok A B C : (4 * heron (norm3 (sub3 A B)) (norm3 (sub3 A C)) (norm3 (sub3 C B)) = norm3 (normal A B C) * norm3 (normal A B C))%R.
Proof.
  rewrite nsq. unfold heron. set (a := norm3 (sub3 A B)). set (b := norm3 (sub3 A C)). set (c := norm3 (sub3 C B)).
  assert (Ea : (a * a = dot3 (sub3 A B) (sub3 A B))%R) by apply nsq. assert (Eb : (b * b = dot3 (sub3 A C) (sub3 A C))%R) by apply nsq. assert (Ec : (c * c = dot3 (sub3 C B) (sub3 C B))%R) by apply nsq. clearbody a b c.
  transitivity ((2 * (a * a) * (b * b) + 2 * (b * b) * (c * c) + 2 * (c * c) * (a * a) - (a * a) * (a * a) - (b * b) * (b * b) - (c * c) * (c * c)) / 4)%R; [field|]. rewrite Ea, Eb, Ec. unfold normal, dot3, cross3, sub3, X, Y, Zc. cbn [fst snd]. field.
Qed.
Lemma norm_nonneg v : (0 <= norm3 v)%R. Proof. apply sqrt_pos. Qed.
Lemma normalize_pos v : (0 < norm3 v)%R -> normalize v = scal3 (/ norm3 v) v.
Proof. intros P. unfold normalize. destruct (Rlt_dec 0 (dot3 v v)) as [L|L]; [auto|]. exfalso. apply L. rewrite <- nsq. nra. Qed.
Lemma dot_scal a b u v : (dot3 (scal3 a u) (scal3 b v) = a * b * dot3 u v)%R. Proof. unfold dot3, scal3, X, Y, Zc. cbn [fst snd]. ring. Qed.
Lemma normalize_test u v : (0 < norm3 v)%R -> lt_b (dot3 (normalize u) (normalize v)) (norm3 (normalize v) / 2) = false -> within60 u v.
Proof.
  intros P. unfold lt_b. destruct (Rlt_dec (dot3 (normalize u) (normalize v)) (norm3 (normalize v) / 2)) as [L|L]; [discriminate|]. intros _. rewrite (normalize_pos v P) in L. rewrite norm3_scal in L by (left; apply Rinv_0_lt_compat; auto). replace (/ norm3 v * norm3 v)%R with 1%R in L by (field; lra).
  destruct (Rle_lt_or_eq_dec 0 (norm3 u) (norm_nonneg u)) as [Q|Q].
  - rewrite (normalize_pos u Q), dot_scal in L. split; [auto|]. split; [auto|]. apply Rnot_lt_le in L. apply (Rmult_le_compat_l (norm3 u * norm3 v)) in L; [|nra]. replace (norm3 u * norm3 v * (/ norm3 u * / norm3 v * dot3 u v))%R with (dot3 u v) in L by (field; lra). lra.
  - exfalso. apply L. assert (Z : dot3 u u = 0%R) by (rewrite <- nsq, <- Q; ring). assert (U : u = (0, 0, 0)%R) by (unfold dot3 in Z; apply vec3_eq; unfold X, Y, Zc in *; cbn [fst snd]; nra).
    assert (NU : normalize u = u) by (unfold normalize; rewrite Z; destruct (Rlt_dec 0 0); [lra|auto]). rewrite NU, U. unfold dot3, X, Y, Zc. cbn [fst snd]. lra.
Qed.
Lemma within_neg u v : within60 (scal3 (-1) u) (scal3 (-1) v) -> within60 u v.
Proof. assert (N : forall w, norm3 (scal3 (-1) w) = norm3 w) by (intros; unfold norm3; f_equal; rewrite dot_scal; ring). unfold within60. rewrite !N, dot_scal. intros (A & B & C). split; [auto|]. split; [auto|]. lra. Qed.
Lemma shape_ok p1 p2 p3 p4 : bad_shape p1 p2 p3 p4 = false -> good_shape p1 p2 p3 p4.
Proof.
  unfold bad_shape. cbv zeta. rewrite !orb_false_iff. intros (((((T1 & T2) & T3) & T4) & H1) & H2).
  assert (P1 : (0 < norm3 (normal p1 p3 p4))%R).
  { destruct (Rle_lt_or_eq_dec 0 _ (norm_nonneg (normal p1 p3 p4))) as [Q|Q]; [auto|]. exfalso. pose proof (heron_ok p1 p3 p4) as HK. rewrite <- Q in HK. unfold zero_b in H1. destruct (Req_EM_T (heron (norm3 (sub3 p1 p3)) (norm3 (sub3 p1 p4)) (norm3 (sub3 p4 p3))) 0); [discriminate|]. lra. }
  assert (P2 : (0 < norm3 (normal p2 p3 p4))%R).
  { destruct (Rle_lt_or_eq_dec 0 _ (norm_nonneg (normal p2 p3 p4))) as [Q|Q]; [auto|]. exfalso. pose proof (heron_ok p2 p3 p4) as HK. rewrite <- Q in HK. unfold zero_b in H2. destruct (Req_EM_T (heron (norm3 (sub3 p2 p3)) (norm3 (sub3 p2 p4)) (norm3 (sub3 p4 p3))) 0); [discriminate|]. lra. }
  assert (N : forall w, norm3 (scal3 (-1) w) = norm3 w) by (intros; unfold norm3; f_equal; rewrite dot_scal; ring).
  assert (O1 : cross3 (sub3 p2 p1) (sub3 p3 p1) = scal3 (-1) (normal p3 p2 p1)) by (apply vec3_eq; unfold normal, cross3, scal3, sub3, X, Y, Zc; cbn [fst snd]; ring).
  assert (O2 : cross3 (sub3 p4 p1) (sub3 p2 p1) = scal3 (-1) (normal p4 p1 p2)) by (apply vec3_eq; unfold normal, cross3, scal3, sub3, X, Y, Zc; cbn [fst snd]; ring).
  assert (G1 : cross3 (sub3 p4 p1) (sub3 p3 p1) = scal3 (-1) (normal p1 p3 p4)) by (apply vec3_eq; unfold normal, cross3, scal3, sub3, X, Y, Zc; cbn [fst snd]; ring).
  assert (G2 : cross3 (sub3 p2 p4) (sub3 p3 p4) = scal3 (-1) (normal p2 p4 p3)) by (apply vec3_eq; unfold normal, cross3, scal3, sub3, X, Y, Zc; cbn [fst snd]; ring).
  assert (G3 : cross3 (sub3 p4 p3) (sub3 p2 p3) = scal3 (-1) (normal p2 p4 p3)) by (apply vec3_eq; unfold normal, cross3, scal3, sub3, X, Y, Zc; cbn [fst snd]; ring).
  assert (P2' : (0 < norm3 (normal p2 p4 p3))%R) by (rewrite <- N; replace (scal3 (-1) (normal p2 p4 p3)) with (normal p2 p3 p4) by (apply vec3_eq; unfold normal, cross3, scal3, sub3, X, Y, Zc; cbn [fst snd]; ring); auto).
  rewrite O1, G1 in T1. rewrite O1, G2 in T2. rewrite O2, G3 in T3. rewrite O2, G1 in T4. apply normalize_test in T1; [|rewrite N; auto]. apply normalize_test in T2; [|rewrite N; auto]. apply normalize_test in T3; [|rewrite N; auto]. apply normalize_test in T4; [|rewrite N; auto].
  repeat split; try (apply within_neg in T1; unfold within60 in T1; tauto); try (apply within_neg in T2; unfold within60 in T2; tauto); try (apply within_neg in T3; unfold within60 in T3; tauto); apply within_neg in T4; unfold within60 in T4; tauto.
Qed.
Lemma test_conv u v : within60 u v -> lt_b (dot3 (normalize u) (normalize v)) (norm3 (normalize v) / 2) = false.
Proof.
  intros (P & Q & C). unfold lt_b. destruct (Rlt_dec (dot3 (normalize u) (normalize v)) (norm3 (normalize v) / 2)) as [L|L]; [|auto]. exfalso. rewrite !normalize_pos in L by auto. rewrite norm3_scal in L by (left; apply Rinv_0_lt_compat; auto). replace (/ norm3 v * norm3 v)%R with 1%R in L by (field; lra). rewrite dot_scal in L.
  apply (Rmult_lt_compat_l (norm3 u * norm3 v)) in L; [|nra]. replace (norm3 u * norm3 v * (/ norm3 u * / norm3 v * dot3 u v))%R with (dot3 u v) in L by (field; lra). lra.
Qed.
Lemma neg_within u v : within60 u v -> within60 (scal3 (-1) u) (scal3 (-1) v).
Proof. assert (N : forall w, norm3 (scal3 (-1) w) = norm3 w) by (intros; unfold norm3; f_equal; rewrite dot_scal; ring). unfold within60. rewrite !N, dot_scal. intros (A & B & C). split; [auto|]. split; [auto|]. lra. Qed.
Lemma shape_conv p1 p2 p3 p4 : good_shape p1 p2 p3 p4 -> bad_shape p1 p2 p3 p4 = false.
Proof.
  intros (T1 & T2 & T3 & T4). assert (N : forall w, norm3 (scal3 (-1) w) = norm3 w) by (intros; unfold norm3; f_equal; rewrite dot_scal; ring).
  assert (P1 : (0 < norm3 (normal p1 p3 p4))%R) by apply T1. assert (P2 : (0 < norm3 (normal p2 p3 p4))%R) by (rewrite <- N; replace (scal3 (-1) (normal p2 p3 p4)) with (normal p2 p4 p3) by (apply vec3_eq; unfold normal, cross3, scal3, sub3, X, Y, Zc; cbn [fst snd]; ring); apply T2).
  assert (O1 : cross3 (sub3 p2 p1) (sub3 p3 p1) = scal3 (-1) (normal p3 p2 p1)) by (apply vec3_eq; unfold normal, cross3, scal3, sub3, X, Y, Zc; cbn [fst snd]; ring).
  assert (O2 : cross3 (sub3 p4 p1) (sub3 p2 p1) = scal3 (-1) (normal p4 p1 p2)) by (apply vec3_eq; unfold normal, cross3, scal3, sub3, X, Y, Zc; cbn [fst snd]; ring).
  assert (G1 : cross3 (sub3 p4 p1) (sub3 p3 p1) = scal3 (-1) (normal p1 p3 p4)) by (apply vec3_eq; unfold normal, cross3, scal3, sub3, X, Y, Zc; cbn [fst snd]; ring).
  assert (G2 : cross3 (sub3 p2 p4) (sub3 p3 p4) = scal3 (-1) (normal p2 p4 p3)) by (apply vec3_eq; unfold normal, cross3, scal3, sub3, X, Y, Zc; cbn [fst snd]; ring).
  assert (G3 : cross3 (sub3 p4 p3) (sub3 p2 p3) = scal3 (-1) (normal p2 p4 p3)) by (apply vec3_eq; unfold normal, cross3, scal3, sub3, X, Y, Zc; cbn [fst snd]; ring).
  unfold bad_shape. cbv zeta. rewrite O1, O2, G1, G2, G3. rewrite !test_conv by (apply neg_within; auto). cbn [orb]. unfold zero_b. pose proof (heron_ok p1 p3 p4) as H1. pose proof (heron_ok p2 p3 p4) as H2.
  destruct (Req_EM_T (heron (norm3 (sub3 p1 p3)) (norm3 (sub3 p1 p4)) (norm3 (sub3 p4 p3))) 0) as [Z|_]; [exfalso; rewrite Z in H1; nra|]. destruct (Req_EM_T (heron (norm3 (sub3 p2 p3)) (norm3 (sub3 p2 p4)) (norm3 (sub3 p4 p3))) 0) as [Z|_]; [exfalso; rewrite Z in H2; nra|]. reflexivity.
Qed.
Lemma neighbours_conv F M x y : In y (neighbours F M x) -> edge F M x y \/ edge F M y x.
Proof.
  unfold neighbours. rewrite in_flat_map. intros (f & If & I). apply in_flat_map in I. destruct I as (c & Ic & I). apply in_seq in If. assert (Lc : c < 3) by (cbn in Ic; lia). cbv zeta in I. apply in_app_or in I.
  destruct I as [I|I]; [left|right]; exists f, c; (split; [lia|]); (split; [auto|]); unfold he.
  - destruct (Nat.eqb_spec (F f ((c + 1) mod 3)) x) as [->|]; [|destruct I]. destruct I as [->|[]]. reflexivity.
  - destruct (Nat.eqb_spec (F f ((c + 2) mod 3)) x) as [->|]; [|destruct I]. destruct I as [->|[]]. reflexivity.
Qed.
