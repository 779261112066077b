(** C91, resolve_collisions_on_sphere.cpp:153-200: the search for a new point in the plane is complete: whenever one of the intersections of the sample's circle with another circle is admissible, the point does not stay where it was for lack of a candidate. *)
From Coq Require Import List Arith Bool Lia Reals Lra.
From Verif Require Import Vec ArcsModel ArcsProofs P_Arcs.
Import ListNotations.
Open Scope R_scope.

Lemma circle_complete c1 r1 c2 r2 x : c2 <> c1 -> norm2 (sub2 x c1) = r1 -> dot2 (sub2 x c2) (sub2 x c2) = r2 * r2 -> exists i1 i2, circle_circle_intersect c1 r1 c2 r2 = Some (i1, i2) /\ (x = i1 \/ x = i2).
Proof.
  intros N X1 X2. unfold circle_circle_intersect. set (d := norm2 (sub2 c1 c2)). set (a := _ / (2 * d)).
  assert (DP : 0 < dot2 (sub2 c2 c1) (sub2 c2 c1)) by (apply diff2; auto). assert (DD : d * d = dot2 (sub2 c2 c1) (sub2 c2 c1)) by (unfold d; rewrite norm2_sq; unfold dot2, sub2; cbn [fst snd]; ring).
  assert (d0 : 0 < d) by (assert (0 <= d) by apply norm2_pos; nra).
  assert (X1' : dot2 (sub2 x c1) (sub2 x c1) = r1 * r1) by (rewrite <- X1, norm2_sq; auto).
  set (v := sub2 c2 c1) in *. set (u := sub2 x c1) in *.
  assert (W : sub2 x c2 = sub2 u v) by (unfold u, v, sub2; cbn [fst snd]; apply vec2_eq; cbn [fst snd]; ring).
  assert (XY : fst v * fst v + snd v * snd v = d * d) by (rewrite DD; reflexivity).
  assert (UO : unit_orthogonal v = (- snd v / d, fst v / d)).
  { unfold unit_orthogonal. assert (P : dot2 (- snd v, fst v) (- snd v, fst v) = d * d) by (rewrite DD; unfold dot2; cbn [fst snd]; ring).
    destruct (unit2_ok (- snd v, fst v)) as (_ & ->); [rewrite P; nra|]. rewrite (norm2_is _ d) by (auto; lra). unfold scal2. cbn [fst snd]. apply vec2_eq; cbn [fst snd]; field; lra. }
  assert (UV : fst u * fst v + snd u * snd v = a * d).
  { rewrite W in X2. unfold dot2, sub2 in X1', X2. cbn [fst snd] in X1', X2. assert (E : a * d * 2 = r1 * r1 - r2 * r2 + d * d) by (unfold a; field; lra). nra. }
  set (t := (snd u * fst v - fst u * snd v) / d).
  assert (U1 : fst u = a / d * fst v - t / d * snd v).
  { unfold t. transitivity ((fst u * (fst v * fst v + snd v * snd v)) / (d * d)); [rewrite XY; field; lra|]. replace (a / d) with ((fst u * fst v + snd u * snd v) / (d * d)) by (rewrite UV; field; lra). field; lra. }
  assert (U2 : snd u = a / d * snd v + t / d * fst v).
  { unfold t. transitivity ((snd u * (fst v * fst v + snd v * snd v)) / (d * d)); [rewrite XY; field; lra|]. replace (a / d) with ((fst u * fst v + snd u * snd v) / (d * d)) by (rewrite UV; field; lra). field; lra. }
  assert (TT : t * t = r1 * r1 - a * a).
  { assert (E : (a * a + t * t) / (d * d) * (fst v * fst v + snd v * snd v) = r1 * r1) by (rewrite <- X1'; unfold dot2; rewrite U1, U2; field; lra). rewrite XY in E. assert (a * a + t * t = r1 * r1) by (rewrite <- E; field; lra). lra. }
  destruct (lt_b (r1 * r1 - a * a) 0) eqn:L; [apply lt_b_true in L; nra|]. apply lt_b_false in L.
  set (h := sqrt (r1 * r1 - a * a)). assert (HH : h * h = r1 * r1 - a * a) by (apply sqrt_sqrt; auto).
  eexists _, _. split; [reflexivity|]. assert (T : t = h \/ t = - h) by (assert (Q : (t - h) * (t + h) = 0) by (rewrite <- HH in TT; lra); apply Rmult_integral in Q; destruct Q; [left|right]; lra).
  rewrite UO. assert (C : x = add2 c1 u) by (unfold u, add2, sub2; cbn [fst snd]; apply vec2_eq; cbn [fst snd]; ring).
  destruct T as [T|T]; [left|right]; rewrite C; unfold add2, sub2, scal2; cbn [fst snd]; apply vec2_eq; cbn [fst snd]; rewrite ?U1, ?U2, T; field; lra.
Qed.
Lemma first_some_least {A} (f : nat -> option A) n : forall s i, (s <= i < s + n)%nat -> f i <> None -> exists j y, (j <= i)%nat /\ (s <= j)%nat /\ f j = Some y /\ first_some f (seq s n) = Some y.
Proof.
  induction n as [|n IH]; intros s i I N; [lia|]. cbn [seq first_some]. destruct (f s) as [y|] eqn:E; [exists s, y; repeat split; auto; lia|].
  destruct (IH (Datatypes.S s) i) as (j & y & A1 & A2 & A3 & A4); [|auto|exists j, y; repeat split; auto; lia]. destruct (Nat.eq_dec i s) as [->|]; [congruence|lia].
Qed.
(** ** a point of the circle that lies on the circle of disc i, in the unit square, outside every other disc by the margin the code uses: then the result is a point the search chose (as in C91_resolve), at worst at the same place as before *)
Theorem C91_resolves p c r ds i d s x : 0 <= r -> norm2 (sub2 p c) = r -> (forall d s, In (d, s) ds -> d <> c /\ 0 <= s) ->
  nth_error ds i = Some (d, s) -> norm2 (sub2 x c) = r -> norm2 (sub2 x d) = s -> 0 <= fst x <= 1 -> 0 <= snd x <= 1 ->
  (forall k d' s', k <> i -> nth_error ds k = Some (d', s') -> s' * s' < dot2 (sub2 x d') (sub2 x d') + epsilon) ->
  let q := resolve_2d p c r ds in
  norm2 (sub2 q c) = r /\ exists j d s, nth_error ds j = Some (d, s) /\ (j <= i)%nat /\ (forall k d' s', k <> j -> nth_error ds k = Some (d', s') -> s' * s' < dot2 (sub2 q d') (sub2 q d') + epsilon)
     /\ ((norm2 (sub2 q d) = s /\ 0 <= fst q <= 1 /\ 0 <= snd q <= 1)
        \/ ((forall y, norm2 (sub2 y c) = r -> norm2 (sub2 y d) <> s) /\ sub2 q c = scal2 (r / norm2 (sub2 d c)) (sub2 d c))).
Proof.
  intros R NP ND NI XC XD BX BY FR q. assert (ON : norm2 (sub2 q c) = r) by (apply resolve_2d_on; auto; intros d' s' I; apply (ND d' s' I)). split; [exact ON|]. unfold q, resolve_2d in *. set (try := fun i : nat => _) in *.
  assert (LI : (i < length ds)%nat) by (apply nth_error_Some; congruence).
  assert (TI : try i <> None).
  { unfold try. assert (EN : nth i ds ((0, 0), 0) = (d, s)) by (apply nth_error_nth; auto). rewrite EN. destruct (ND d s (nth_error_In _ _ NI)) as (DC & S0).
    destruct (circle_complete c r d s x DC XC) as (i1 & i2 & -> & XI); [rewrite <- norm2_sq, XD; auto|].
    assert (OK : in_bounds (row2 x) && negb (collision sub2 dot2 ds x [i]) = true).
    { apply andb_true_iff. split.
      - unfold in_bounds, row2. cbn [forallb]. rewrite !andb_true_iff, !negb_true_iff, !orb_false_iff, !lt_b_false. repeat split; lra.
      - apply negb_true_iff. destruct (collision sub2 dot2 ds x [i]) eqn:C; [|auto]. exfalso. unfold collision in C. apply existsb_exists in C. destruct C as ((k, (d', s')) & Ik & C). cbn [existsb] in C. rewrite orb_false_r in C. apply andb_true_iff in C. destruct C as (C1 & C2). apply negb_true_iff, Nat.eqb_neq in C1. apply le_b_true in C2.
        assert (NK : nth_error ds k = Some (d', s')).
        { clear -Ik. assert (G : forall m, In (k, (d', s')) (combine (seq m (length ds)) ds) -> (m <= k)%nat /\ nth_error ds (k - m) = Some (d', s')); [|destruct (G 0%nat Ik) as (_ & G'); rewrite Nat.sub_0_r in G'; auto].
          clear Ik. induction ds as [|y l IH]; intros m I; [destruct I|]. cbn [length seq combine] in I. destruct I as [I|I]; [injection I as -> ->; rewrite Nat.sub_diag; auto|]. apply IH in I. destruct I as (I1 & I2). split; [lia|]. replace (k - m)%nat with (Datatypes.S (k - Datatypes.S m)) by lia. auto. }
        specialize (FR k d' s' C1 NK). lra. }
    unfold pick. cbv beta. destruct XI as [<- | <-]; rewrite OK; match goal with |- context [if ?b then _ else _] => destruct b end; discriminate. }
  destruct (first_some_least try (length ds) 0 i) as (j & q' & JI & _ & E & ES); [lia|auto|]. rewrite ES in *. clear TI. rename x into x0. rename q' into x.
  clear XC XD BX BY FR. rename d into d0. rename s into s0. unfold try in E. destruct (nth j ds ((0, 0), 0)) as (d, s) eqn:EN. assert (NE : nth_error ds j = Some (d, s)) by (rewrite <- EN; apply nth_error_nth'; lia).
  destruct (ND d s (nth_error_In _ _ NE)) as (DC & S0). exists j, d, s. split; [auto|]. split; [auto|].
  assert (CF : collision sub2 dot2 ds x [j] = false -> forall k d' s', k <> j -> nth_error ds k = Some (d', s') -> s' * s' < dot2 (sub2 x d') (sub2 x d') + epsilon).
  { intros C k d' s' NK EK. destruct (Rlt_le_dec (s' * s') (dot2 (sub2 x d') (sub2 x d') + epsilon)) as [|LE]; [auto|]. exfalso. assert (C' : collision sub2 dot2 ds x [j] = true); [|congruence]. unfold collision. apply existsb_exists. exists (k, (d', s')). split.
    - assert (LK : (k < length ds)%nat) by (apply nth_error_Some; congruence). apply nth_error_In with (n := k). clear -EK LK. assert (G : forall m, nth_error (combine (seq m (length ds)) ds) k = Some ((m + k)%nat, (d', s'))); [|apply (G 0%nat)]. revert k EK LK. induction ds as [|y ds IH]; intros k EK LK m; [cbn in LK; lia|]. destruct k as [|k]; cbn [length seq combine nth_error] in *; [injection EK as ->; do 2 f_equal; lia|]. rewrite IH by (auto; lia). do 2 f_equal. lia.
    - cbn [existsb]. destruct (Nat.eqb_spec k j); [congruence|]. cbn [orb negb andb]. apply le_b_true. auto. }
  destruct (circle_circle_intersect c r d s) as [(p1, p2)|] eqn:EC.
  - apply pick_in in E. destruct E as (Q & OK). apply andb_true_iff in OK. destruct OK as (IB & NC). apply negb_true_iff in NC. split; [exact (CF NC)|]. left. destruct (circle_on _ _ _ _ _ _ R DC EC x Q) as (_ & O2). split; [apply norm2_is; auto|].
    unfold in_bounds, row2 in IB. cbn [forallb] in IB. rewrite !andb_true_iff, !negb_true_iff, !orb_false_iff, !lt_b_false in IB. lra.
  - destruct (collision sub2 dot2 ds (add2 c (scal2 r (unit2 (sub2 d c)))) [j]) eqn:CL; [discriminate|]. injection E as <-. split; [exact (CF CL)|]. right. split.
    + intros y Y1 Y2. unfold circle_circle_intersect in EC. set (D := norm2 (sub2 c d)) in *. set (a := _ / (2 * D)) in EC. destruct (lt_b (r * r - a * a) 0) eqn:LB; [|discriminate]. apply lt_b_true in LB.
      assert (DD : D * D = dot2 (sub2 d c) (sub2 d c)) by (unfold D; rewrite norm2_sq; unfold dot2, sub2; cbn [fst snd]; ring). pose proof (diff2 _ _ DC) as DP. assert (0 < D) by (assert (0 <= D) by apply norm2_pos; nra).
      assert (YY : dot2 (sub2 y c) (sub2 y c) = r * r) by (rewrite <- norm2_sq, Y1; auto). assert (YD : dot2 (sub2 y d) (sub2 y d) = s * s) by (rewrite <- norm2_sq, Y2; auto).
      set (u := sub2 y c) in *. set (v := sub2 d c) in *. assert (UV : dot2 u v = a * D).
      { assert (2 * dot2 u v = r * r + D * D - s * s) by (rewrite <- YY, DD, <- YD; unfold u, v, dot2, sub2; cbn [fst snd]; ring). unfold a. apply Rmult_eq_reg_l with 2; [|lra]. rewrite H0. field. lra. }
      assert (CS : dot2 u v * dot2 u v <= dot2 u u * dot2 v v) by (unfold dot2; pose proof (Rle_0_sqr (fst u * snd v - snd u * fst v)); unfold Rsqr in *; lra). rewrite UV, YY, <- DD in CS. nra.
    + destruct (unit2_ok (sub2 d c) (diff2 _ _ DC)) as (_ & ->). unfold sub2, add2, scal2. cbn [fst snd]. apply vec2_eq; cbn [fst snd]; unfold Rdiv; ring.
Qed.
