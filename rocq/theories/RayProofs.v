From Coq Require Import Reals Lra Psatz ZArith List Bool Lia.
From Verif Require Import PyExn Vec RayModel.
Import ListNotations.
Open Scope R_scope.

Definition in_slab (a : axis) (x : R) : Prop := ac a - aw a / 2 <= x <= ac a + aw a / 2.
Definition at_time (t : R) (a : axis) : R := ao a + t * ad a.

Lemma half_eq w : 0.5 * w = w / 2. Proof. lra. Qed.
Lemma quad_cases a : (in_slab a (ao a) /\ quad a = (2%Z, -1)) \/
  (ao a < ac a - aw a / 2 /\ quad a = (1%Z, ac a - aw a / 2)) \/ (ac a + aw a / 2 < ao a /\ ~ ao a < ac a - aw a/2 /\ quad a = (0%Z, ac a + aw a / 2)).
Proof.
  unfold quad, minB, maxB, in_slab. rewrite half_eq. destruct Rlt_dec; [right; left; auto|]. destruct Rlt_dec; [right; right; repeat split; auto|]. left. split; [lra|reflexivity].
Qed.

Lemma which_plane_ge l : forall best bv i, let '(wp, T) := which_plane best bv i l in bv <= T /\ Forall (fun a => maxT a <= T) l.
Proof.
  induction l as [|a l IH]; intros best bv i; cbn [which_plane].
  - split; [lra|constructor].
  - destruct Rlt_dec as [L|L].
    + specialize (IH i (maxT a) (S i)). destruct (which_plane i (maxT a) (S i) l) as [wp T]. destruct IH. split; [lra|]. constructor; auto.
    + specialize (IH best bv (S i)). destruct (which_plane best bv (S i) l) as [wp T]. destruct IH. split; [lra|]. constructor; auto; lra.
Qed.
Lemma which_plane_at (L : list axis) l : forall best bv i,
  (forall k a, nth_error l k = Some a -> nth_error L (i + k) = Some a) ->
  (exists a, nth_error L best = Some a /\ maxT a = bv) ->
  let '(wp, T) := which_plane best bv i l in exists a, nth_error L wp = Some a /\ maxT a = T.
Proof.
  induction l as [|a l IH]; intros best bv i S B; cbn [which_plane]; auto.
  assert (S' : forall k b, nth_error l k = Some b -> nth_error L (Datatypes.S i + k) = Some b).
  { intros k b Q. replace (Datatypes.S i + k)%nat with (i + Datatypes.S k)%nat by lia. apply S. exact Q. }
  destruct Rlt_dec; apply IH; auto. exists a. split; auto. specialize (S 0%nat a eq_refl). now rewrite Nat.add_0_r in S.
Qed.

Lemma hit_loop_spec wp T l : forall i,
  (forall k a, nth_error l k = Some a -> wp = (i + k)%nat -> snd (quad a) = at_time T a /\ in_slab a (at_time T a)) ->
  let '(h, p) := hit_loop wp T i l in
  length p = length l /\ (h = true <-> Forall (fun a => in_slab a (at_time T a)) l) /\ (h = true -> p = map (fun a => Some (at_time T a)) l).
Proof.
  induction l as [|a l IH]; intros i W; cbn [hit_loop].
  - split; [reflexivity|]. split; [split; auto|reflexivity].
  - assert (W' : forall k b, nth_error l k = Some b -> wp = (S i + k)%nat -> snd (quad b) = at_time T b /\ in_slab b (at_time T b)).
    { intros k b Q E. apply (W (S k)); auto. lia. }
    specialize (IH (S i) W'). destruct (Nat.eqb wp i) eqn:Q.
    + apply Nat.eqb_eq in Q. destruct (W 0%nat a eq_refl) as [E1 E2]; [lia|]. destruct (hit_loop wp T (S i) l) as [h p]. destruct IH as (L & B & C).
      split; [cbn; now rewrite L|]. split; [rewrite B; split; [intros; constructor; auto|intros F; now inversion F]|]. intros H. cbn [map]. rewrite (C H), E1. reflexivity.
    + fold (at_time T a). cbv zeta. change (ao a + T * ad a) with (at_time T a).
      assert (IS : in_slab a (at_time T a) <-> ~ at_time T a < minB a /\ ~ maxB a < at_time T a) by (unfold in_slab, minB, maxB; rewrite half_eq; lra).
      destruct Rlt_dec; [|destruct Rlt_dec].
      1,2: split; [cbn; now rewrite map_length|]; split; [split; [discriminate|intros F; inversion F; subst; tauto]|discriminate].
      destruct (hit_loop wp T (S i) l) as [h p]. destruct IH as (L & B & C). split; [cbn; now rewrite L|]. split.
      * rewrite B. split; [intros; constructor; auto; tauto|intros F; now inversion F].
      * intros H. cbn [map]. now rewrite (C H).
Qed.

Lemma slab_convex a r s t : r <= t <= s -> in_slab a (at_time r a) -> in_slab a (at_time s a) -> in_slab a (at_time t a).
Proof.
  unfold in_slab, at_time. intros H A B. destruct (Rle_dec 0 (ad a)).
  - assert (r * ad a <= t * ad a) by nra. assert (t * ad a <= s * ad a) by nra. lra.
  - assert (t * ad a <= r * ad a) by nra. assert (s * ad a <= t * ad a) by nra. lra.
Qed.

Lemma maxT_at a : 0 <= aw a -> 0 <= maxT a -> fst (quad a) <> 2%Z /\ snd (quad a) = at_time (maxT a) a /\ in_slab a (at_time (maxT a) a).
Proof.
  intros W. unfold maxT. destruct (fst (quad a) =? 2)%Z eqn:E; [lra|]. apply Z.eqb_neq in E. destruct Req_EM_T as [Q|Q]; [lra|]. intros _.
  assert (X : snd (quad a) = at_time ((snd (quad a) - ao a) / ad a) a) by (unfold at_time; field; auto).
  split; [auto|]. split; [exact X|]. rewrite <- X. destruct (quad_cases a) as [[_ Z]|[[_ Z]|[_ [_ Z]]]]; rewrite Z in *; cbn [fst snd] in *; [congruence| |]; unfold in_slab; lra.
Qed.
Lemma maxT_le a s : 0 <= aw a -> 0 <= s -> in_slab a (at_time s a) -> maxT a <= s /\ in_slab a (at_time (Rmax 0 (maxT a)) a) /\ (fst (quad a) <> 2%Z -> 0 <= maxT a).
Proof.
  intros W S I. destruct (quad_cases a) as [[H Z]|[[H Z]|[H [_ Z]]]].
  - unfold maxT. rewrite Z. cbn [fst snd Z.eqb]. cbn. split; [lra|]. split; [|congruence]. rewrite Rmax_left by lra. unfold at_time. replace (ao a + 0 * ad a) with (ao a) by ring. exact H.
  - assert (D : 0 < ad a). { unfold in_slab, at_time in I. destruct (Rle_dec (ad a) 0); [|lra]. assert (s * ad a <= 0) by nra. lra. }
    assert (E : maxT a = (ac a - aw a / 2 - ao a) / ad a). { unfold maxT. rewrite Z. cbn [fst snd]. cbn. destruct Req_EM_T; [lra|reflexivity]. }
    assert (P : 0 <= maxT a). { rewrite E. apply Rmult_le_reg_r with (ad a); auto. field_simplify; lra. }
    split; [|split; auto].
    + rewrite E. apply Rmult_le_reg_r with (ad a); auto. unfold in_slab, at_time in I. replace ((ac a - aw a / 2 - ao a) / ad a * ad a) with (ac a - aw a / 2 - ao a) by (field; lra). lra.
    + rewrite Rmax_right by auto. apply maxT_at; auto.
  - assert (D : ad a < 0). { unfold in_slab, at_time in I. destruct (Rle_dec 0 (ad a)); [|lra]. assert (0 <= s * ad a) by nra. lra. }
    assert (E : maxT a = (ac a + aw a / 2 - ao a) / ad a). { unfold maxT. rewrite Z. cbn [fst snd]. cbn. destruct Req_EM_T; [lra|reflexivity]. }
    assert (Q : maxT a * ad a = ac a + aw a / 2 - ao a) by (rewrite E; field; lra).
    assert (P : 0 <= maxT a) by nra.
    split; [|split; auto].
    + unfold in_slab, at_time in I. nra.
    + rewrite Rmax_right by auto. apply maxT_at; auto.
Qed.

Lemma ray_box_ok l : Forall (fun a => 0 <= aw a) l ->
  let '(hit, p) := ray_box_intersect l in
  length p = length l /\
  (hit = true <-> exists t, 0 <= t /\ Forall (fun a => in_slab a (at_time t a)) l) /\
  (hit = true -> exists t, 0 <= t /\ p = map (fun a => Some (at_time t a)) l /\ Forall (fun a => in_slab a (at_time t a)) l /\
     forall s, 0 <= s -> Forall (fun a => in_slab a (at_time s a)) l -> t <= s).
Proof.
  intros W. unfold ray_box_intersect. destruct (forallb _ l) eqn:INS.
  - assert (H0 : Forall (fun a => in_slab a (at_time 0 a)) l).
    { apply Forall_forall. intros a I. rewrite forallb_forall in INS. specialize (INS a I). apply Z.eqb_eq in INS.
      unfold at_time. replace (ao a + 0 * ad a) with (ao a) by ring.
      destruct (quad_cases a) as [[H Z]|[[H Z]|[H [_ Z]]]]; auto; rewrite Z in INS; discriminate. }
    split; [now rewrite map_length|]. split; [split; auto; intros _; exists 0; split; [lra|auto]|].
    intros _. exists 0. split; [lra|]. split; [|split; auto]. apply map_ext. intros a. unfold at_time. f_equal. ring.
  - destruct l as [|a0 l0]; [discriminate|]. set (l := a0 :: l0) in *.
    pose proof (which_plane_ge l 0 (maxT a0) 0) as G. pose proof (which_plane_at l l 0 (maxT a0) 0 (fun k a Q => Q) (ex_intro _ a0 (conj eq_refl eq_refl))) as A.
    destruct (which_plane 0 (maxT a0) 0 l) as [wp T]. destruct G as [_ G]. destruct A as (aw0 & AW & AT).
    rewrite Forall_forall in W, G.
    assert (OUT : exists b, In b l /\ fst (quad b) <> 2%Z).
    { apply not_true_iff_false in INS. destruct (existsb (fun a => negb (fst (quad a) =? 2)%Z) l) eqn:E.
      - apply existsb_exists in E as (b & I & N). exists b. split; auto. intros Q. rewrite Q in N. discriminate.
      - exfalso. apply INS. apply forallb_forall. intros x I. apply not_true_iff_false in E. destruct (fst (quad x) =? 2)%Z eqn:Q; auto. exfalso. apply E, existsb_exists. exists x. rewrite Q. auto. }
    assert (key : forall s, 0 <= s -> Forall (fun a => in_slab a (at_time s a)) l -> 0 <= T /\ T <= s /\ Forall (fun a => in_slab a (at_time T a)) l).
    { intros s S F. rewrite Forall_forall in F. destruct OUT as (b & Ib & Nb).
      assert (Tp : 0 <= T). { destruct (maxT_le b s (W b Ib) S (F b Ib)) as (_ & _ & P). specialize (P Nb). specialize (G b Ib). lra. }
      assert (Ts : T <= s). { rewrite <- AT. apply (maxT_le aw0 s); auto. apply W. eapply nth_error_In; eauto. apply F. eapply nth_error_In; eauto. }
      split; auto. split; auto. apply Forall_forall. intros a I. destruct (maxT_le a s (W a I) S (F a I)) as (Q1 & Q2 & _).
      apply slab_convex with (Rmax 0 (maxT a)) s; auto. split; auto. apply Rmax_lub; auto. }
    destruct Rlt_dec as [L|L].
    + split; [now rewrite map_length|]. split; [|discriminate]. split; [discriminate|]. intros (s & S & F). destruct (key s S F). lra.
    + assert (Tp : 0 <= T) by lra.
      assert (WS : forall k a, nth_error l k = Some a -> wp = (0 + k)%nat -> snd (quad a) = at_time T a /\ in_slab a (at_time T a)).
      { intros k a N ->. cbn in AW. assert (a = aw0) by congruence. subst a. rewrite <- AT in Tp. rewrite <- AT.
        destruct (maxT_at aw0) as (_ & Q1 & Q2); auto. apply W. eapply nth_error_In; eauto. }
      pose proof (hit_loop_spec wp T l 0 WS) as H. destruct (hit_loop wp T 0 l) as [h p]. destruct H as (H0 & H1 & H2).
      split; auto. split.
      * rewrite H1. split; [intros F; exists T; auto|]. intros (s & S & F). apply (key s S F).
      * intros Q. exists T. split; auto. split; auto. split; [apply H1; auto|]. intros s S F. apply (key s S F).
Qed.

(** ** ray / triangle *)
Definition tri_point (v0 v1 v2 : vec3) (u v : R) : vec3 := add3 (add3 (scal3 (1 - u - v) v0) (scal3 u v1)) (scal3 v v2).
Ltac vx := unfold tri_point, add3, sub3, scal3, cross3, dot3, X, Y, Zc in *; cbn [fst snd] in *.

Lemma rt_sound o d v0 v1 v2 neg t h : ray_triangle_intersect o d v0 v1 v2 neg = Some (t, h) ->
  h = add3 o (scal3 t d) /\ (neg = false -> 0 <= t) /\ exists u v, 0 <= u /\ 0 <= v /\ u + v <= 1 /\ h = tri_point v0 v1 v2 u v.
Proof.
  unfold ray_triangle_intersect. cbv zeta.
  set (det := dot3 (sub3 v1 v0) (cross3 d (sub3 v2 v0))).
  set (nu := dot3 (sub3 o v0) (cross3 d (sub3 v2 v0))). set (nv := dot3 d (cross3 (sub3 o v0) (sub3 v1 v0))). set (nt := dot3 (sub3 v2 v0) (cross3 (sub3 o v0) (sub3 v1 v0))).
  destruct (Rlt_dec (Rabs det) _) as [L|L]; [discriminate|]. destruct Rlt_dec; [discriminate|]. destruct Rlt_dec; [discriminate|]. destruct Rlt_dec; [discriminate|]. destruct Rlt_dec; [discriminate|].
  assert (D : det <> 0). { intros Q. apply L. rewrite Q, Rabs_R0. lra. }
  intros H. assert (E : t = nt * (1/det) /\ h = add3 o (scal3 t d) /\ (neg = false -> 0 <= t)).
  { destruct neg; [|destruct Rlt_dec; [discriminate|]]; injection H; intros <- <-; repeat split; auto; try discriminate. intros _. lra. }
  destruct E as (Et & -> & N). split; [reflexivity|]. split; [exact N|].
  exists (nu * (1/det)), (nv * (1/det)). split; [lra|]. split; [lra|]. split; [lra|]. subst t.
  apply vec3_eq; unfold nu, nv, nt in *; clear N H n n0 n1 n2 L; destruct o as [[? ?] ?], d as [[? ?] ?], v0 as [[? ?] ?], v1 as [[? ?] ?], v2 as [[? ?] ?]; subst det; vx;
   (match goal with |- ?lhs = ?rhs => idtac end); field; exact D.
Qed.

Lemma rt_complete o d v0 v1 v2 t u v : 1/1000000 <= Rabs (dot3 (sub3 v1 v0) (cross3 d (sub3 v2 v0))) ->
  0 <= u -> 0 <= v -> u + v <= 1 -> add3 o (scal3 t d) = tri_point v0 v1 v2 u v ->
  ray_triangle_intersect o d v0 v1 v2 true = Some (t, tri_point v0 v1 v2 u v) /\
  ray_triangle_intersect o d v0 v1 v2 false = if Rlt_dec t 0 then None else Some (t, tri_point v0 v1 v2 u v).
Proof.
  intros DT U V UV E. unfold ray_triangle_intersect. cbv zeta.
  assert (EO : o = sub3 (tri_point v0 v1 v2 u v) (scal3 t d)).
  { rewrite <- E. apply vec3_eq; vx; ring. }
  set (det := dot3 (sub3 v1 v0) (cross3 d (sub3 v2 v0))) in *.
  assert (D : det <> 0) by (intros Q; rewrite Q, Rabs_R0 in DT; lra).
  assert (Eu : dot3 (sub3 o v0) (cross3 d (sub3 v2 v0)) * (1/det) = u).
  { apply Rmult_eq_reg_r with det; auto. rewrite Rmult_assoc. replace (1/det*det) with 1 by (field; auto). rewrite EO. unfold det. vx. ring. }
  assert (Ev : dot3 d (cross3 (sub3 o v0) (sub3 v1 v0)) * (1/det) = v).
  { apply Rmult_eq_reg_r with det; auto. rewrite Rmult_assoc. replace (1/det*det) with 1 by (field; auto). rewrite EO. unfold det. vx. ring. }
  assert (Et : dot3 (sub3 v2 v0) (cross3 (sub3 o v0) (sub3 v1 v0)) * (1/det) = t).
  { apply Rmult_eq_reg_r with det; auto. rewrite Rmult_assoc. replace (1/det*det) with 1 by (field; auto). rewrite EO. unfold det. vx. ring. }
  rewrite Eu, Ev, Et. destruct Rlt_dec; [lra|]. destruct Rlt_dec; [lra|]. destruct Rlt_dec; [lra|]. destruct Rlt_dec; [lra|]. destruct Rlt_dec; [lra|].
  rewrite E. split; auto.
Qed.

(** ** ray / polyline *)
(** p + t d is on the open segment a0 a1 *)
Definition crosses (p d a0 a1 : vec2) (t : R) : Prop :=
  0 < t /\ exists s, 0 < s < 1 /\ add2 p (scal2 t d) = add2 (scal2 (1 - s) a0) (scal2 s a1).
Definition seg_det (d a0 a1 : vec2) : R := det2 d (sub2 a1 a0).
Ltac v2x := unfold crosses, seg_det, solve2, det2, add2, sub2, scal2, dot2 in *; cbn [fst snd] in *.

Lemma cross_solve p d a0 a1 t : seg_det d a0 a1 <> 0 ->
  (crosses p d a0 a1 t <-> let r := solve2 d (sub2 a1 a0) (sub2 a1 p) in fst r = t /\ 0 < fst r /\ 0 < snd r < 1).
Proof.
  intros D. cbv zeta. split.
  - intros (T & s & S & E). assert (fst (solve2 d (sub2 a1 a0) (sub2 a1 p)) = t /\ snd (solve2 d (sub2 a1 a0) (sub2 a1 p)) = 1 - s).
    { injection E. intros E2 E1. v2x. split.
      - apply Rmult_eq_reg_r with (fst d * (snd a1 - snd a0) - snd d * (fst a1 - fst a0)); auto. unfold Rdiv. rewrite Rmult_assoc, Rinv_l, Rmult_1_r by auto.
        replace (fst a1 - fst p) with (fst a1 - ((1 - s) * fst a0 + s * fst a1) + t * fst d) by lra.
        replace (snd a1 - snd p) with (snd a1 - ((1 - s) * snd a0 + s * snd a1) + t * snd d) by lra. ring.
      - apply Rmult_eq_reg_r with (fst d * (snd a1 - snd a0) - snd d * (fst a1 - fst a0)); auto. unfold Rdiv. rewrite Rmult_assoc, Rinv_l, Rmult_1_r by auto.
        replace (fst a1 - fst p) with (fst a1 - ((1 - s) * fst a0 + s * fst a1) + t * fst d) by lra.
        replace (snd a1 - snd p) with (snd a1 - ((1 - s) * snd a0 + s * snd a1) + t * snd d) by lra. ring. }
    destruct H as [-> ->]. lra.
  - intros (E & T & S). split; [lra|]. exists (1 - snd (solve2 d (sub2 a1 a0) (sub2 a1 p))). split; [lra|]. rewrite <- E. clear E T S t.
    unfold add2, scal2. v2x. f_equal; field; auto.
Qed.

Definition seg_at (segs : list (vec2 * vec2)) (k : nat) (a0 a1 : vec2) : Prop := nth_error segs k = Some (a0, a1).

Section RP.
  Variables (p d : vec2) (maxd : R) (L : list (vec2 * vec2)).
  Hypothesis general : forall s, In s L -> 1/100000000 <= Rabs (seg_det d (fst s) (snd s)).
  (** invariant after the first k segments *)
  Definition rp_inv (k : nat) (st : rp_state) : Prop :=
    let '(x, n, ind, dist) := st in
    (forall j a0 a1 t, (j < k)%nat -> seg_at L j a0 a1 -> crosses p d a0 a1 t -> t < maxd -> dist <= t) /\
    ((x = None /\ n = (0,0) /\ ind = (-1)%Z /\ dist = maxd) \/
     (exists j a0 a1, (j < k)%nat /\ seg_at L j a0 a1 /\ ind = Z.of_nat j /\ crosses p d a0 a1 dist /\ dist < maxd /\
        x = Some (add2 p (scal2 dist d)) /\ n = seg_normal a0 a1 /\
        forall i b0 b1, (i < j)%nat -> seg_at L i b0 b1 -> ~ crosses p d b0 b1 dist)).

  Lemma rp_step_inv k a0 a1 st : seg_at L k a0 a1 -> rp_inv k st -> rp_inv (S k) (rp_step p d (Z.of_nat k) a0 a1 st).
  Proof.
    intros SK I. destruct st as [[[x n] ind] dist]. unfold rp_step.
    assert (GD := general (a0,a1) (nth_error_In _ _ SK)). cbn [fst snd] in GD.
    change (fst d * (snd a1 - snd a0) - snd d * (fst a1 - fst a0)) with (seg_det d a0 a1).
    destruct Rlt_dec; [lra|].
    assert (D : seg_det d a0 a1 <> 0) by (intros Q; rewrite Q, Rabs_R0 in GD; lra).
    pose proof (fun t => cross_solve p d a0 a1 t D) as CS. cbv zeta in CS |- *.
    set (r := solve2 d (sub2 a1 a0) (sub2 a1 p)) in *.
    assert (keep : (forall t, crosses p d a0 a1 t -> t < maxd -> dist <= t) -> rp_inv (S k) (x, n, ind, dist)).
    { intros KP. destruct I as [I1 I2]. split.
      - intros j b0 b1 t J SJ C M. destruct (Nat.eq_dec j k) as [->|NE]; [|apply (I1 j b0 b1); auto; lia].
        unfold seg_at in *. rewrite SK in SJ. injection SJ; intros <- <-. apply KP; auto.
      - destruct I2 as [I2|(j & b0 & b1 & J & rest)]; [left; auto|right; exists j, b0, b1; split; [lia|auto]]. }
    destruct (Rlt_dec 0 (snd r)); [|apply keep; intros t C; apply CS in C; lra].
    destruct (Rlt_dec (snd r) 1); [|apply keep; intros t C; apply CS in C; lra].
    destruct (Rlt_dec 0 (fst r)); [|apply keep; intros t C; apply CS in C; lra].
    destruct (Rlt_dec (fst r) dist) as [LT|GE]; [|apply keep; intros t C _; apply CS in C; lra].
    destruct I as [I1 I2].
    assert (DM : dist <= maxd). { destruct I2 as [(_ & _ & _ & ->)|(j & b0 & b1 & _ & _ & _ & _ & M & _)]; lra. }
    assert (CR : crosses p d a0 a1 (fst r)) by (apply CS; auto).
    split.
    - intros j b0 b1 t J SJ C M. destruct (Nat.eq_dec j k) as [->|NE].
      + unfold seg_at in *. rewrite SK in SJ. injection SJ; intros <- <-. apply CS in C. lra.
      + assert (dist <= t) by (apply (I1 j b0 b1); auto; lia). lra.
    - right. exists k, a0, a1. split; [lia|]. split; auto. split; auto. split; auto. split; [lra|]. split; auto. split; auto.
      intros i b0 b1 Hi SI C. assert (dist <= fst r) by (apply (I1 i b0 b1); auto; lra). lra.
  Qed.
  Lemma rp_loop_inv segs : forall k st, (forall j s, nth_error segs j = Some s -> nth_error L (k + j) = Some s) -> (k + length segs = length L)%nat ->
    rp_inv k st -> rp_inv (length L) (rp_loop p d (Z.of_nat k) segs st).
  Proof.
    induction segs as [|s segs IH]; intros k st S LL I; cbn [rp_loop].
    - cbn in LL. replace (length L) with k by lia. exact I.
    - replace (Z.of_nat k + 1)%Z with (Z.of_nat (Datatypes.S k)) by lia. apply IH.
      + intros j s' Q. replace (Datatypes.S k + j)%nat with (k + Datatypes.S j)%nat by lia. apply S. exact Q.
      + cbn in LL. lia.
      + apply rp_step_inv; auto. specialize (S 0%nat s eq_refl). rewrite Nat.add_0_r in S. unfold seg_at. rewrite S. now destruct s.
  Qed.
  Lemma ray_segments_ok : exists x n ind, ray_segments p d maxd L = (x, n, ind) /\
    ((x = None /\ n = (0,0) /\ ind = (-1)%Z /\ forall j a0 a1 t, seg_at L j a0 a1 -> crosses p d a0 a1 t -> maxd <= t) \/
     (exists j a0 a1 t, seg_at L j a0 a1 /\ ind = Z.of_nat j /\ crosses p d a0 a1 t /\ t < maxd /\ x = Some (add2 p (scal2 t d)) /\ n = seg_normal a0 a1 /\
        (forall i b0 b1 t', seg_at L i b0 b1 -> crosses p d b0 b1 t' -> t <= t') /\
        (forall i b0 b1, (i < j)%nat -> seg_at L i b0 b1 -> ~ crosses p d b0 b1 t))).
  Proof.
    unfold ray_segments. assert (I0 : rp_inv 0 (None, (0,0), (-1)%Z, maxd)).
    { split; [intros; lia|left; auto]. }
    pose proof (rp_loop_inv L 0 _ (fun j s Q => Q) eq_refl I0) as I. cbn [Z.of_nat] in I.
    destruct (rp_loop p d 0 L (None, (0,0), (-1)%Z, maxd)) as [[[x n] ind] dist]. cbn [fst]. exists x, n, ind. split; [reflexivity|].
    destruct I as [I1 [(-> & -> & -> & ->)|(j & a0 & a1 & J & S & -> & C & M & -> & -> & F)]].
    - left. repeat split; auto. intros j a0 a1 t S C. destruct (Rle_dec maxd t); auto. exfalso.
      assert (maxd <= t) by (apply (I1 j a0 a1); auto; [apply nth_error_Some; unfold seg_at in S; congruence|lra]). lra.
    - right. exists j, a0, a1, dist. split; [exact S|]. split; [reflexivity|]. split; [exact C|]. split; [exact M|]. split; [reflexivity|]. split; [reflexivity|]. split.
      + intros i b0 b1 t' S' C'. destruct (Rlt_dec t' maxd); [|lra]. apply (I1 i b0 b1); auto. apply nth_error_Some. unfold seg_at in S'. congruence.
      + exact F.
  Qed.
End RP.

Lemma seg_normal_unit a0 a1 : a0 <> a1 -> let n := seg_normal a0 a1 in dot2 n n = 1 /\ dot2 n (sub2 a1 a0) = 0 /\ 0 < det2 (sub2 a1 a0) n.
Proof.
  intros NE. cbv zeta. unfold seg_normal. cbv zeta. set (e0 := fst a1 - fst a0). set (e1 := snd a1 - snd a0).
  assert (P : 0 < e1 * e1 + e0 * e0).
  { destruct (Req_dec e0 0) as [Q0|Q0]; [destruct (Req_dec e1 0) as [Q1|Q1]|]; [|nra|nra]. exfalso. apply NE. destruct a0, a1; unfold e0, e1 in *; cbn in *. f_equal; lra. }
  assert (N : norm2 (- e1, e0) = sqrt (e1 * e1 + e0 * e0)) by (unfold norm2, dot2; cbn [fst snd]; f_equal; ring).
  rewrite N. pose proof (sqrt_lt_R0 _ P) as SP. assert (SS : sqrt (e1 * e1 + e0 * e0) * sqrt (e1 * e1 + e0 * e0) = e1 * e1 + e0 * e0) by (apply sqrt_sqrt; lra).
  set (r := sqrt _) in *. clearbody r. unfold scal2, dot2, sub2, det2; cbn [fst snd]. fold e0 e1. split; [|split].
  - replace (/ r * - e1 * (/ r * - e1) + / r * e0 * (/ r * e0)) with ((e1*e1+e0*e0) / (r * r)) by (field; lra). rewrite SS. field. lra.
  - ring.
  - replace (e0 * (/ r * e0) - e1 * (/ r * - e1)) with ((e1*e1+e0*e0) / r) by (field; lra). apply Rdiv_lt_0_compat; lra.
Qed.
