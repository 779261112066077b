(** C52: signed_distance_polygon *)
From Coq Require Import Reals Lra List Lia Arith Bool.
From Verif Require Import PyExn Vec PolyDistModel.
Import ListNotations.
Open Scope R_scope.

(** -- specification -- *)
(** the edges of the closed polygon V, as pairs (previous vertex, vertex) *)
Definition polygon_edges (V : list vec2) : list (vec2 * vec2) := combine (last V (0, 0) :: V) V.
(** Q = (1-l) a + l b *)
Definition along (l : R) (e : vec2 * vec2) : vec2 := add2 (scal2 (1 - l) (fst e)) (scal2 l (snd e)).
Definition boundary (V : list vec2) (Q : vec2) : Prop := exists e l, In e (polygon_edges V) /\ 0 <= l <= 1 /\ Q = along l e.
(** d is the distance from P to the boundary *)
Definition is_distance (P : vec2) (V : list vec2) (d : R) : Prop :=
  (exists Q, boundary V Q /\ d = norm2 (sub2 P Q)) /\ forall Q, boundary V Q -> d <= norm2 (sub2 P Q).
(** the edge meets the horizontal ray going right from P *)
Definition meets_ray (P : vec2) (e : vec2 * vec2) : Prop := exists t l, 0 < t /\ 0 <= l <= 1 /\ add2 P (t, 0) = along l e.
(** P lies strictly inside the triangle a b c *)
Definition inside_tri (P a b c : vec2) : Prop := exists x y z, 0 < x /\ 0 < y /\ 0 < z /\ x + y + z = 1 /\ P = add2 (add2 (scal2 x a) (scal2 y b)) (scal2 z c).
Definition in_closed_tri (P a b c : vec2) : Prop := exists x y z, 0 <= x /\ 0 <= y /\ 0 <= z /\ x + y + z = 1 /\ P = add2 (add2 (scal2 x a) (scal2 y b)) (scal2 z c).

(** -- proofs -- *)
Lemma clip_cases x : (x <= 0 /\ clip01 x = 0) \/ (0 <= x <= 1 /\ clip01 x = x) \/ (1 <= x /\ clip01 x = 1).
Proof.
  unfold clip01. destruct (Rle_dec x 0); [left|right; destruct (Rle_dec x 1); [left|right]]; split; try lra.
  - rewrite Rmax_right, Rmin_left; lra.
  - rewrite Rmax_left, Rmin_left; lra.
  - rewrite Rmax_left, Rmin_right; lra.
Qed.
Lemma clip_range x : 0 <= clip01 x <= 1.
Proof. destruct (clip_cases x) as [(A & ->)|[(A & ->)|(A & ->)]]; lra. Qed.

Definition dd (P Q : vec2) : R := dot2 (sub2 P Q) (sub2 P Q).
Lemma dd_nonneg P Q : 0 <= dd P Q.
Proof. unfold dd, dot2. pose proof (Rle_0_sqr (fst (sub2 P Q))). pose proof (Rle_0_sqr (snd (sub2 P Q))). unfold Rsqr in *. lra. Qed.

Lemma near_spec P a b : dot2 (sub2 a b) (sub2 a b) <> 0 ->
  let e := sub2 a b in let w := sub2 P b in let t := clip01 (dot2 w e / dot2 e e) in
  let q := sub2 w (scal2 t e) in
  dot2 q q = dd P (along (1 - t) (a, b)) /\ forall l, 0 <= l <= 1 -> dot2 q q <= dd P (along l (a, b)).
Proof.
  intros N e w t q. pose proof (clip_range (dot2 w e / dot2 e e)) as CR. fold t in CR.
  assert (EP : 0 < dot2 e e).
  { unfold dot2 in *. fold e in N. pose proof (Rle_0_sqr (fst e)). pose proof (Rle_0_sqr (snd e)). unfold Rsqr in *. lra. }
  assert (F : forall r, dd P (along (1 - r) (a, b)) = dot2 w w - 2 * r * dot2 w e + r * r * dot2 e e).
  { intros r. unfold dd, along, dot2, sub2, add2, scal2, w, e; cbn. unfold dot2, sub2; cbn. ring. }
  assert (QQ : dot2 q q = dot2 w w - 2 * t * dot2 w e + t * t * dot2 e e) by (unfold q, dot2, sub2, scal2; cbn; ring).
  split; [rewrite QQ, F; reflexivity|]. intros l Hl. replace l with (1 - (1 - l)) by ring. rewrite F, QQ. set (r := 1 - l) in *. assert (Hr : 0 <= r <= 1) by (unfold r; lra).
  set (W := dot2 w e) in *. set (E := dot2 e e) in *. set (ww := dot2 w w).
  assert (D : 0 <= (r - t) * ((r + t) * E - 2 * W)).
  2:{ clearbody t r W E ww. replace (ww - 2 * r * W + r * r * E) with (ww - 2 * t * W + t * t * E + (r - t) * ((r + t) * E - 2 * W)) by ring. lra. }
  clear CR QQ F N. clear q. unfold t; clear t. clearbody W E ww r. destruct (clip_cases (W / E)) as [(A & ->)|[(A & ->)|(A & ->)]].
  - assert (W <= 0). { assert (X : W / E * E = W) by (field; lra). rewrite <- X. set (x := W / E) in *. clearbody x. nra. } apply Rmult_le_pos; nra.
  - replace ((r + W / E) * E - 2 * W) with ((r - W / E) * E) by (field; lra). rewrite <- Rmult_assoc. apply Rmult_le_pos; [|lra]. apply Rle_0_sqr.
  - assert (E <= W). { assert (X : W / E * E = W) by (field; lra). rewrite <- X. set (x := W / E) in *. clearbody x. nra. }
    replace ((r - 1) * ((r + 1) * E - 2 * W)) with ((1 - r) * (2 * W - (r + 1) * E)) by ring. apply Rmult_le_pos; nra.
Qed.

Lemma zero_edge a b : dot2 (sub2 a b) (sub2 a b) = 0 -> a = b.
Proof.
  destruct a as [x y], b as [x' y']. unfold dot2, sub2; cbn. intros H. pose proof (Rle_0_sqr (x - x')). pose proof (Rle_0_sqr (y - y')). unfold Rsqr in *.
  assert (x - x' = 0) by nra. assert (y - y' = 0) by nra. f_equal; lra.
Qed.
Lemma along_same l a : along l (a, a) = a.
Proof. destruct a as [x y]. unfold along, add2, scal2; cbn. f_equal; ring. Qed.
Lemma along_end (a b : vec2) : along 1 (a, b) = b.
Proof. destruct a as [x y], b. unfold along, add2, scal2; cbn. f_equal; ring. Qed.

(** step: distance part *)
Lemma step_dist P a b st : let d := fst st in let d' := fst (sdp_step P b a st) in
  d' <= d /\ (d' = d \/ exists l, 0 <= l <= 1 /\ d' = dd P (along l (a, b)))
  /\ (a <> b -> forall l, 0 <= l <= 1 -> d' <= dd P (along l (a, b)))
  /\ (a = b -> d' = d).
Proof.
  destruct st as [d s]; cbn [fst]. unfold sdp_step. destruct (Req_EM_T _ 0) as [Z|N].
  - cbn [fst]. split; [lra|]. split; auto. split; auto. intros NE. apply zero_edge in Z. contradiction.
  - cbn [fst]. destruct (near_spec P a b N) as (A & B). cbn zeta in A, B.
    set (q := dot2 (sub2 (sub2 P b) _) _) in *. split; [apply Rmin_l|]. split.
    + unfold Rmin. destruct (Rle_dec d q); [left; auto|right]. exists (1 - clip01 (dot2 (sub2 P b) (sub2 a b) / dot2 (sub2 a b) (sub2 a b))). split; [|exact A].
      pose proof (clip_range (dot2 (sub2 P b) (sub2 a b) / dot2 (sub2 a b) (sub2 a b))). lra.
    + split.
      * intros _ l Hl. eapply Rle_trans; [apply Rmin_r|]. apply B; auto.
      * intros ->. exfalso. apply N. unfold dot2, sub2; cbn. ring.
Qed.

Definition chain (prev : vec2) (V : list vec2) : list (vec2 * vec2) := combine (prev :: V) V.
Lemma loop_dist P V : forall prev st,
  fst st <= dd P prev ->
  fst (sdp_loop P prev V st) <= fst st
  /\ (fst (sdp_loop P prev V st) = fst st \/ exists e l, In e (chain prev V) /\ 0 <= l <= 1 /\ fst (sdp_loop P prev V st) = dd P (along l e))
  /\ (forall e l, In e (chain prev V) -> 0 <= l <= 1 -> fst (sdp_loop P prev V st) <= dd P (along l e)).
Proof.
  induction V as [|v V IH]; intros prev st H; cbn [sdp_loop].
  - split; [lra|]. split; auto. intros e l [].
  - destruct (step_dist P prev v st) as (A & B & C & D). set (st' := sdp_step P v prev st) in *.
    assert (HV : fst st' <= dd P v).
    { destruct (Req_EM_T (dot2 (sub2 prev v) (sub2 prev v)) 0) as [Z|N].
      - apply zero_edge in Z. subst prev. rewrite D; auto.
      - rewrite <- (along_end prev v). apply C; [|lra]. intros ->. apply N. unfold dot2, sub2; cbn; ring. }
    destruct (IH v st' HV) as (A' & B' & C').
    change (chain prev (v :: V)) with ((prev, v) :: chain v V).
    split; [lra|]. split.
    + destruct B' as [E|(e & l & I & L & E)]; [rewrite E|right; exists e, l; split; [right; auto|auto]].
      destruct B as [E2|(l & L & E2)]; [left; auto|right; exists (prev, v), l; split; [left; auto|auto]].
    + intros e l [<-|I] L; [|apply C'; auto].
      eapply Rle_trans; [apply A'|]. destruct (Req_EM_T (dot2 (sub2 prev v) (sub2 prev v)) 0) as [Z|N].
      * apply zero_edge in Z. subst prev. rewrite along_same. auto.
      * apply C; auto. intros ->. apply N. unfold dot2, sub2; cbn; ring.
Qed.

Lemma last_d {A} (l : list A) d d' : l <> [] -> last l d = last l d'.
Proof. induction l as [|x [|y l] IH]; intros H; [congruence|reflexivity|]. cbn in *. apply IH. discriminate. Qed.

Lemma pe_eq (v0 : vec2) V : polygon_edges (v0 :: V) = (last (v0 :: V) v0, v0) :: chain v0 V.
Proof.
  unfold polygon_edges. cbn [combine]. unfold chain. f_equal. f_equal. apply last_d. discriminate.
Qed.
Lemma sdp_dist P V st : V <> [] -> st = sdp_loop P (last V (hd (0,0) V)) V (dd P (hd (0,0) V), 1) ->
  0 <= fst st /\ (exists Q, boundary V Q /\ fst st = dd P Q) /\ forall Q, boundary V Q -> fst st <= dd P Q.
Proof.
  intros NE ->. destruct V as [|v0 V]; [congruence|]. cbn [hd]. set (prev := last (v0 :: V) v0).
  assert (PE : polygon_edges (v0 :: V) = (prev, v0) :: chain v0 V).
  { apply pe_eq. }
  cbn [sdp_loop]. destruct (step_dist P prev v0 (dd P v0, 1)) as (A & B & C & D). set (st' := sdp_step P v0 prev (dd P v0, 1)) in *. cbn [fst] in *.
  assert (HV : fst st' <= dd P v0) by lra.
  destruct (loop_dist P V v0 st' HV) as (A' & B' & C'). set (st := sdp_loop P v0 V st') in *.
  assert (AT : exists Q, boundary (v0 :: V) Q /\ fst st = dd P Q).
  { unfold boundary. rewrite PE. destruct B' as [E|(e & l & I & L & E)].
    - destruct B as [E2|(l & L & E2)].
      + exists v0. split; [|rewrite E, E2; reflexivity]. exists (prev, v0), 1. split; [left; auto|]. split; [lra|]. rewrite along_end; auto.
      + exists (along l (prev, v0)). split; [|rewrite E, E2; reflexivity]. exists (prev, v0), l. split; [left; auto|auto].
    - exists (along l e). split; auto. exists e, l. split; [right; auto|auto]. }
  split; [destruct AT as (Q & _ & ->); apply dd_nonneg|]. split; [exact AT|].
  intros Q (e & l & I & L & ->). rewrite PE in I. destruct I as [<-|I]; [|apply C'; auto].
  eapply Rle_trans; [apply A'|]. destruct (Req_EM_T (dot2 (sub2 prev v0) (sub2 prev v0)) 0) as [Z|N].
  + apply zero_edge in Z. rewrite Z, along_same. auto.
  + apply C; auto. intros E. apply N. rewrite E. unfold dot2, sub2; cbn; ring.
Qed.

(** sign part *)
Definition flips (P : vec2) (e : vec2 * vec2) : bool := if Rlt_dec (snd (sdp_step P (snd e) (fst e) (0, 1))) 0 then true else false.
Lemma step_sign P a b st : snd (sdp_step P b a st) = if flips P (a, b) then - snd st else snd st.
Proof.
  destruct st as [d s]. unfold flips, sdp_step; cbn [fst snd]. destruct (Req_EM_T _ 0); cbn [snd].
  - destruct (Rlt_dec 1 0); [lra|auto].
  - destruct (orb _ _); destruct (Rlt_dec _ 0); try lra; ring.
Qed.
Fixpoint odd_count (bs : list bool) : bool := match bs with [] => false | b :: r => xorb b (odd_count r) end.
Lemma loop_sign P V : forall prev st, snd (sdp_loop P prev V st) = if odd_count (map (flips P) (chain prev V)) then - snd st else snd st.
Proof.
  induction V as [|v V IH]; intros prev st; [reflexivity|]. cbn [sdp_loop]. rewrite IH, step_sign.
  change (chain prev (v :: V)) with ((prev, v) :: chain v V). cbn [map odd_count]. destruct (flips P (prev, v)), (odd_count _); cbn [xorb]; lra.
Qed.

Lemma flips_spec P a b : snd P <> snd a -> snd P <> snd b -> (forall l, 0 <= l <= 1 -> P <> along l (a, b)) ->
  flips P (a, b) = true <-> meets_ray P (a, b).
Proof.
  destruct P as [px py], a as [ax ay], b as [bx by_]. cbn [snd]. intros NA NB OFF.
  assert (OFF' : forall l, 0 <= l <= 1 -> py = (1 - l) * ay + l * by_ -> px <> (1 - l) * ax + l * bx).
  { intros l Hl E1 E2. apply (OFF l Hl). unfold along, add2, scal2; cbn. f_equal; auto. }
  assert (FR : flips (px, py) ((ax, ay), (bx, by_)) = true <->
     (by_ < py < ay /\ (ax - bx) * (py - by_) > (ay - by_) * (px - bx)) \/ (ay < py < by_ /\ (ax - bx) * (py - by_) <= (ay - by_) * (px - bx))).
  { unfold flips, sdp_step; cbn [fst snd]. unfold sub2 at 1 2; cbn [fst snd].
    destruct (Req_EM_T _ 0) as [Z|N]; cbn [snd].
    - unfold dot2 in Z; cbn [fst snd] in Z. pose proof (Rle_0_sqr (ax - bx)). pose proof (Rle_0_sqr (ay - by_)). unfold Rsqr in *.
      assert (ay - by_ = 0) by nra. destruct (Rlt_dec 1 0); [lra|]. split; [discriminate|]. intros; lra.
    - clear N. unfold sub2; cbn [fst snd]. destruct (Rge_dec py by_), (Rle_dec py ay), (Rgt_dec ((ax - bx) * (py - by_)) ((ay - by_) * (px - bx))); cbn [negb andb orb];
        destruct (Rlt_dec _ 0); try lra; split; intros; try discriminate; try reflexivity; try lra. }
  rewrite FR. unfold meets_ray, along, add2, scal2; cbn [fst snd]. split.
  - intros [(Y & C)|(Y & C)].
    + exists (((ax - bx) * (py - by_) - (ay - by_) * (px - bx)) / (ay - by_)), (1 - (py - by_) / (ay - by_)).
      split; [apply Rdiv_lt_0_compat; lra|]. split.
      * assert (0 <= (py - by_) / (ay - by_) <= 1); [|lra]. split; [apply Rlt_le, Rdiv_lt_0_compat; lra|]. apply (Rmult_le_reg_r (ay - by_)); [lra|]. unfold Rdiv. rewrite Rmult_assoc, Rinv_l by lra. lra.
      * f_equal; field; lra.
    + assert (NZ : (ax - bx) * (py - by_) <> (ay - by_) * (px - bx)).
      { intros E. apply (OFF' ((py - ay) / (by_ - ay))).
        - split; [apply Rlt_le, Rdiv_lt_0_compat; lra|]. apply (Rmult_le_reg_r (by_ - ay)); [lra|]. unfold Rdiv. rewrite Rmult_assoc, Rinv_l by lra. lra.
        - field; lra.
        - apply (Rmult_eq_reg_l (by_ - ay)); [|lra]. field_simplify; [|lra]. lra. }
      exists (((ay - by_) * (px - bx) - (ax - bx) * (py - by_)) / (by_ - ay)), ((py - ay) / (by_ - ay)).
      split; [apply Rdiv_lt_0_compat; lra|]. split.
      * split; [apply Rlt_le, Rdiv_lt_0_compat; lra|]. apply (Rmult_le_reg_r (by_ - ay)); [lra|]. unfold Rdiv. rewrite Rmult_assoc, Rinv_l by lra. lra.
      * f_equal; field; lra.
  - intros (t & l & Ht & Hl & E). injection E as E1 E2. rewrite Rplus_0_r in E2.
    assert (L0 : l <> 0) by (intros ->; apply NA; lra). assert (L1 : l <> 1) by (intros ->; apply NB; lra).
    assert (W1 : py - by_ = (1 - l) * (ay - by_)) by lra. assert (W0 : px - bx = (1 - l) * (ax - bx) - t) by lra.
    destruct (Rtotal_order ay by_) as [O|[O|O]].
    + right. split; [nra|]. rewrite W1, W0. nra.
    + exfalso. subst. nra.
    + left. split; [nra|]. rewrite W1, W0. nra.
Qed.

(** the distance, for every polygon and query point *)
Theorem C52_distance : forall (V : list vec2) (P : vec2), V <> [] ->
  exists r, signed_distance_polygon P V = Ok r /\ is_distance P V (Rabs r).
Proof.
  intros V P NE. destruct V as [|v0 V]; [congruence|]. unfold signed_distance_polygon.
  destruct (sdp_loop P (last (v0 :: V) v0) (v0 :: V) (dot2 (sub2 P v0) (sub2 P v0), 1)) as [d s] eqn:E.
  eexists; split; [reflexivity|].
  destruct (sdp_dist P (v0 :: V) (d, s) NE) as (A & (Q & BQ & EQ) & C); [exact (eq_sym E)|]. cbn [fst] in *.
  pose proof (loop_sign P (v0 :: V) (last (v0 :: V) v0) (dot2 (sub2 P v0) (sub2 P v0), 1)) as SG. rewrite E in SG. cbn [snd] in SG.
  assert (RA : Rabs (s * sqrt d) = sqrt d).
  { rewrite Rabs_mult. rewrite (Rabs_pos_eq (sqrt d)) by apply sqrt_pos. replace (Rabs s) with 1; [ring|]. destruct (odd_count _); rewrite SG; [rewrite Rabs_Ropp|]; rewrite Rabs_R1; auto. }
  rewrite RA. unfold is_distance, norm2. split.
  - exists Q. split; auto. rewrite EQ. reflexivity.
  - intros Q' B'. apply sqrt_le_1_alt. apply (C Q' B').
Qed.

(** the sign is the even-odd rule, for query points level with no vertex *)
Theorem C52_even_odd_partial : forall (V : list vec2) (P : vec2) (bs : list bool) (d r : R), V <> [] ->
  (forall v, In v V -> snd P <> snd v) -> ~ boundary V P ->
  Forall2 (fun e b => b = true <-> meets_ray P e) (polygon_edges V) bs ->
  is_distance P V d -> signed_distance_polygon P V = Ok r ->
  r = if odd_count bs then - d else d.
Proof.
  intros V P bs d r NE GEN OFF FB DI QR.
  destruct (C52_distance V P NE) as (r' & Q' & DI'). rewrite QR in Q'. injection Q' as <-.
  assert (ED : Rabs r = d).
  { destruct DI as ((Q & B & E) & L), DI' as ((Q2 & B2 & E2) & L2). apply Rle_antisym; [rewrite E; auto|rewrite E2; auto]. }
  destruct V as [|v0 V]; [congruence|]. unfold signed_distance_polygon in QR.
  destruct (sdp_loop P (last (v0 :: V) v0) (v0 :: V) (dot2 (sub2 P v0) (sub2 P v0), 1)) as [d2 s] eqn:E. injection QR as <-.
  pose proof (loop_sign P (v0 :: V) (last (v0 :: V) v0) (dot2 (sub2 P v0) (sub2 P v0), 1)) as SG. rewrite E in SG. cbn [snd] in SG.
  assert (PE : polygon_edges (v0 :: V) = chain (last (v0 :: V) v0) (v0 :: V)).
  { apply pe_eq. }
  rewrite <- PE in SG.
  assert (BE : map (flips P) (polygon_edges (v0 :: V)) = bs).
  { assert (INV : forall e, In e (polygon_edges (v0 :: V)) -> snd P <> snd (fst e) /\ snd P <> snd (snd e) /\ forall l, 0 <= l <= 1 -> P <> along l e).
    { intros [a b] I. assert (I' := I). unfold polygon_edges in I'. apply in_combine_l in I' as I1. apply in_combine_r in I'. cbn [fst snd]. split; [|split].
      - apply GEN. destruct I1 as [<-|I1]; auto. clear. set (V' := v0 :: V). assert (N : V' <> []) by discriminate. rewrite (app_removelast_last (0,0) N) at 2. apply in_app_iff; right; left; auto.
      - apply GEN; auto.
      - intros l L EP. apply OFF. exists (a, b), l. auto. }
    clear - FB INV. induction FB as [|[a b] bb es bs H F IH]; auto. cbn [map]. f_equal.
    - destruct (INV (a, b) (or_introl eq_refl)) as (N1 & N2 & O). pose proof (flips_spec P a b N1 N2 O) as FS. destruct bb.
      + apply (proj2 FS), (proj1 H); auto.
      + destruct (flips P (a, b)) eqn:EF; auto. symmetry. apply (proj2 H), (proj1 FS). exact EF.
    - apply IH. intros e I. apply INV. right; auto. }
  rewrite BE in SG. rewrite <- ED, Rabs_mult, (Rabs_pos_eq (sqrt d2)) by apply sqrt_pos. rewrite SG. destruct (odd_count bs).
  - rewrite Rabs_Ropp, Rabs_R1. ring.
  - rewrite Rabs_R1. ring.
Qed.

(** for triangles the even-odd rule is the inside test *)
Lemma bary_exists P a b c : det2 (sub2 b a) (sub2 c a) <> 0 -> exists x y z, x + y + z = 1 /\ P = add2 (add2 (scal2 x a) (scal2 y b)) (scal2 z c).
Proof.
  intros N. set (D := det2 (sub2 b a) (sub2 c a)) in *.
  exists (1 - det2 (sub2 P a) (sub2 c a) / D - det2 (sub2 b a) (sub2 P a) / D), (det2 (sub2 P a) (sub2 c a) / D), (det2 (sub2 b a) (sub2 P a) / D).
  split; [ring|]. unfold D in *. destruct P as [px py], a as [ax ay], b as [bx by_], c as [cx cy]. unfold det2, sub2, add2, scal2 in *; cbn [fst snd] in *. f_equal; field; auto.
Qed.
Lemma flips_bool P a b : snd P <> snd a -> snd P <> snd b ->
  flips P (a, b) = (if Rlt_dec (snd b) (snd P) then if Rlt_dec (snd P) (snd a) then if Rlt_dec 0 (det2 (sub2 a b) (sub2 P b)) then true else false else false
                    else if Rlt_dec (snd P) (snd a) then false else if Rlt_dec 0 (det2 (sub2 a b) (sub2 P b)) then false else true).
Proof.
  destruct P as [px py], a as [ax ay], b as [bx by_]. cbn [snd]. intros NA NB. unfold flips, sdp_step, det2; cbn [fst snd]. unfold sub2; cbn [fst snd].
  destruct (Req_EM_T _ 0) as [Z|N]; cbn [snd].
  - unfold dot2 in Z; cbn [fst snd] in Z. pose proof (Rle_0_sqr (ax - bx)). pose proof (Rle_0_sqr (ay - by_)). unfold Rsqr in *.
    assert (ay - by_ = 0) by nra. destruct (Rlt_dec 1 0); [lra|]. destruct (Rlt_dec by_ py), (Rlt_dec py ay); auto; try lra.
  - clear N. destruct (Rge_dec py by_), (Rle_dec py ay), (Rgt_dec ((ax - bx) * (py - by_)) ((ay - by_) * (px - bx))); cbn [negb andb orb];
      destruct (Rlt_dec _ 0); try lra; destruct (Rlt_dec by_ py), (Rlt_dec py ay), (Rlt_dec 0 ((ax - bx) * (py - by_) - (ay - by_) * (px - bx))); auto; lra.
Qed.

Theorem C52_triangle : forall (a b c P : vec2) (d : R), det2 (sub2 b a) (sub2 c a) <> 0 ->
  snd P <> snd a -> snd P <> snd b -> snd P <> snd c -> is_distance P [a; b; c] d ->
  (inside_tri P a b c -> signed_distance_polygon P [a; b; c] = Ok (- d))
  /\ (~ in_closed_tri P a b c -> signed_distance_polygon P [a; b; c] = Ok d).
Proof.
  intros a b c P d ND NA NB NC DI.
  destruct (C52_distance [a; b; c] P ltac:(discriminate)) as (r & QR & DI').
  assert (ED : Rabs r = d).
  { destruct DI as ((Q & B & E) & L), DI' as ((Q2 & B2 & E2) & L2). apply Rle_antisym; [rewrite E; auto|rewrite E2; auto]. }
  assert (RS : r = if odd_count [flips P (c, a); flips P (a, b); flips P (b, c)] then - d else d).
  { unfold signed_distance_polygon in QR. cbn [last] in QR.
    destruct (sdp_loop P c [a; b; c] (dot2 (sub2 P a) (sub2 P a), 1)) as [d2 s] eqn:E. injection QR as <-.
    pose proof (loop_sign P [a; b; c] c (dot2 (sub2 P a) (sub2 P a), 1)) as SG. rewrite E in SG. cbn [snd chain combine map] in SG.
    rewrite <- ED, Rabs_mult, (Rabs_pos_eq (sqrt d2)) by apply sqrt_pos. rewrite SG. destruct (odd_count _).
    - rewrite Rabs_Ropp, Rabs_R1. ring.
    - rewrite Rabs_R1. ring. }
  assert (KEY : forall x y z, x + y + z = 1 -> P = add2 (add2 (scal2 x a) (scal2 y b)) (scal2 z c) ->
     (0 < x -> 0 < y -> 0 < z -> odd_count [flips P (c, a); flips P (a, b); flips P (b, c)] = true)
     /\ (x < 0 \/ y < 0 \/ z < 0 -> odd_count [flips P (c, a); flips P (a, b); flips P (b, c)] = false)).
  { intros x y z S1 EP. rewrite !flips_bool by auto. clear QR DI DI' ED RS.
    set (D := det2 (sub2 b a) (sub2 c a)) in *.
    assert (D1 : det2 (sub2 c a) (sub2 P a) = - (y * D)).
    { subst P. unfold D, det2, sub2, add2, scal2; cbn. replace x with (1 - y - z) by lra. ring. }
    assert (D2 : det2 (sub2 a b) (sub2 P b) = - (z * D)).
    { subst P. unfold D, det2, sub2, add2, scal2; cbn. replace x with (1 - y - z) by lra. ring. }
    assert (D3 : det2 (sub2 b c) (sub2 P c) = - (x * D)).
    { subst P. unfold D, det2, sub2, add2, scal2; cbn. replace x with (1 - y - z) by lra. ring. }
    rewrite D1, D2, D3. clear D1 D2 D3.
    assert (YE : x * (snd a - snd P) + y * (snd b - snd P) + z * (snd c - snd P) = 0).
    { subst P. unfold add2, scal2; cbn. replace x with (1 - y - z) by lra. ring. }
    clear EP. clearbody D. set (A := snd a) in *. set (B := snd b) in *. set (C := snd c) in *. set (p := snd P) in *. clearbody A B C p. clear a b c P.
    assert (SD : forall t, (0 < - (t * D) <-> (t < 0 /\ 0 < D) \/ (0 < t /\ D < 0))).
    { intros t. split; [intros H|intros [H|H]; nra]. destruct (Rtotal_order D 0) as [O|[O|O]]; [right|contradiction|left]; split; nra. }
    assert (SGN : forall t, {t < 0} + {t = 0} + {0 < t}) by (intros; apply total_order_T).
    split.
    - intros Hx Hy Hz.
      destruct (Rlt_dec 0 (- (y * D))) as [U|U], (Rlt_dec 0 (- (z * D))) as [U0|U0], (Rlt_dec 0 (- (x * D))) as [U1|U1]; rewrite SD in U, U0, U1; try (exfalso; lra);
      destruct (Rlt_dec A p), (Rlt_dec B p), (Rlt_dec C p), (Rlt_dec p A), (Rlt_dec p B), (Rlt_dec p C); try reflexivity; exfalso; try lra; nra.
    - intros Hn.
      destruct (Rlt_dec 0 (- (y * D))) as [U|U], (Rlt_dec 0 (- (z * D))) as [U0|U0], (Rlt_dec 0 (- (x * D))) as [U1|U1]; rewrite SD in U, U0, U1; try (exfalso; lra);
      destruct (Rlt_dec A p), (Rlt_dec B p), (Rlt_dec C p), (Rlt_dec p A), (Rlt_dec p B), (Rlt_dec p C); try reflexivity; exfalso; try lra; destruct (SGN x) as [[|]|], (SGN y) as [[|]|], (SGN z) as [[|]|]; try lra; nra. }
  rewrite QR, RS. split.
  - intros (x & y & z & Hx & Hy & Hz & S1 & EP). destruct (KEY x y z S1 EP) as (K & _). rewrite K; auto.
  - intros NI. destruct (bary_exists P a b c ND) as (x & y & z & S1 & EP). destruct (KEY x y z S1 EP) as (_ & K). rewrite K; auto.
    destruct (Rlt_dec x 0), (Rlt_dec y 0), (Rlt_dec z 0); auto. exfalso. apply NI. exists x, y, z. repeat split; auto; lra.
Qed.

(** C52 fails when the query point is level with a vertex: the centre of the square |x|+|y| = 1 gets a positive sign,
    although it is level with two vertices only and the nearby point (0, 1/4) correctly gets a negative one *)
Definition diamond : list vec2 := [(1, 0); (0, 1); (-1, 0); (0, -1)].
Lemma diamond_flips (P : vec2) r : signed_distance_polygon P diamond = Ok r -> exists d, 0 <= d /\
  r = if odd_count (map (flips P) [((0, -1), (1, 0)); ((1, 0), (0, 1)); ((0, 1), (-1, 0)); ((-1, 0), (0, -1))]) then - d else d.
Proof.
  unfold signed_distance_polygon, diamond. cbn [last].
  destruct (sdp_loop P (0, -1) [(1, 0); (0, 1); (-1, 0); (0, -1)] (dot2 (sub2 P (1, 0)) (sub2 P (1, 0)), 1)) as [d2 s] eqn:E. intros H; injection H as <-.
  pose proof (loop_sign P [(1, 0); (0, 1); (-1, 0); (0, -1)] (0, -1) (dot2 (sub2 P (1, 0)) (sub2 P (1, 0)), 1)) as SG. rewrite E in SG. cbn [snd chain combine] in SG.
  exists (sqrt d2). split; [apply sqrt_pos|]. rewrite SG. destruct (odd_count _); ring.
Qed.
Lemma flips_lit P a b : flips P (a, b) = (if Req_EM_T (dot2 (sub2 a b) (sub2 a b)) 0 then false else
   let q1 := if Rge_dec (snd P) (snd b) then true else false in let q2 := if Rle_dec (snd P) (snd a) then true else false in
   let q3 := if Rgt_dec (fst (sub2 a b) * snd (sub2 P b)) (snd (sub2 a b) * fst (sub2 P b)) then true else false in
   orb (andb q1 (andb q2 q3)) (andb (negb q1) (andb (negb q2) (negb q3)))).
Proof.
  unfold flips, sdp_step; cbn [fst snd]. destruct (Req_EM_T _ 0); cbn [snd]; [destruct (Rlt_dec 1 0); [lra|auto]|].
  destruct (orb _ _); destruct (Rlt_dec _ 0); try lra; auto.
Qed.
Theorem C52_level_vertex_refuted :
  exists (V : list vec2) (P : vec2) r, V = [(1, 0); (0, 1); (-1, 0); (0, -1)] /\ P = (0, 0) /\ signed_distance_polygon P V = Ok r /\ 0 < r.
Proof.
  destruct (C52_distance diamond (0, 0) ltac:(discriminate)) as (r & QR & (Q & BQ & EQ) & DI). exists diamond, (0, 0), r. split; [reflexivity|]. split; [reflexivity|]. split; [exact QR|].
  destruct (diamond_flips _ _ QR) as (d & Hd & E).
  assert (NZ : r <> 0).
  { intros ->. rewrite Rabs_R0 in EQ. destruct BQ as (e & l & I & L & ->). symmetry in EQ. unfold norm2 in EQ. apply sqrt_eq_0 in EQ.
    - change (polygon_edges diamond) with [((0, -1), (1, 0)); ((1, 0), (0, 1)); ((0, 1), (-1, 0)); ((-1, 0), (0, -1))] in I.
      unfold along, dot2, sub2, add2, scal2 in EQ. destruct I as [<- | [<- | [<- | [<- | []]]]]; cbn in EQ; nra.
    - apply (dd_nonneg (0,0) (along l e)). }
  cbn [map] in E. rewrite !flips_lit in E. unfold dot2, sub2 in E; cbn [fst snd] in E.
  repeat match goal with H : context[Req_EM_T ?x ?y] |- _ => destruct (Req_EM_T x y); try lra
     | H : context[Rge_dec ?x ?y] |- _ => destruct (Rge_dec x y); try lra
     | H : context[Rle_dec ?x ?y] |- _ => destruct (Rle_dec x y); try lra
     | H : context[Rgt_dec ?x ?y] |- _ => destruct (Rgt_dec x y); try lra end.
  cbn in E. lra.
Qed.

(** hypotheses met *)
Example C52_example : det2 (sub2 (1, 0) (0, 0)) (sub2 (0, 1) (0, 0)) <> 0 /\ inside_tri (1/4, 1/4) (0, 0) (1, 0) (0, 1)
  /\ snd ((1/4, 1/4) : vec2) <> 0 /\ snd ((1/4, 1/4) : vec2) <> 1 /\ ~ in_closed_tri (1, 1/2) (0, 0) (1, 0) (0, 1).
Proof.
  split; [unfold det2, sub2; cbn; lra|]. split; [exists (1/2), (1/4), (1/4); unfold add2, scal2; cbn; repeat split; try lra; f_equal; lra|].
  split; [cbn; lra|]. split; [cbn; lra|]. intros (x & y & z & Hx & Hy & Hz & S & E). unfold add2, scal2 in E; cbn in E. injection E as E1 E2. lra.
Qed.
Print Assumptions C52_distance.
Print Assumptions C52_even_odd_partial.
Print Assumptions C52_triangle.
Print Assumptions C52_level_vertex_refuted.
