(** C79: matryoshka. Specification: the outer shape A is a set [inside] with surface [surf]; signed_distance and ray_mesh_intersect are described by
    the contracts [distance_to] and [first_hit]; [nests] says what a nested copy is. *)
From Coq Require Import Reals Lra Psatz ZArith List Bool String.
From Verif Require Import Vec PyExn NumpyModel AabbModel RotModel SweepModel SwarmModel P_Rot P_Sweep P_Swarm MatryModel MatryProofs.
Import ListNotations.
Open Scope R_scope.

Definition distance_to (inside surf : vec3 -> Prop) (sd : vec3 -> R) : Prop := forall p,
  (inside p <-> sd p < 0) /\ (forall y, surf y -> Rabs (sd p) <= dist p y) /\ (exists y, surf y /\ dist p y = Rabs (sd p)).
Definition first_hit (surf : vec3 -> Prop) (ray : vec3 -> vec3 -> option R) : Prop := forall p d,
  match ray p d with
  | Some t => 0 <= t /\ surf (add3 p (scal3 t d)) /\ forall u, 0 <= u -> surf (add3 p (scal3 u d)) -> t <= u
  | None => forall u, 0 <= u -> ~ surf (add3 p (scal3 u d))
  end.
(** T(b) = c + s R (b - B_center) *)
Definition placed (s : R) (M : mat3) (c Bc b : vec3) : vec3 := add3 c (scal3 s (app3 M (sub3 b Bc))).
Definition height (cp cn p : vec3) : R := dot3 (sub3 p cp) cn.
(** every point of the copy is inside A, 1e-6 away from its surface, and sliding the copy against a direction never meets A's surface on the other half's side *)
Definition nests (inside surf : vec3 -> Prop) (pts : list vec3) (Bc : vec3) (s : R) (g : config) : Prop := forall b, In b pts ->
  let q := placed s (gR g) (gc g) Bc b in
  inside q /\ (forall y, surf y -> / 1000000 <= dist q y) /\
  (forall t, 0 <= t -> surf (sub3 q (scal3 t (gap g))) -> height (gcp g) (gcn g) (sub3 q (scal3 t (gap g))) <= / 1000000) /\
  (forall t, 0 <= t -> surf (sub3 q (scal3 t (gam g))) -> - / 1000000 <= height (gcp g) (gcn g) (sub3 q (scal3 t (gam g)))).
(** the cut normal and the directions are unit, and the directions point to their own sides *)
Definition proper (g : config) : Prop := dot3 (gcn g) (gcn g) = 1 /\ dot3 (gap g) (gap g) = 1 /\ dot3 (gam g) (gam g) = 1 /\ 0 <= dot3 (gap g) (gcn g) /\ dot3 (gam g) (gcn g) <= 0.

Lemma placed_ok s M c Bc b : transform_point s M c Bc b = placed s M c Bc b.
Proof. unfold transform_point, placed. ex3. f_equal; [f_equal|]; ring. Qed.
Lemma minus_ray p t a : add3 p (scal3 t (scal3 (-1) a)) = sub3 p (scal3 t a). Proof. ex3. f_equal; [f_equal|]; ring. Qed.
Lemma height_ray cp cn p t a : height cp cn (sub3 p (scal3 t a)) = height cp cn p - t * dot3 a cn. Proof. unfold height. ex3. ring. Qed.
Lemma existsb_false {A} (f : A -> bool) l : existsb f l = false <-> forall x, In x l -> f x = false.
Proof.
  induction l as [|a l IH]; cbn [existsb]; [split; [intros _ x []|reflexivity]|]. rewrite orb_false_iff, IH. split.
  - intros [H1 H2] x [<-|I]; auto.
  - intro H. split; [apply H; left; reflexivity|intros x I; apply H; right; exact I].
Qed.
Lemma gtb_false x y : gtb x y = false <-> x <= y. Proof. unfold gtb. destruct (Rlt_dec y x); split; intro H; try discriminate; try lra; reflexivity. Qed.
Lemma ltb_false x y : ltb x y = false <-> y <= x. Proof. unfold ltb. destruct (Rlt_dec x y); split; intro H; try discriminate; try lra; reflexivity. Qed.

Section Contract.
  Variable inside surf : vec3 -> Prop.
  Variable sd : vec3 -> R.
  Variable ray : vec3 -> vec3 -> option R.
  Hypothesis sd_ok : distance_to inside surf sd.
  Hypothesis ray_ok : first_hit surf ray.

  Lemma sd_test p : sd p <= - e6 <-> inside p /\ forall y, surf y -> / 1000000 <= dist p y.
  Proof.
    destruct (sd_ok p) as (I & L & (y & SY & DY)). unfold e6. split.
    - intro H. split; [apply I; lra|]. intros z SZ. specialize (L z SZ). rewrite Rabs_left in L by lra. lra.
    - intros [J H]. apply I in J. specialize (H y SY). rewrite DY, Rabs_left in H by exact J. lra.
  Qed.
  Lemma plus_test cp cn p a : 0 <= dot3 a cn -> above e6 (hit_side ray cp cn p (scal3 (-1) a)) = false <->
    (forall t, 0 <= t -> surf (sub3 p (scal3 t a)) -> height cp cn (sub3 p (scal3 t a)) <= / 1000000).
  Proof.
    intro P. unfold hit_side. pose proof (ray_ok p (scal3 (-1) a)) as RO. destruct (ray p (scal3 (-1) a)) as [t|].
    - cbn [above]. rewrite gtb_false. rewrite minus_ray in *. destruct RO as (T0 & ST & MIN). fold (height cp cn (sub3 p (scal3 t a))). unfold e6. split.
      + intros H u U SU. rewrite <- minus_ray in SU. specialize (MIN u U SU). rewrite height_ray in *. nra.
      + intro H. apply H; assumption.
    - split; [|reflexivity]. intros _ u U SU. exfalso. rewrite <- minus_ray in SU. exact (RO u U SU).
  Qed.
  Lemma minus_test cp cn p a : dot3 a cn <= 0 -> below e6 (hit_side ray cp cn p (scal3 (-1) a)) = false <->
    (forall t, 0 <= t -> surf (sub3 p (scal3 t a)) -> - / 1000000 <= height cp cn (sub3 p (scal3 t a))).
  Proof.
    intro P. unfold hit_side. pose proof (ray_ok p (scal3 (-1) a)) as RO. destruct (ray p (scal3 (-1) a)) as [t|].
    - cbn [below]. rewrite ltb_false. rewrite minus_ray in *. destruct RO as (T0 & ST & MIN). fold (height cp cn (sub3 p (scal3 t a))). unfold e6. split.
      + intros H u U SU. rewrite <- minus_ray in SU. specialize (MIN u U SU). rewrite height_ray in *. nra.
      + intro H. apply H; assumption.
    - split; [|reflexivity]. intros _ u U SU. exfalso. rewrite <- minus_ray in SU. exact (RO u U SU).
  Qed.
  Definition feas_at (pts : list vec3) (Bc : vec3) (g : config) (s : R) : bool :=
    feasible sd ray (map (transform_point s (gR g) (gc g) Bc) pts) (gcp g) (gcn g) (gap g) (gam g).
  Lemma feasible_nests pts Bc g s : proper g -> feas_at pts Bc g s = true <-> nests inside surf pts Bc s g.
  Proof.
    intros (UN & UP & UM & SP & SM). unfold feas_at, feasible. rewrite (normalize_id _ UP), (normalize_id _ UM).
    set (TB := map _ pts).
    assert (E : (if existsb (fun p => gtb (sd p) (- e6)) TB then false
      else if existsb (fun p => above e6 (hit_side ray (gcp g) (gcn g) p (scal3 (-1) (gap g)))) TB then false
      else if existsb (fun p => below e6 (hit_side ray (gcp g) (gcn g) p (scal3 (-1) (gam g)))) TB then false else true) = true <->
      (forall q, In q TB -> sd q <= - e6 /\ above e6 (hit_side ray (gcp g) (gcn g) q (scal3 (-1) (gap g))) = false /\ below e6 (hit_side ray (gcp g) (gcn g) q (scal3 (-1) (gam g))) = false)).
    { destruct (existsb (fun p => gtb (sd p) (- e6)) TB) eqn:E1.
      { split; [discriminate|]. intro H. exfalso. apply existsb_exists in E1. destruct E1 as (q & Q & G). destruct (H q Q) as (G' & _). apply gtb_false in G'. congruence. }
      destruct (existsb (fun p => above _ _) TB) eqn:E2.
      { split; [discriminate|]. intro H. exfalso. apply existsb_exists in E2. destruct E2 as (q & Q & G). destruct (H q Q) as (_ & G' & _). congruence. }
      destruct (existsb (fun p => below _ _) TB) eqn:E3.
      { split; [discriminate|]. intro H. exfalso. apply existsb_exists in E3. destruct E3 as (q & Q & G). destruct (H q Q) as (_ & _ & G'). congruence. }
      rewrite existsb_false in E1, E2, E3. split; [|reflexivity]. intros _ q Q. repeat split; auto. apply gtb_false. auto. }
    rewrite E. unfold nests, TB. split.
    - intros H b B. rewrite <- placed_ok. specialize (H _ (in_map _ _ _ B)). cbv zeta. destruct H as (H1 & H2 & H3).
      apply sd_test in H1. rewrite plus_test in H2 by exact SP. rewrite minus_test in H3 by exact SM. destruct H1. auto.
    - intros H q Q. apply in_map_iff in Q. destruct Q as (b & <- & B). specialize (H b B). cbv zeta in H. rewrite <- placed_ok in H. destruct H as (H1 & H2 & H3 & H4).
      rewrite sd_test, plus_test, minus_test by assumption. auto.
  Qed.
End Contract.

(** the bisection *)
Lemma bisect_ok feas tol n : forall lo hi, feas lo = true -> feas hi = false -> lo < hi ->
  let r := bisect feas tol n lo hi in feas r = true /\ lo <= r < hi /\ exists h, r < h <= hi /\ feas h = false /\ h - r <= Rmax tol ((hi - lo) / 2 ^ n).
Proof.
  induction n as [|n IH]; intros lo hi FL FH L; cbn [bisect]; cbv zeta.
  - split; [exact FL|]. split; [lra|]. exists hi. split; [lra|]. split; [exact FH|]. cbn [pow]. pose proof (Rmax_r tol ((hi - lo) / 1)). lra.
  - set (mid := / 2 * (lo + hi)).
    assert (A : let lo' := if feas mid then mid else lo in let hi' := if feas mid then hi else mid in
      feas lo' = true /\ feas hi' = false /\ lo <= lo' /\ lo' < hi' /\ hi' <= hi /\ hi' - lo' = (hi - lo) / 2).
    { cbv zeta. destruct (feas mid) eqn:E; unfold mid in *; repeat split; try assumption; lra. }
    cbv zeta in A. set (lo' := if feas mid then mid else lo) in *. set (hi' := if feas mid then hi else mid) in *. clearbody lo' hi'.
    destruct A as (A1 & A2 & A3 & A4 & A5 & A6).
    destruct (Rlt_dec (hi' - lo') tol) as [T|T].
    + split; [exact A1|]. split; [lra|]. exists hi'. split; [lra|]. split; [exact A2|]. pose proof (Rmax_l tol ((hi - lo) / 2 ^ S n)). lra.
    + destruct (IH lo' hi' A1 A2 A4) as (B1 & B2 & h & B3 & B4 & B5). split; [exact B1|]. split; [lra|]. exists h. split; [lra|]. split; [exact B4|].
      replace ((hi - lo) / 2 ^ S n) with ((hi' - lo') / 2 ^ n); [exact B5|]. rewrite A6. cbn [pow]. field. apply pow_nonzero. lra.
Qed.
Lemma pow15 : (2 : R) ^ 15 = 32768. Proof. cbn [pow]. lra. Qed.
Lemma largest_ok feas tol : let s := largest_scale feas tol in
  (s = 0 /\ feas (/ 1000) = false) \/
  (/ 1000 <= s <= 1 /\ feas s = true /\ (s = 1 \/ exists h, s < h <= 1 /\ feas h = false /\ h - s <= Rmax tol (999 / 32768000))).
Proof.
  cbv zeta. unfold largest_scale, e3. destruct (feas (/ 1000)) eqn:F0; [|left; split; reflexivity]. right.
  destruct (feas 1) eqn:F1; [split; [lra|]; split; [exact F1|left; reflexivity]|].
  rewrite Rmax_right by lra. destruct (bisect_ok feas tol 15 (/ 1000) 1 F0 F1 ltac:(lra)) as (A & B & h & C & D & E). split; [lra|]. split; [exact A|]. right. exists h.
  split; [lra|]. split; [exact D|]. replace ((1 - / 1000) / 2 ^ 15) with (999 / 32768000) in E; [exact E|]. rewrite pow15. field.
Qed.
Lemma bisect_ext f g tol n : (forall s, f s = g s) -> forall lo hi, bisect f tol n lo hi = bisect g tol n lo hi.
Proof.
  intro H. induction n as [|n IH]; intros lo hi; [reflexivity|]. cbn [bisect]. cbv zeta. rewrite H.
  destruct (Rlt_dec _ tol); [reflexivity|]. apply IH.
Qed.
Lemma largest_ext f g tol : (forall s, f s = g s) -> largest_scale f tol = largest_scale g tol.
Proof. intro H. unfold largest_scale. rewrite !H. rewrite (bisect_ext f g tol 15 H). reflexivity. Qed.
Lemma scale_range sd ray pts Bc tol g : let s := scale_of sd ray pts Bc tol g in s = 0 \/ / 1000 <= s <= 1.
Proof. cbv zeta. destruct (largest_ok (feas_at sd ray pts Bc g) tol) as [[A _]|[A _]]; [left|right]; exact A. Qed.

(** the tracker *)
Lemma track_ok obj xs : forall best, let b := track obj best xs in
  fst best <= fst b /\ (forall x, In x xs -> obj x <= fst b) /\ (b = best \/ exists x, In x xs /\ b = (obj x, Some x) /\ fst best < obj x).
Proof.
  induction xs as [|x xs IH]; intros best; cbv zeta; [repeat split; [cbn; lra|intros x []|left; reflexivity]|]. unfold track. cbn [fold_left].
  fold (track obj (if Rlt_dec (fst best) (obj x) then (obj x, Some x) else best) xs). destruct (IH (if Rlt_dec (fst best) (obj x) then (obj x, Some x) else best)) as (A & B & C).
  set (b := track obj _ xs) in *. clearbody b. destruct (Rlt_dec (fst best) (obj x)) as [L|L].
  - cbn [fst] in *. split; [lra|]. split; [intros y [<-|Y]; [exact A|auto]|]. right. destruct C as [->|(y & Y & -> & G)].
    + exists x. split; [left; reflexivity|split; [reflexivity|exact L]].
    + exists y. split; [right; exact Y|split; [reflexivity|lra]].
  - split; [exact A|]. split; [intros y [<-|Y]; [lra|auto]|]. destruct C as [->|(y & Y & -> & G)]; [left; reflexivity|]. right. exists y. split; [right; exact Y|split; [reflexivity|exact G]].
Qed.

(** what the user may pass: a cut normal and removal directions that are not (numerically) zero, each direction on its own side of the plane *)
Definition given_sides (a : args) : Prop :=
  let n := match acn a with None => (0, 0, 1) | Some n => n end in
  / 1000000000000 <= norm3 n /\
  (forall d, aap a = Some d -> / 1000000000000 <= norm3 d /\ 0 <= dot3 d n) /\
  (forall d, aam a = Some d -> / 1000000000000 <= norm3 d /\ dot3 d n <= 0).
(** the initial particles and velocities drawn by the swarm *)
Definition drawn (a : args) (rnd : randomness) : Prop :=
  let v := hd zero3 (aV a) in
  let lb := lower (aopt a) (box_min v (aV a)) (box_max v (aV a)) in let ub := upper (aopt a) (box_min v (aV a)) (box_max v (aV a)) in
  x0 rnd <> [] /\ List.length (v0 rnd) = List.length (x0 rnd) /\ Forall (in_bounds lb ub) (x0 rnd) /\ Forall (fun v => List.length v = List.length lb) (v0 rnd).
(** the call that keeps everything but the scale fixed *)
Definition pinned (a : args) (g : config) : args :=
  {| aV := aV a; aVB := aVB a; aopt := "scale_only"; aR := Some (gR g); ac := Some (gc g); acp := Some (gcp g); acn := Some (gcn g); aap := Some (gap g); aam := Some (gam g);
     atol := atol a; aiter := aiter a; awarm := NoWarm |}.
Definition with_mode (a : args) (m : string) (w : warm) : args :=
  {| aV := aV a; aVB := aVB a; aopt := m; aR := aR a; ac := ac a; acp := acp a; acn := acn a; aap := aap a; aam := aam a; atol := atol a; aiter := aiter a; awarm := w |}.

Lemma dot_scal_l s a b : dot3 (scal3 s a) b = s * dot3 a b. Proof. ex3. ring. Qed.
Lemma dot_scal_r s a b : dot3 a (scal3 s b) = s * dot3 a b. Proof. ex3. ring. Qed.
Lemma flip_pos_ok a n : dot3 a a = 1 -> dot3 (flip_pos a n) (flip_pos a n) = 1 /\ 0 <= dot3 (flip_pos a n) n.
Proof. intro U. unfold flip_pos. destruct (Rlt_dec (dot3 a n) 0) as [L|L]; rewrite ?dot_scal_l, ?dot_scal_r; lra. Qed.
Lemma flip_neg_ok a n : dot3 a a = 1 -> dot3 (flip_neg a n) (flip_neg a n) = 1 /\ dot3 (flip_neg a n) n <= 0.
Proof. intro U. unfold flip_neg. destruct (Rlt_dec 0 (dot3 a n)) as [L|L]; rewrite ?dot_scal_l, ?dot_scal_r; lra. Qed.
Lemma decode_proper x m fixed anchor : m = "all"%string \/ proper fixed -> proper (decode x m fixed anchor).
Proof.
  intro H. unfold decode. destruct (String.eqb_spec m "all") as [E|E].
  - unfold proper. cbn [gcn gap gam]. pose proof (flip_pos_ok (normalize (slice3 x 10)) (normalize (slice3 x 6)) (normalize_unit _)) as [A B].
    pose proof (flip_neg_ok (normalize (slice3 x 13)) (normalize (slice3 x 6)) (normalize_unit _)) as [C D]. pose proof (normalize_unit (slice3 x 6)). tauto.
  - destruct H as [H|H]; [contradiction|]. exact H.
Qed.
Lemma normalize_pos v : / 1000000000000 <= norm3 v -> exists k, 0 < k /\ normalize v = scal3 k v.
Proof.
  intro H. unfold normalize. destruct (Rlt_dec (norm3 v) e12) as [L|L]; [unfold e12 in L; lra|]. exists (/ norm3 v). split; [apply Rinv_0_lt_compat; unfold e12 in L; lra|reflexivity].
Qed.
Lemma cn_form a : / 1000000000000 <= norm3 (match acn a with None => (0, 0, 1) | Some n => n end) ->
  exists k, 0 < k /\ the_cn a = scal3 k (match acn a with None => (0, 0, 1) | Some n => n end).
Proof. intro H. unfold the_cn. destruct (acn a) as [n|]; [apply normalize_pos; exact H|]. exists 1. split; [lra|]. rewrite scal_1. reflexivity. Qed.
Lemma cn_unit a : dot3 (the_cn a) (the_cn a) = 1.
Proof. unfold the_cn. destruct (acn a); [apply normalize_unit|]. unfold dot3, X, Y, Zc. cbn [fst snd]. ring. Qed.
Lemma fixed_proper a M c : given_sides a -> proper {| gR := M; gc := c; gcp := the_cp a; gcn := the_cn a; gap := the_ap a; gam := the_am a |}.
Proof.
  intros (N & P & Q). destruct (cn_form a N) as (k & K & EK). pose proof (cn_unit a) as U. unfold proper. cbn [gcn gap gam]. split; [exact U|].
  assert (AP : dot3 (the_ap a) (the_ap a) = 1 /\ 0 <= dot3 (the_ap a) (the_cn a)).
  { unfold the_ap. destruct (aap a) as [d|]; [|split; [exact U|lra]]. split; [apply normalize_unit|]. destruct (P d eq_refl) as [D S].
    destruct (normalize_pos d D) as (j & J & ->). rewrite EK, dot_scal_l, dot_scal_r. apply Rmult_le_pos; [lra|]. apply Rmult_le_pos; [lra|exact S]. }
  assert (AM : dot3 (the_am a) (the_am a) = 1 /\ dot3 (the_am a) (the_cn a) <= 0).
  { unfold the_am. destruct (aam a) as [d|]; [|rewrite !dot_scal_l, ?dot_scal_r; lra]. split; [apply normalize_unit|]. destruct (Q d eq_refl) as [D S].
    destruct (normalize_pos d D) as (j & J & ->). rewrite EK, dot_scal_l, dot_scal_r. assert (0 <= j * (k * - dot3 d (match acn a with None => (0, 0, 1) | Some n => n end))).
    { apply Rmult_le_pos; [lra|]. apply Rmult_le_pos; lra. } lra. }
  tauto.
Qed.

Definition the_fixed (a : args) : config := {| gR := eye3; gc := mean3 (aV a); gcp := the_cp a; gcn := the_cn a; gap := the_ap a; gam := the_am a |}.
Definition the_samples (a : args) (rnd : randomness) : list vec3 := the_VB a ++ points rnd.
Definition only_config (a : args) : config :=
  {| gR := match aR a with None => eye3 | Some M => M end; gc := match ac a with None => mean3 (aV a) | Some c => c end; gcp := the_cp a; gcn := the_cn a; gap := the_ap a; gam := the_am a |}.
Section Body.
  Variable sd : vec3 -> R.
  Variable ray : vec3 -> vec3 -> option R.
  Definition score (a : args) (rnd : randomness) (g : config) : R := scale_of sd ray (the_samples a rnd) (mean3 (the_VB a)) (atol a) g.
  Lemma only_ok a rnd seed r : aopt a = "scale_only"%string -> body sd ray a rnd seed = Ok r ->
    aV a <> [] /\ the_VB a <> [] /\ r = result_of (score a rnd (only_config a)) (mean3 (the_VB a)) (only_config a).
  Proof.
    intros M H. unfold body in H. rewrite M in H. cbn [String.eqb Ascii.eqb Bool.eqb] in H. destruct (aV a) as [|v V] eqn:EV; [discriminate H|].
    destruct (the_VB a) as [|b B] eqn:EB; [discriminate H|]. split; [discriminate|]. split; [discriminate|]. injection H as <-. unfold score, the_samples, only_config. rewrite EB, EV. reflexivity.
  Qed.
  Lemma only_total a rnd inner : aopt a = "scale_only"%string -> aV a <> [] -> the_VB a <> [] -> exists r, matryoshka sd ray a rnd inner = Ok r.
  Proof.
    intros M V B. unfold matryoshka. rewrite M. cbn [String.eqb Ascii.eqb Bool.eqb]. unfold body. rewrite M. cbn [String.eqb Ascii.eqb Bool.eqb].
    destruct (aV a) as [|v V']; [contradiction|]. destruct (the_VB a) as [|b B']; [contradiction|]. eexists. reflexivity.
  Qed.
  Definition start (a : args) (rnd : randomness) (sr : option result) : R * option vec :=
    match sr with
    | Some r => if Rlt_dec 0 (rs r) then let x := encode_all (config_of r) (mean3 (aV a)) in (score a rnd (decode x "all" (the_fixed a) (mean3 (aV a))), Some x) else (0, None)
    | None => (0, None)
    end.
  Definition finish (a : args) (best : R * option vec) : result :=
    match snd best with
    | None => result_of 0 (mean3 (the_VB a)) (the_fixed a)
    | Some x => result_of (fst best) (mean3 (the_VB a)) (decode x (aopt a) (the_fixed a) (mean3 (aV a)))
    end.
  Definition obj_of (a : args) (rnd : randomness) (x : vec) : R := score a rnd (decode x (aopt a) (the_fixed a) (mean3 (aV a))).
  Lemma swarm_ok a rnd seed r : aopt a <> "scale_only"%string -> body sd ray a rnd seed = Ok r ->
    exists v V sr x f ev, aV a = v :: V /\ the_VB a <> [] /\ seed = Ok sr /\
      particle_swarm true Full (fun x => - obj_of a rnd x) (lower (aopt a) (box_min v (aV a)) (box_max v (aV a))) (upper (aopt a) (box_min v (aV a)) (box_max v (aV a)))
        (9 / 10) (1 / 10) (x0 rnd) (v0 rnd) (aiter a) (draws rnd) = Ok (x, f, ev) /\
      r = finish a (track (obj_of a rnd) (start a rnd sr) (rev ev)).
  Proof.
    intros M H. apply String.eqb_neq in M. unfold body in H. rewrite M in H. destruct (aV a) as [|v V] eqn:EV; [discriminate H|].
    destruct (the_VB a) as [|b B] eqn:EB; [discriminate H|]. destruct seed as [sr|]; [|discriminate H]. cbn [bind] in H. cbv zeta in H. rewrite <- EV in H. fold (the_fixed a) in H.
    rewrite <- EB in H. fold (the_samples a rnd) in H. 
    change (fun x => scale_of sd ray (the_samples a rnd) (mean3 (the_VB a)) (atol a) (decode x (aopt a) (the_fixed a) (mean3 (aV a)))) with (obj_of a rnd) in H.
    change (fun x => - scale_of sd ray (the_samples a rnd) (mean3 (the_VB a)) (atol a) (decode x (aopt a) (the_fixed a) (mean3 (aV a)))) with (fun x => - obj_of a rnd x) in H.
    rewrite <- EV. rewrite <- EB.
    destruct (particle_swarm _ _ _ _ _ _ _ _ _ _ _) as [[[x f] ev]|] eqn:PS in H; [|discriminate H]. cbn [bind] in H.
    exists v, V, sr, x, f, ev. split; [assumption|]. split; [rewrite EB; discriminate|]. split; [reflexivity|]. split; [exact PS|].
    unfold finish, start, score. cbv zeta. revert H. match goal with |- context [track (obj_of a rnd) ?b (rev ev)] => set (best := track (obj_of a rnd) b (rev ev)) end.
    intro H. destruct (snd best); injection H as <-; reflexivity.
  Qed.
End Body.

Section Main.
  Variable inside surf : vec3 -> Prop.
  Variable sd : vec3 -> R.
  Variable ray : vec3 -> vec3 -> option R.
  Hypothesis sd_ok : distance_to inside surf sd.
  Hypothesis ray_ok : first_hit surf ray.

  Lemma score_spec a rnd g : proper g -> let s := score sd ray a rnd g in
    (s = 0 /\ ~ nests inside surf (the_samples a rnd) (mean3 (the_VB a)) (/ 1000) g) \/
    (/ 1000 <= s <= 1 /\ nests inside surf (the_samples a rnd) (mean3 (the_VB a)) s g /\
     (s = 1 \/ exists h, s < h <= 1 /\ ~ nests inside surf (the_samples a rnd) (mean3 (the_VB a)) h g /\ h - s <= Rmax (atol a) (999 / 32768000))).
  Proof.
    intros P. cbv zeta. unfold score, scale_of. fold (feas_at sd ray (the_samples a rnd) (mean3 (the_VB a)) g).
    assert (N : forall s, feas_at sd ray (the_samples a rnd) (mean3 (the_VB a)) g s = false -> ~ nests inside surf (the_samples a rnd) (mean3 (the_VB a)) s g).
    { intros s F C. apply (feasible_nests inside surf sd ray sd_ok ray_ok _ _ _ _ P) in C. congruence. }
    destruct (largest_ok (feas_at sd ray (the_samples a rnd) (mean3 (the_VB a)) g) (atol a)) as [[A B]|(A & B & C)]; [left; auto|right].
    split; [exact A|]. split; [apply (feasible_nests inside surf sd ray sd_ok ray_ok _ _ _ _ P); exact B|]. destruct C as [C|(h & C & D & E)]; [left; exact C|right]. exists h. auto.
  Qed.
  (** the returned scale is the score of the returned configuration, or zero *)
  Lemma result_score a rnd inner r : matryoshka sd ray a rnd inner = Ok r -> rBc r = mean3 (the_VB a) /\
    ((aopt a <> "scale_only"%string /\ rs r = 0 /\ r = result_of 0 (mean3 (the_VB a)) (the_fixed a)) \/
     (rs r = score sd ray a rnd (config_of r) /\
       ((aopt a = "scale_only"%string /\ config_of r = only_config a) \/ (aopt a <> "scale_only"%string /\ exists x, config_of r = decode x (aopt a) (the_fixed a) (mean3 (aV a)))))).
  Proof.
    intro H. unfold matryoshka in H. destruct (string_dec (aopt a) "scale_only") as [E|E].
    - apply only_ok in H; [|exact E]. destruct H as (_ & _ & ->). split; [reflexivity|]. right. destruct (only_config a) eqn:EO. cbn. split; [reflexivity|]. left. split; [exact E|reflexivity].
    - apply swarm_ok in H; [|exact E]. destruct H as (v & V & sr & x & f & ev & EV & EB & SD & PS & ->).
      destruct (track_ok (obj_of sd ray a rnd) (rev ev) (start sd ray a rnd sr)) as (_ & _ & T).
      assert (ST : start sd ray a rnd sr = (0, None) \/ exists y, aopt a = "all"%string /\ start sd ray a rnd sr = (obj_of sd ray a rnd y, Some y)).
      { unfold start. destruct sr as [d|]; [|left; reflexivity]. destruct (Rlt_dec 0 (rs d)); [|left; reflexivity]. right. destruct (String.eqb_spec (aopt a) "all") as [E2|E2].
        - exists (encode_all (config_of d) (mean3 (aV a))). split; [exact E2|]. unfold obj_of. rewrite E2. reflexivity.
        - discriminate SD. }
      assert (FIN : forall y, finish a (obj_of sd ray a rnd y, Some y) = result_of (obj_of sd ray a rnd y) (mean3 (the_VB a)) (decode y (aopt a) (the_fixed a) (mean3 (aV a)))) by reflexivity.
      assert (CF : forall s g, config_of (result_of s (mean3 (the_VB a)) g) = g) by (intros s []; reflexivity).
      assert (GOOD : forall y, let r := finish a (obj_of sd ray a rnd y, Some y) in rBc r = mean3 (the_VB a) /\ rs r = score sd ray a rnd (config_of r) /\ exists x, config_of r = decode x (aopt a) (the_fixed a) (mean3 (aV a))).
      { intro y. cbv zeta. rewrite FIN, CF. split; [reflexivity|]. split; [reflexivity|]. exists y. reflexivity. }
      destruct T as [T|(y & _ & T & _)].
      + destruct ST as [ST|(y & _ & ST)]; rewrite T, ST.
        * split; [reflexivity|]. left. split; [exact E|]. split; reflexivity.
        * destruct (GOOD y) as (G1 & G2 & G3). split; [exact G1|]. right. split; [exact G2|]. right. split; [exact E|exact G3].
      + rewrite T. destruct (GOOD y) as (G1 & G2 & G3). split; [exact G1|]. right. split; [exact G2|]. right. split; [exact E|exact G3].
  Qed.
  Lemma result_proper a rnd inner r : matryoshka sd ray a rnd inner = Ok r -> (aopt a = "all"%string /\ 0 < rs r) \/ given_sides a -> proper (config_of r).
  Proof.
    intros H S. apply result_score in H. destruct H as (_ & [(E & Z & ->)|(_ & [(E & ->)|(E & x & ->)])]).
    - destruct S as [[_ S]|S]; [cbn in S; lra|]. exact (fixed_proper a eye3 (mean3 (aV a)) S).
    - destruct S as [[S _]|S]; [rewrite S in E; discriminate E|]. apply fixed_proper. exact S.
    - apply decode_proper. destruct S as [[S _]|S]; [left; exact S|right]. apply fixed_proper. exact S.
  Qed.
End Main.

Theorem C79_nested : forall inside surf sd ray a rnd inner r,
  distance_to inside surf sd -> first_hit surf ray -> matryoshka sd ray a rnd inner = Ok r ->
  0 < rs r -> aopt a = "all"%string \/ given_sides a ->
  let VB := match aVB a with None => aV a | Some l => l end in
  / 1000 <= rs r <= 1 /\ proper (config_of r) /\ rBc r = scal3 (/ INR (List.length VB)) (fold_right add3 zero3 VB) /\
  (aopt a <> "scale_only"%string -> is_rotation3 (rR r)) /\
  nests inside surf (VB ++ points rnd) (rBc r) (rs r) (config_of r).
Proof.
  intros inside surf sd ray a rnd inner r SD RAY H POS S VB.
  assert (P : proper (config_of r)) by (eapply result_proper; [exact H|destruct S; auto]).
  apply result_score in H. destruct H as (BC & [(E & Z & _)|(SC & H)]); [lra|].
  destruct (score_spec inside surf sd ray SD RAY a rnd (config_of r) P) as [[Z _]|(RG & N & _)]; [lra|]. rewrite <- SC in *.
  split; [exact RG|]. split; [exact P|]. split; [exact BC|]. split.
  - intro E. destruct H as [(E2 & _)|(_ & x & H)]; [contradiction|]. change (rR r) with (gR (config_of r)). rewrite H.
    unfold decode. destruct (String.eqb (aopt a) "all"); cbn [gR]; apply axis_angle_rotation.
  - rewrite BC. exact N.
Qed.
Print Assumptions C79_nested.

(** scale_only keeps what it is given and finds the largest nested scale up to max(scale_tol, 3.05e-5) *)
Theorem C79_search : forall inside surf sd ray a rnd inner r,
  distance_to inside surf sd -> first_hit surf ray -> matryoshka sd ray a rnd inner = Ok r -> aopt a = "scale_only"%string -> given_sides a ->
  let VB := match aVB a with None => aV a | Some l => l end in
  let ok := fun s => nests inside surf (VB ++ points rnd) (rBc r) s (config_of r) in
  (forall M, aR a = Some M -> rR r = M) /\ (aR a = None -> rR r = eye3) /\ (forall c, ac a = Some c -> rc r = c) /\ (forall p, acp a = Some p -> rcp r = p) /\
  ((rs r = 0 /\ ~ ok (/ 1000)) \/ (rs r = 1 /\ ok 1) \/ (/ 1000 <= rs r < 1 /\ ok (rs r) /\ exists h, rs r < h <= rs r + Rmax (atol a) (999 / 32768000) /\ ~ ok h)) /\
  ((forall s t, 0 < s <= t -> ok t -> ok s) -> forall s, / 1000 <= s <= 1 -> ok s -> s <= rs r + Rmax (atol a) (999 / 32768000)).
Proof.
  intros inside surf sd ray a rnd inner r SD RAY H E S VB ok.
  assert (P : proper (config_of r)) by (eapply result_proper; [exact H|right; exact S]).
  apply result_score in H. destruct H as (BC & [(E2 & _)|(SC & [(_ & CF)|(E2 & _)])]); [contradiction| |contradiction].
  assert (F1 : rR r = match aR a with None => eye3 | Some M => M end) by (change (rR r) with (gR (config_of r)); rewrite CF; reflexivity).
  assert (F2 : rc r = match ac a with None => mean3 (aV a) | Some M => M end) by (change (rc r) with (gc (config_of r)); rewrite CF; reflexivity).
  assert (F3 : rcp r = the_cp a) by (change (rcp r) with (gcp (config_of r)); rewrite CF; reflexivity).
  split; [intros M EM; rewrite F1, EM; reflexivity|]. split; [intros EM; rewrite F1, EM; reflexivity|]. split; [intros c EC; rewrite F2, EC; reflexivity|].
  split; [intros p EP; rewrite F3; unfold the_cp; rewrite EP; reflexivity|].
  assert (MP : 0 < Rmax (atol a) (999 / 32768000)) by (pose proof (Rmax_r (atol a) (999 / 32768000)); lra).
  pose proof (score_spec inside surf sd ray SD RAY a rnd (config_of r) P) as SP. cbv zeta in SP. rewrite <- SC, <- BC in SP. fold ok in SP.
  change (forall s, nests inside surf (the_samples a rnd) (rBc r) s (config_of r) = ok s) with (forall s, ok s = ok s) in *.
  change (nests inside surf (the_samples a rnd) (rBc r) (/ 1000) (config_of r)) with (ok (/ 1000)) in SP.
  change (nests inside surf (the_samples a rnd) (rBc r) (rs r) (config_of r)) with (ok (rs r)) in SP.
  assert (SP' : (rs r = 0 /\ ~ ok (/ 1000)) \/ (/ 1000 <= rs r <= 1 /\ ok (rs r) /\ (rs r = 1 \/ exists h, rs r < h <= 1 /\ ~ ok h /\ h - rs r <= Rmax (atol a) (999 / 32768000)))) by exact SP.
  clear SP. split.
  - destruct SP' as [Z|(RG & N & [ONE|(h & H1 & H2 & H3)])]; [left; exact Z|right; left; split; [exact ONE|rewrite <- ONE; exact N]|].
    right. right. split; [lra|]. split; [exact N|]. exists h. split; [lra|exact H2].
  - intros MONO s RS OS. destruct SP' as [(Z & NO)|(RG & N & [ONE|(h & H1 & H2 & H3)])].
    + exfalso. apply NO. apply (MONO (/ 1000) s); [lra|exact OS].
    + lra.
    + destruct (Rle_lt_dec s (rs r + Rmax (atol a) (999 / 32768000))) as [L|L]; [exact L|]. exfalso. apply H2. apply (MONO h s); [lra|exact OS].
Qed.
Print Assumptions C79_search.

Lemma fold_minmax f d l : fold_min f d l <= fold_max f d l.
Proof.
  induction l as [|v l IH]; [unfold fold_min, fold_max; cbn; lra|]. unfold fold_min, fold_max in *. cbn [fold_right].
  set (m := fold_right (fun v m => Rmin (f v) m) (f d) l) in *. set (M := fold_right (fun v m => Rmax (f v) m) (f d) l) in *.
  pose proof (Rmin_l (f v) m). pose proof (Rmax_l (f v) M). lra.
Qed.
Lemma bounds_ok m v l : let lb := lower m (box_min v l) (box_max v l) in let ub := upper m (box_min v l) (box_max v l) in
  List.length ub = List.length lb /\ forall j, (j < List.length lb)%nat -> nth j lb 0 <= nth j ub 0.
Proof.
  cbv zeta. unfold lower, upper, list_of, box_min, box_max. unfold X, Y, Zc. cbn [fst snd].
  pose proof (fold_minmax (fun v => fst (fst v)) v l) as A. pose proof (fold_minmax (fun v => snd (fst v)) v l) as B. pose proof (fold_minmax (fun v => snd v) v l) as C.
  pose proof PI_RGT_0 as PP. set (nn := norm3 _). assert (0 <= nn) by apply norm_nn. clearbody nn. unfold X, Y, Zc in *.
  destruct (String.eqb m "all"); cbn [app List.length]; (split; [reflexivity|]); intros j J; do 16 (destruct j as [|j]; [cbn [nth]; lra|]); lia.
Qed.
Lemma neq_only a m : m <> "scale_only"%string -> aopt a = m -> aopt a <> "scale_only"%string. Proof. intros H ->. exact H. Qed.

(** a call without warm start succeeds for every run of the swarm *)
Lemma body_total sd ray a rnd sr : aV a <> [] -> the_VB a <> [] -> drawn a rnd -> aopt a <> "scale_only"%string -> exists r, body sd ray a rnd (Ok sr) = Ok r.
Proof.
  intros EV EB (D1 & D2 & D3 & D4) NS.
  apply String.eqb_neq in NS. unfold body. rewrite NS. destruct (aV a) as [|v V] eqn:E; [contradiction|]. destruct (the_VB a) as [|b B] eqn:E2; [contradiction|].
  cbn [bind hd] in *. cbv zeta. rewrite <- E in *. rewrite <- E2.
  destruct (bounds_ok (aopt a) v (aV a)) as (L & U).
  match goal with |- context [particle_swarm true Full ?fn ?lb ?ub ?mo ?phi ?x ?y ?k ?dr] =>
    destruct (C46_best true Full fn lb ub mo phi x y k dr L U (or_introl eq_refl) D1 D2 D3 D4) as (bx & bf & ev & PS & _) end.
  rewrite PS. cbn [bind]. match goal with |- context [snd (track ?o ?b ?l)] => destruct (snd (track o b l)) end; eexists; reflexivity.
Qed.
Lemma swarm_total sd ray a rnd inner : aV a <> [] -> the_VB a <> [] -> drawn a rnd -> aopt a <> "scale_only"%string -> awarm a = NoWarm ->
  exists r, matryoshka sd ray a rnd inner = Ok r.
Proof.
  intros EV EB D NS NW. unfold matryoshka. rewrite NW.
  replace (if String.eqb (aopt a) "all" then Ok None else Ok None) with (Ok (@None result)) by (destruct (String.eqb (aopt a) "all"); reflexivity).
  apply body_total; assumption.
Qed.
Lemma swarm_facts sd ray a rnd inner r : drawn a rnd -> aopt a <> "scale_only"%string -> matryoshka sd ray a rnd inner = Ok r ->
  exists sr ev, (if String.eqb (aopt a) "all" then match awarm a with NoWarm => Ok None | WarmDict r => Ok (Some r) | WarmTrue => do r <- body sd ray (rigid_args a) inner (Ok None); Ok (Some r) end else Ok None) = Ok sr /\
    aV a <> [] /\ the_VB a <> [] /\ (forall x, In x (x0 rnd) -> In x ev) /\
    (forall x, In x ev -> in_bounds (lower (aopt a) (box_min (hd zero3 (aV a)) (aV a)) (box_max (hd zero3 (aV a)) (aV a))) (upper (aopt a) (box_min (hd zero3 (aV a)) (aV a)) (box_max (hd zero3 (aV a)) (aV a))) x) /\
    r = finish a (track (obj_of sd ray a rnd) (start sd ray a rnd sr) (rev ev)).
Proof.
  intros (D1 & D2 & D3 & D4) NS H. unfold matryoshka in H. apply swarm_ok in H; [|exact NS]. destruct H as (v & V & sr & x & f & ev & EV & EB & SD & PS & RR).
  rewrite EV in D3, D4. cbn [hd] in D3, D4. rewrite <- EV in D3, D4. destruct (bounds_ok (aopt a) v (aV a)) as (L & U).
  destruct (C46_best true Full (fun x => - obj_of sd ray a rnd x) _ _ (9 / 10) (1 / 10) _ _ (aiter a) (draws rnd) L U (or_introl eq_refl) D1 D2 D3 D4) as (bx & bf & ev' & PS' & _ & _ & _ & B & I & _).
  rewrite PS in PS'. injection PS' as <- <- <-. exists sr, ev. split; [exact SD|]. split; [rewrite EV; discriminate|]. split; [exact EB|]. split; [exact I|]. split; [|exact RR].
  intros y Y. rewrite EV. cbn [hd]. rewrite <- EV. apply B. exact Y.
Qed.
Lemma pinned_score sd ray a rnd inner g r' : proper g -> matryoshka sd ray (pinned a g) rnd inner = Ok r' -> rs r' = score sd ray a rnd g.
Proof.
  intros (UN & UP & UM & _) H. unfold matryoshka in H. apply only_ok in H; [|reflexivity]. destruct H as (_ & _ & ->). cbn [rs result_of].
  unfold score, the_samples, the_VB. cbn [aVB aV atol pinned]. f_equal. unfold only_config, the_cn, the_cp, the_ap, the_am. cbn [aR ac acp acn aap aam pinned].
  rewrite (normalize_id _ UN), (normalize_id _ UP), (normalize_id _ UM). destruct g. reflexivity.
Qed.
Lemma fold_min_ge f d l b : (forall v, In v l -> b <= f v) -> b <= f d -> b <= fold_min f d l.
Proof. intros H D. unfold fold_min. induction l as [|v l IH]; [exact D|]. cbn [fold_right]. apply Rmin_glb; [apply H; left; reflexivity|apply IH; intros w W; apply H; right; exact W]. Qed.
Lemma fold_max_le f d l b : (forall v, In v l -> f v <= b) -> f d <= b -> fold_max f d l <= b.
Proof. intros H D. unfold fold_max. induction l as [|v l IH]; [exact D|]. cbn [fold_right]. apply Rmax_lub; [apply H; left; reflexivity|apply IH; intros w W; apply H; right; exact W]. Qed.

(** the optimised modes: no initial particle's configuration has a larger scale, and without warm start the copy's centre is in A's bounding box *)
Theorem C79_best : forall sd ray a rnd inner, aV a <> [] -> match aVB a with Some l => l <> [] | None => True end -> drawn a rnd -> aopt a <> "scale_only"%string -> awarm a = NoWarm ->
  exists r, matryoshka sd ray a rnd inner = Ok r /\
    (forall x inner' r', In x (x0 rnd) -> aopt a = "all"%string \/ given_sides a ->
       matryoshka sd ray (pinned a (decode x (aopt a) (the_fixed a) (mean3 (aV a)))) rnd inner' = Ok r' -> rs r' <= rs r) /\
    (0 < rs r -> forall lo hi, (forall v, In v (aV a) -> X lo <= X v <= X hi /\ Y lo <= Y v <= Y hi /\ Zc lo <= Zc v <= Zc hi) ->
       X lo <= X (rc r) <= X hi /\ Y lo <= Y (rc r) <= Y hi /\ Zc lo <= Zc (rc r) <= Zc hi).
Proof.
  intros sd ray a rnd inner EV EB0 D NS NW.
  assert (EB : the_VB a <> []) by (unfold the_VB; destruct (aVB a); assumption).
  destruct (swarm_total sd ray a rnd inner EV EB D NS NW) as (r & RR). exists r. split; [exact RR|].
  destruct (swarm_facts sd ray a rnd inner r D NS RR) as (sr & ev & SD & _ & _ & I & BD & EQ). rewrite NW in SD.
  assert (sr = None) as -> by (destruct (String.eqb (aopt a) "all"); injection SD as <-; reflexivity). clear SD.
  destruct (track_ok (obj_of sd ray a rnd) (rev ev) (start sd ray a rnd None)) as (T1 & T2 & T3). set (b := track _ _ _) in *. cbn [start fst] in T1, T3.
  assert (RS : rs r = fst b).
  { rewrite EQ. unfold finish. destruct T3 as [->|(x & _ & -> & _)]; reflexivity. }
  split.
  - intros x inner' r' IX S H. apply pinned_score in H; [|apply decode_proper; destruct S as [S|S]; [left; exact S|right; apply fixed_proper; exact S]].
    rewrite H, RS. apply T2. rewrite <- in_rev. apply I. exact IX.
  - intros POS lo hi BOX. destruct T3 as [E|(x & IX & E & _)]; [rewrite RS, E in POS; cbn in POS; lra|]. rewrite <- in_rev in IX. specialize (BD x IX). destruct BD as (LX & BX).
    assert (C : rc r = slice3 x 3). { rewrite EQ, E. unfold finish, decode. cbn [snd]. destruct (String.eqb (aopt a) "all"); reflexivity. }
    rewrite C. assert (HD : In (hd zero3 (aV a)) (aV a)) by (destruct (aV a); [contradiction|left; reflexivity]).
    assert (len : (6 <= List.length (lower (aopt a) (box_min (hd zero3 (aV a)) (aV a)) (box_max (hd zero3 (aV a)) (aV a))))%nat).
    { unfold lower, list_of. rewrite !app_length. cbn [List.length]. lia. }
    pose proof (BX 3%nat ltac:(lia)) as B3. pose proof (BX 4%nat ltac:(lia)) as B4. pose proof (BX 5%nat ltac:(lia)) as B5. clear BX.
    set (h := hd zero3 (aV a)) in *.
    change (fold_min X h (aV a) <= nth 3 x 0 <= fold_max X h (aV a)) in B3. change (fold_min Y h (aV a) <= nth 4 x 0 <= fold_max Y h (aV a)) in B4.
    change (fold_min Zc h (aV a) <= nth 5 x 0 <= fold_max Zc h (aV a)) in B5.
    change (X (slice3 x 3)) with (nth 3 x 0). change (Y (slice3 x 3)) with (nth 4 x 0). change (Zc (slice3 x 3)) with (nth 5 x 0).
    pose proof (fold_min_ge X h (aV a) (X lo) (fun v I => proj1 (proj1 (BOX v I))) (proj1 (proj1 (BOX h HD)))).
    pose proof (fold_min_ge Y h (aV a) (Y lo) (fun v I => proj1 (proj1 (proj2 (BOX v I)))) (proj1 (proj1 (proj2 (BOX h HD))))).
    pose proof (fold_min_ge Zc h (aV a) (Zc lo) (fun v I => proj1 (proj2 (proj2 (BOX v I)))) (proj1 (proj2 (proj2 (BOX h HD))))).
    pose proof (fold_max_le X h (aV a) (X hi) (fun v I => proj2 (proj1 (BOX v I))) (proj2 (proj1 (BOX h HD)))).
    pose proof (fold_max_le Y h (aV a) (Y hi) (fun v I => proj2 (proj1 (proj2 (BOX v I)))) (proj2 (proj1 (proj2 (BOX h HD))))).
    pose proof (fold_max_le Zc h (aV a) (Zc hi) (fun v I => proj2 (proj2 (proj2 (BOX v I)))) (proj2 (proj2 (proj2 (BOX h HD))))).
    lra.
Qed.
Print Assumptions C79_best.

(** nothing nests: the zero result, and then no initial particle nests at scale 1/1000 *)
Theorem C79_none : forall inside surf sd ray a rnd inner r, distance_to inside surf sd -> first_hit surf ray -> drawn a rnd -> aopt a <> "scale_only"%string -> awarm a = NoWarm ->
  matryoshka sd ray a rnd inner = Ok r -> rs r = 0 ->
  let VB := match aVB a with None => aV a | Some l => l end in
  rR r = eye3 /\ rc r = mean3 (aV a) /\ rcp r = the_cp a /\ rcn r = the_cn a /\ rap r = the_ap a /\ ram r = the_am a /\
  forall x, In x (x0 rnd) -> aopt a = "all"%string \/ given_sides a -> ~ nests inside surf (VB ++ points rnd) (rBc r) (/ 1000) (decode x (aopt a) (the_fixed a) (mean3 (aV a))).
Proof.
  intros inside surf sd ray a rnd inner r SD RAY D NS NW RR Z VB.
  pose proof (result_score sd ray a rnd inner r RR) as (BC & _).
  destruct (swarm_facts sd ray a rnd inner r D NS RR) as (sr & ev & SR & _ & _ & I & BD & EQ). rewrite NW in SR.
  assert (sr = None) as -> by (destruct (String.eqb (aopt a) "all"); injection SR as <-; reflexivity). clear SR.
  destruct (track_ok (obj_of sd ray a rnd) (rev ev) (start sd ray a rnd None)) as (T1 & T2 & T3). set (b := track _ _ _) in *. cbn [start fst] in T1, T3.
  destruct T3 as [E|(x & _ & E & POS)]; [|rewrite EQ, E in Z; cbn in Z; lra].
  rewrite EQ, E. cbn. repeat (split; [reflexivity|]). intros x IX S C.
  assert (P : proper (decode x (aopt a) (the_fixed a) (mean3 (aV a)))) by (apply decode_proper; destruct S as [S|S]; [left; exact S|right; apply fixed_proper; exact S]).
  assert (T : obj_of sd ray a rnd x <= 0). { replace 0 with (fst b) by (rewrite E; reflexivity). apply T2. rewrite <- in_rev. apply I. exact IX. }
  destruct (score_spec inside surf sd ray SD RAY a rnd _ P) as [[_ N]|(RG & _)]; [exact (N C)|]. unfold obj_of in T. lra.
Qed.
Print Assumptions C79_none.
