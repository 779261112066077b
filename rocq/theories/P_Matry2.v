(** C79, continued: warm starts, other modes, examples and counterexamples *)
From Coq Require Import Reals Lra Psatz ZArith List Bool String.
From Verif Require Import Vec PyExn NumpyModel AabbModel RotModel SweepModel SwarmModel P_Rot P_Sweep P_Swarm MatryModel MatryProofs P_Matry.
Import ListNotations.
Open Scope R_scope.

(** rotation angles that survive the conversion to an axis-angle vector and back exactly *)
Definition plain_angle (M : mat3) : Prop := let theta := acos ((trace3 M - 1) / 2) in theta = 0 \/ / 1000000000000 <= theta <= PI - / 1000000 \/ theta = PI.

(** the converted configuration is the given one: same rotation, centre, normal and directions, and the same cut plane *)
Theorem C79_round_trip : forall g fixed anchor, is_rotation3 (gR g) -> plain_angle (gR g) -> proper g ->
  let g' := decode (encode_all g anchor) "all" fixed anchor in
  gR g' = gR g /\ gc g' = gc g /\ gcn g' = gcn g /\ gap g' = gap g /\ gam g' = gam g /\ (forall p, height (gcp g') (gcn g') p = height (gcp g) (gcn g) p).
Proof.
  intros g fixed anchor ROT ANG (UN & UP & UM & SP & SM) g'.
  assert (RT : axis_angle_to_matrix (matrix_to_axis_angle (gR g)) = gR g) by (apply round_trip; assumption).
  unfold g', decode, encode_all. rewrite (normalize_id _ UN), (normalize_id _ UP), (normalize_id _ UM).
  assert (FP : flip_pos (gap g) (gcn g) = gap g) by (unfold flip_pos; destruct (Rlt_dec (dot3 (gap g) (gcn g)) 0); [lra|reflexivity]).
  assert (FM : flip_neg (gam g) (gcn g) = gam g) by (unfold flip_neg; destruct (Rlt_dec 0 (dot3 (gam g) (gcn g))); [lra|reflexivity]).
  rewrite FP, FM. cbn [String.eqb Ascii.eqb Bool.eqb gR gc gcp gcn gap gam]. unfold slice3, list_of. cbn [app nth Nat.add].
  assert (SU : forall v : vec3, (X v, Y v, Zc v) = v) by (intros [[? ?] ?]; reflexivity). rewrite !SU, RT.
  rewrite (normalize_id _ UN), (normalize_id _ UP), (normalize_id _ UM), FP, FM. repeat (split; [reflexivity|]).
  intro p. unfold height. destruct g as [M c cp cn ap am]. cbn [gcn gcp] in *. clear - UN.
  replace (dot3 (sub3 p (add3 anchor (scal3 (dot3 (sub3 cp anchor) cn) cn))) cn) with (dot3 (sub3 p anchor) cn - dot3 (sub3 cp anchor) cn * dot3 cn cn).
  { rewrite UN. ex3. ring. } ex3. ring.
Qed.
Print Assumptions C79_round_trip.

Lemma score_same sd ray a rnd g g' : gR g' = gR g -> gc g' = gc g -> gcn g' = gcn g -> gap g' = gap g -> gam g' = gam g -> (forall p, height (gcp g') (gcn g') p = height (gcp g) (gcn g) p) ->
  score sd ray a rnd g' = score sd ray a rnd g.
Proof.
  intros E1 E2 E3 E4 E5 H. unfold score, scale_of. apply largest_ext. intro s. rewrite E1, E2, E4, E5. unfold feasible.
  assert (HS : forall p d, hit_side ray (gcp g') (gcn g') p d = hit_side ray (gcp g) (gcn g) p d).
  { intros p d. unfold hit_side. destruct (ray p d) as [t|]; [|reflexivity]. f_equal. apply H. }
  assert (EX : forall (f h : vec3 -> bool) l, (forall x, f x = h x) -> existsb f l = existsb h l) by (intros f h l FH; induction l as [|x l IH]; [reflexivity|]; cbn [existsb]; rewrite FH, IH; reflexivity).
  destruct (existsb (fun p => gtb (sd p) (- e6)) _); [reflexivity|]. cbv zeta.
  rewrite (EX _ (fun p => above e6 (hit_side ray (gcp g) (gcn g) p (scal3 (-1) (normalize (gap g)))))) by (intro x; rewrite HS; reflexivity).
  rewrite (EX (fun p => below e6 (hit_side ray (gcp g') (gcn g') p (scal3 (-1) (normalize (gam g))))) (fun p => below e6 (hit_side ray (gcp g) (gcn g) p (scal3 (-1) (normalize (gam g)))))) by (intro x; rewrite HS; reflexivity).
  reflexivity.
Qed.
Lemma warm_at_least sd ray a rnd r d : aopt a = "all"%string -> body sd ray a rnd (Ok (Some d)) = Ok r -> 0 < rs d -> is_rotation3 (rR d) -> plain_angle (rR d) -> proper (config_of d) ->
  score sd ray a rnd (config_of d) <= rs r.
Proof.
  intros M H POS ROT ANG P. apply swarm_ok in H; [|rewrite M; discriminate]. destruct H as (v & V & sr & x & f & ev & EV & EB & SD & PS & ->). injection SD as <-.
  destruct (track_ok (obj_of sd ray a rnd) (rev ev) (start sd ray a rnd (Some d))) as (T1 & T2 & T3). set (b := track _ _ _) in *.
  assert (ST : fst (start sd ray a rnd (Some d)) = score sd ray a rnd (config_of d) /\ exists y, snd (start sd ray a rnd (Some d)) = Some y).
  { unfold start. destruct (Rlt_dec 0 (rs d)); [|contradiction]. cbv zeta. cbn [fst snd]. split; [|eexists; reflexivity].
    destruct (C79_round_trip (config_of d) (the_fixed a) (mean3 (aV a)) ROT ANG P) as (A1 & A2 & A3 & A4 & A5 & A6). apply score_same; assumption. }
  destruct ST as (S1 & y & S2). rewrite S1 in T1. replace (rs (finish a b)) with (fst b); [exact T1|].
  unfold finish. destruct T3 as [->|(z & _ & -> & _)]; [|reflexivity]. rewrite S2. reflexivity.
Qed.

(** warm start from a result: at least as good as re-measuring that configuration (with this call's samples) *)
Theorem C79_warm_dict : forall sd ray a rnd inner inner' d r r', aopt a = "all"%string -> awarm a = WarmDict d ->
  0 < rs d -> is_rotation3 (rR d) -> plain_angle (rR d) -> proper (config_of d) ->
  matryoshka sd ray a rnd inner = Ok r -> matryoshka sd ray (pinned a (config_of d)) rnd inner' = Ok r' -> rs r' <= rs r.
Proof.
  intros sd ray a rnd inner inner' d r r' M W POS ROT ANG P H H'. apply pinned_score in H'; [|exact P]. rewrite H'.
  unfold matryoshka in H. rewrite M, W in H. apply warm_at_least; assumption.
Qed.
Print Assumptions C79_warm_dict.

Lemma resolved a : the_cn (rigid_args a) = the_cn a /\ the_cp (rigid_args a) = the_cp a /\ (dot3 (the_ap a) (the_ap a) = 1 -> the_ap (rigid_args a) = the_ap a) /\
  (dot3 (the_am a) (the_am a) = 1 -> the_am (rigid_args a) = the_am a) /\ the_VB (rigid_args a) = the_VB a.
Proof.
  unfold the_cn at 1, the_cp at 1, the_ap at 2, the_am at 2. cbn [acn acp aap aam rigid_args]. split; [apply normalize_id, cn_unit|]. split; [reflexivity|].
  split; [intro U; apply normalize_id; exact U|]. split; [intro U; apply normalize_id; exact U|]. reflexivity.
Qed.
Lemma ap_unit a : dot3 (the_ap a) (the_ap a) = 1. Proof. unfold the_ap. destruct (aap a); [apply normalize_unit|apply cn_unit]. Qed.
Lemma am_unit a : dot3 (the_am a) (the_am a) = 1. Proof. unfold the_am. destruct (aam a); [apply normalize_unit|]. rewrite dot_scal_l, dot_scal_r, cn_unit. ring. Qed.
Lemma rigid_same sd ray a rnd inner : matryoshka sd ray (with_mode a "rigid" NoWarm) rnd inner = body sd ray (rigid_args a) rnd (Ok None).
Proof.
  unfold matryoshka. cbn [aopt with_mode String.eqb Ascii.eqb Bool.eqb]. destruct (resolved a) as (R1 & R2 & R3 & R4 & R5). specialize (R3 (ap_unit a)). specialize (R4 (am_unit a)).
  assert (W1 : the_cn (with_mode a "rigid" NoWarm) = the_cn a) by reflexivity. assert (W2 : the_cp (with_mode a "rigid" NoWarm) = the_cp a) by reflexivity.
  assert (W3 : the_ap (with_mode a "rigid" NoWarm) = the_ap a) by reflexivity. assert (W4 : the_am (with_mode a "rigid" NoWarm) = the_am a) by reflexivity.
  assert (W5 : the_VB (with_mode a "rigid" NoWarm) = the_VB a) by reflexivity.
  unfold body. rewrite R1, R2, R3, R4, R5, W1, W2, W3, W4, W5. reflexivity.
Qed.
(** warm_start=True: at least as good as the 'rigid' call with the same surface samples (the same seed) *)
Theorem C79_warm_true : forall sd ray a rnd inner inner' r r0, aopt a = "all"%string -> awarm a = WarmTrue -> given_sides a -> points inner = points rnd ->
  matryoshka sd ray a rnd inner = Ok r -> matryoshka sd ray (with_mode a "rigid" NoWarm) inner inner' = Ok r0 -> plain_angle (rR r0) -> rs r0 <= rs r.
Proof.
  intros sd ray a rnd inner inner' r r0 M W S PT H H0 ANG.
  pose proof (result_score sd ray _ _ _ _ H0) as (BC & RS).
  assert (P : proper (config_of r0)) by (eapply result_proper; [exact H0|right; exact S]).
  rewrite rigid_same in H0. pose proof H as HH. unfold matryoshka in H. rewrite M, W in H. cbn [String.eqb Ascii.eqb Bool.eqb] in H. rewrite H0 in H. cbn [bind] in H.
  destruct (Rle_lt_dec (rs r0) 0) as [Z|POS].
  - apply result_score in HH. destruct HH as (_ & [(_ & Z2 & _)|(SC & _)]); [lra|].
    destruct (scale_range sd ray (the_samples a rnd) (mean3 (the_VB a)) (atol a) (config_of r)) as [E|E]; unfold score in SC; lra.
  - destruct RS as [(_ & Z & _)|(SC & [(E & _)|(E & x & CF)])]; [lra|discriminate E|].
    assert (ROT : is_rotation3 (rR r0)) by (change (rR r0) with (gR (config_of r0)); rewrite CF; apply axis_angle_rotation).
    assert (SS : score sd ray a rnd (config_of r0) = rs r0). { rewrite SC. unfold score, the_samples. rewrite PT. reflexivity. }
    rewrite <- SS. apply warm_at_least; assumption.
Qed.
Print Assumptions C79_warm_true.

(** every other mode string is silently treated as 'rigid', with or without a warm start *)
Theorem C79_unknown_mode_refuted : forall sd ray a rnd inner m w, m <> "all"%string -> m <> "scale_only"%string ->
  matryoshka sd ray (with_mode a m w) rnd inner = matryoshka sd ray (with_mode a "rigid" NoWarm) rnd inner.
Proof.
  intros sd ray a rnd inner m w N1 N2. apply String.eqb_neq in N1, N2. unfold matryoshka. cbn [aopt with_mode awarm]. rewrite N1. unfold body.
  cbn [aopt with_mode]. rewrite N2. cbn [String.eqb Ascii.eqb Bool.eqb]. unfold lower, upper, decode. rewrite N1. reflexivity.
Qed.
Print Assumptions C79_unknown_mode_refuted.

(** an outer shape to compute with: the half-space z > 0 *)
Definition half_inside (p : vec3) : Prop := 0 < Zc p.
Definition half_surf (p : vec3) : Prop := Zc p = 0.
Definition half_sd (p : vec3) : R := - Zc p.
Definition half_ray (p d : vec3) : option R :=
  if Req_EM_T (Zc d) 0 then (if Req_EM_T (Zc p) 0 then Some 0 else None)
  else if Rle_dec 0 (- Zc p / Zc d) then Some (- Zc p / Zc d) else None.
Lemma half_dist : distance_to half_inside half_surf half_sd.
Proof.
  intro p. unfold half_inside, half_surf, half_sd. split; [split; lra|]. rewrite Rabs_Ropp. split.
  - intros y SY. unfold dist, norm3. replace (Rabs (Zc p)) with (sqrt (Zc p * Zc p)) by (rewrite <- sqrt_Rsqr_abs; reflexivity). apply sqrt_le_1_alt.
    destruct p as [[p0 p1] p2], y as [[y0 y1] y2]. unfold dot3, sub3, X, Y, Zc in *. cbn [fst snd] in *. rewrite SY.
    pose proof (Rle_0_sqr (p0 - y0)) as A. pose proof (Rle_0_sqr (p1 - y1)) as B. unfold Rsqr in A, B. replace (p2 - 0) with p2 by ring. lra.
  - exists (X p, Y p, 0). split; [reflexivity|]. unfold dist, norm3. rewrite <- sqrt_Rsqr_abs. f_equal. destruct p as [[x y] z]. unfold dot3, sub3, Rsqr, X, Y, Zc. cbn [fst snd]. ring.
Qed.
Lemma half_first : first_hit half_surf half_ray.
Proof.
  intros p d. unfold half_ray, half_surf. destruct p as [[px py] pz], d as [[dx dy] dz]. unfold add3, scal3, X, Y, Zc. cbn [fst snd].
  destruct (Req_EM_T dz 0) as [->|NZ].
  - destruct (Req_EM_T pz 0) as [->|NP]; [split; [lra|]; split; [ring|intros; lra]|]. intros u U C. apply NP. lra.
  - assert (UN : forall u, pz + u * dz = 0 -> u = - pz / dz) by (intros u E; apply (Rmult_eq_reg_r dz); [|exact NZ]; field_simplify; lra).
    destruct (Rle_dec 0 (- pz / dz)) as [L|L].
    + split; [exact L|]. split; [field; exact NZ|]. intros u _ C. rewrite (UN u C). lra.
    + intros u U C. apply L. rewrite <- (UN u C). exact U.
Qed.
Definition up : vec3 := (0, 0, 1).
Definition down : vec3 := (0, 0, -1).
Definition upright (c cp : vec3) : config := {| gR := eye3; gc := c; gcp := cp; gcn := up; gap := up; gam := down |}.
Lemma upright_proper c cp : proper (upright c cp).
Proof. unfold proper, upright, up, down, dot3, X, Y, Zc. cbn [gcn gap gam fst snd]. lra. Qed.
Lemma placed_eye s h k z : placed s eye3 (0, 0, h) (0, 0, k) (0, 0, z) = (0, 0, h + s * (z - k)).
Proof. unfold placed, app3, eye3, add3, scal3, sub3, dot3, X, Y, Zc. cbn [fst snd]. f_equal; [f_equal|]; ring. Qed.
(** on the z axis: the copy nests exactly if all its points are at least 1e-6 above the floor, for a cut plane at or above the floor *)
Lemma upright_nests zs h k s cz : 0 <= cz -> nests half_inside half_surf (map (fun z => (0, 0, z)) zs) (0, 0, k) s (upright (0, 0, h) (0, 0, cz)) <->
  forall z, In z zs -> / 1000000 <= h + s * (z - k).
Proof.
  intro CZ. split.
  - intros N z IZ. specialize (N _ (in_map _ _ _ IZ)). cbv zeta in N. cbn [gR gc upright] in N. rewrite placed_eye in N. destruct N as (I & D & _).
    specialize (D (0, 0, 0) eq_refl). unfold half_inside in I. cbn in I. unfold dist, norm3 in D.
    replace (dot3 _ _) with ((h + s * (z - k)) * (h + s * (z - k))) in D by (unfold dot3, sub3, X, Y, Zc; cbn [fst snd]; ring). rewrite sqrt_square in D by (unfold Zc in I; cbn in I; lra). exact D.
  - intros H b B. apply in_map_iff in B. destruct B as (z & <- & IZ). specialize (H z IZ). cbv zeta. cbn [gR gc gcp gcn gap gam upright]. rewrite placed_eye. set (q := h + s * (z - k)) in *.
    split; [unfold half_inside, Zc; cbn; lra|]. split.
    + intros y SY. destruct (half_dist (0, 0, q)) as (_ & L & _). specialize (L y SY). unfold half_sd, Zc in L. cbn in L. rewrite Rabs_Ropp, Rabs_right in L by lra. lra.
    + split; intros t T S; unfold half_surf, height, up, down, sub3, scal3, dot3, X, Y, Zc in *; cbn [fst snd] in *; lra.
Qed.
Lemma score_one zs h k cz a rnd : 0 <= cz -> the_samples a rnd = map (fun z => (0, 0, z)) zs -> mean3 (the_VB a) = (0, 0, k) ->
  (forall z, In z zs -> / 1000000 <= h + / 1000 * (z - k)) -> (forall z, In z zs -> / 1000000 <= h + 1 * (z - k)) -> score half_sd half_ray a rnd (upright (0, 0, h) (0, 0, cz)) = 1.
Proof.
  intros CZ SM BC H0 H1. unfold score, scale_of. rewrite SM, BC. set (f := fun s => feasible _ _ _ _ _ _ _).
  assert (F : forall s, (forall z, In z zs -> / 1000000 <= h + s * (z - k)) -> f s = true).
  { intros s Hs. apply (feasible_nests half_inside half_surf half_sd half_ray half_dist half_first _ _ (upright (0, 0, h) (0, 0, cz)) s (upright_proper _ _)). apply upright_nests; assumption. }
  unfold largest_scale. rewrite (F e3 H0), (F 1 H1). reflexivity.
Qed.

Lemma bisect_stuck feas tol n : forall lo hi, lo < hi -> (forall s, lo + (hi - lo) / 2 ^ n <= s <= hi -> feas s = false) -> tol <= (hi - lo) / 2 ^ n -> bisect feas tol n lo hi = lo.
Proof.
  induction n as [|n IH]; intros lo hi L H T; [reflexivity|]. cbn [bisect]. cbv zeta. set (mid := / 2 * (lo + hi)).
  assert (P : 0 < 2 ^ n) by (apply pow_lt; lra).
  assert (E : (hi - lo) / 2 ^ S n = (mid - lo) / 2 ^ n) by (unfold mid; cbn [pow]; field; lra). rewrite E in H, T.
  assert (ML : lo < mid < hi) by (unfold mid; lra).
  assert (Q : (mid - lo) / 2 ^ n <= mid - lo).
  { apply (Rmult_le_reg_r (2 ^ n)); [exact P|]. unfold Rdiv. rewrite Rmult_assoc, Rinv_l by lra. assert (1 <= 2 ^ n) by (apply pow_R1_Rle; lra). nra. }
  rewrite (H mid) by lra. destruct (Rlt_dec (mid - lo) tol) as [C|C]; [reflexivity|]. apply IH; [lra| |exact T].
  intros s S. apply H. lra.
Qed.

Lemma two_mean a b : mean3 [(0, 0, a); (0, 0, b)] = (0, 0, (a + b) / 2).
Proof. unfold mean3. cbn [List.length fold_right]. rewrite S_INR, S_INR. cbn [INR]. unfold scal3, add3, zero3, X, Y, Zc. cbn [fst snd]. f_equal; [f_equal|]; field. Qed.
Lemma normalize_up : normalize up = up. Proof. apply normalize_id. unfold up, dot3, X, Y, Zc. cbn [fst snd]. ring. Qed.
Lemma down_is : scal3 (-1) up = down. Proof. unfold scal3, up, down, X, Y, Zc. cbn [fst snd]. f_equal; [f_equal|]; ring. Qed.

(** the documented search tolerance is not met below 3e-5: scale_tol = 1e-6 returns 1/1000 although 1.03/1000 nests *)
Definition tol_args : args := {| aV := [(0, 0, 0); (0, 0, 2)]; aVB := None; aopt := "scale_only"; aR := None; ac := Some (0, 0, 103 / 100000 + / 1000000); acp := Some (0, 0, 0); acn := None; aap := None; aam := None;
  atol := / 1000000; aiter := 0; awarm := NoWarm |}.
Theorem C79_tolerance_refuted : forall rnd inner, points rnd = [] -> exists inside surf sd ray r, distance_to inside surf sd /\ first_hit surf ray /\ given_sides tol_args /\
  matryoshka sd ray tol_args rnd inner = Ok r /\
  nests inside surf (aV tol_args ++ points rnd) (rBc r) (rs r) (config_of r) /\
  nests inside surf (aV tol_args ++ points rnd) (rBc r) (rs r + 3 / 100000) (config_of r) /\
  (forall s t, 0 < s <= t -> nests inside surf (aV tol_args ++ points rnd) (rBc r) t (config_of r) -> nests inside surf (aV tol_args ++ points rnd) (rBc r) s (config_of r)) /\
  29 * atol tol_args < 3 / 100000.
Proof.
  intros rnd inner PT. exists half_inside, half_surf, half_sd, half_ray.
  destruct (only_total half_sd half_ray tol_args rnd inner eq_refl ltac:(discriminate) ltac:(discriminate)) as (r & RR). exists r.
  split; [apply half_dist|]. split; [apply half_first|]. split.
  { unfold given_sides. cbn [acn aap aam tol_args]. split; [rewrite norm_unit; [lra|unfold dot3, X, Y, Zc; cbn [fst snd]; ring]|]. split; discriminate. }
  split; [exact RR|]. unfold matryoshka in RR. apply only_ok in RR; [|reflexivity]. destruct RR as (_ & _ & ->).
  set (h := 103 / 100000 + / 1000000).
  assert (OC : only_config tol_args = upright (0, 0, h) (0, 0, 0)).
  { unfold only_config, the_cn, the_cp, the_ap, the_am. cbn [aR ac acp acn aap aam tol_args]. unfold the_cn. cbn [acn tol_args]. fold up. rewrite down_is. reflexivity. }
  rewrite OC. rewrite PT, app_nil_r. cbn [rs rBc result_of]. change (config_of (result_of ?s ?b (upright (0, 0, h) (0, 0, 0)))) with (upright (0, 0, h) (0, 0, 0)).
  assert (BC : mean3 (the_VB tol_args) = (0, 0, 1)) by (cbn [the_VB aVB aV tol_args]; unfold the_VB; cbn [aVB aV tol_args]; rewrite two_mean; f_equal; field). rewrite BC.
  change (aV tol_args) with (map (fun z : R => (0, 0, z)) [0; 2]).
  assert (NI : forall s, nests half_inside half_surf (map (fun z : R => (0, 0, z)) [0; 2]) (0, 0, 1) s (upright (0, 0, h) (0, 0, 0)) <-> forall z, In z [0; 2] -> / 1000000 <= h + s * (z - 1)) by (intro s; apply upright_nests; lra).
  assert (SC : score half_sd half_ray tol_args rnd (upright (0, 0, h) (0, 0, 0)) = / 1000).
  { unfold score, scale_of. assert (SM : the_samples tol_args rnd = map (fun z : R => (0, 0, z)) [0; 2]) by (unfold the_samples, the_VB; cbn [aVB aV tol_args]; rewrite PT; reflexivity). rewrite SM, BC.
    set (f := fun s => feasible _ _ _ _ _ _ _).
    assert (F : forall s, f s = true <-> forall z, In z [0; 2] -> / 1000000 <= h + s * (z - 1)).
    { intro s. rewrite <- NI. apply (feasible_nests half_inside half_surf half_sd half_ray half_dist half_first _ _ (upright (0, 0, h) (0, 0, 0)) s (upright_proper _ _)). }
    assert (BAD : forall s, 104 / 100000 <= s -> f s = false).
    { intros s L. destruct (f s) eqn:E; [|reflexivity]. exfalso. rewrite F in E. specialize (E 0 (or_introl eq_refl)). unfold h in E. lra. }
    unfold largest_scale. assert (F0 : f e3 = true) by (apply F; intros z [<-|[<-|[]]]; unfold h, e3; lra). rewrite F0. rewrite (BAD 1) by lra.
    rewrite Rmax_right by (unfold e3; lra). apply bisect_stuck; [unfold e3; lra| |].
    - intros s S. destruct (f s) eqn:E; [|reflexivity]. exfalso. rewrite F in E. specialize (E 0 (or_introl eq_refl)). rewrite pow15 in S. unfold h, e3 in *. lra.
    - rewrite pow15. unfold e3. cbn [atol tol_args]. lra. }
  rewrite SC. split; [apply NI; intros z [<-|[<-|[]]]; unfold h; lra|]. split; [apply NI; intros z [<-|[<-|[]]]; unfold h; lra|]. split.
  - intros s t ST N. rewrite NI in *. intros z [<-|[<-|[]]]; [specialize (N 0 (or_introl eq_refl))|specialize (N 2 (or_intror (or_introl eq_refl)))]; unfold h in *; lra.
  - cbn [atol tol_args]. lra.
Qed.
Print Assumptions C79_tolerance_refuted.

(** a seed whose removal direction is on the wrong side is flipped: the warm start returns 0 although the seed (the result of a previous call) has scale 1 *)
Definition flip_seed_args : args := {| aV := [(0, 0, 0)]; aVB := None; aopt := "scale_only"; aR := None; ac := Some (0, 0, 1); acp := Some (0, 0, -10); acn := Some up; aap := Some down; aam := Some down;
  atol := / 1000; aiter := 0; awarm := NoWarm |}.
Definition flip_args (d : result) (k : nat) : args := {| aV := [(0, 0, 0)]; aVB := None; aopt := "all"; aR := None; ac := None; acp := None; acn := None; aap := None; aam := None;
  atol := / 1000; aiter := k; awarm := WarmDict d |}.
Definition flip_seed : result := {| rs := 1; rR := eye3; rc := (0, 0, 1); rBc := (0, 0, 0); rcp := (0, 0, -10); rcn := up; rap := down; ram := down |}.
Lemma one_mean : mean3 [(0, 0, 0)] = (0, 0, 0).
Proof. unfold mean3. cbn [List.length fold_right INR]. unfold scal3, add3, zero3, X, Y, Zc. cbn [fst snd]. f_equal; [f_equal|]; field. Qed.
Lemma normalize_down : normalize down = down. Proof. apply normalize_id. unfold down, dot3, X, Y, Zc. cbn [fst snd]. ring. Qed.
Lemma eye_rot : is_rotation3 eye3. Proof. unfold is_rotation3, orthogonal3, det3, eye3, dot3, cross3, X, Y, Zc. cbn [fst snd]. repeat split; ring. Qed.
Lemma eye_angle : angle_of eye3 = 0.
Proof. unfold angle_of, trace3, eye3, X, Y, Zc. cbn [fst snd]. replace ((1 + 1 + 1 - 1) / 2) with 1 by field. apply acos_1. Qed.
Lemma largest_zero f tol : f e3 = false -> largest_scale f tol = 0. Proof. intro H. unfold largest_scale. rewrite H. reflexivity. Qed.
Lemma flip_fails k rnd c cp cn ap am Bc : points rnd = [] -> mean3 [(0, 0, 0)] = Bc -> feasible half_sd half_ray (map (transform_point e3 eye3 c Bc) [(0, 0, 0)]) cp cn ap am = false ->
  scale_of half_sd half_ray ([(0, 0, 0)] ++ points rnd) Bc k {| gR := eye3; gc := c; gcp := cp; gcn := cn; gap := ap; gam := am |} = 0.
Proof. intros PT BC F. rewrite PT. unfold scale_of. cbn [gR gc gcp gcn gap gam app]. apply largest_zero. exact F. Qed.
Lemma outside_fails TB cp cn ap am p : In p TB -> Zc p <= 0 -> feasible half_sd half_ray TB cp cn ap am = false.
Proof.
  intros I Z. unfold feasible. assert (E : existsb (fun p => gtb (half_sd p) (- e6)) TB = true).
  { apply existsb_exists. exists p. split; [exact I|]. unfold gtb, half_sd. destruct (Rlt_dec (- e6) (- Zc p)) as [L|L]; [reflexivity|]. unfold e6 in L. lra. }
  rewrite E. reflexivity.
Qed.
Theorem C79_warm_direction_refuted : forall k rnd inner rnd' inner', points rnd = [] -> points rnd' = [] -> drawn (flip_args flip_seed k) rnd ->
  distance_to half_inside half_surf half_sd /\ first_hit half_surf half_ray /\
  matryoshka half_sd half_ray flip_seed_args rnd' inner' = Ok flip_seed /\ rs flip_seed = 1 /\
  exists r, matryoshka half_sd half_ray (flip_args flip_seed k) rnd inner = Ok r /\ rs r = 0.
Proof.
  intros k rnd inner rnd' inner' PT PT' D. split; [apply half_dist|]. split; [apply half_first|]. split.
  { destruct (only_total half_sd half_ray flip_seed_args rnd' inner' eq_refl ltac:(discriminate) ltac:(discriminate)) as (r & RR). rewrite RR. f_equal.
    unfold matryoshka in RR. apply only_ok in RR; [|reflexivity]. destruct RR as (_ & _ & ->).
    assert (OC : only_config flip_seed_args = {| gR := eye3; gc := (0, 0, 1); gcp := (0, 0, -10); gcn := up; gap := down; gam := down |}).
    { unfold only_config, the_cn, the_cp, the_ap, the_am. cbn [aR ac acp acn aap aam flip_seed_args]. rewrite normalize_up, normalize_down. reflexivity. }
    rewrite OC. unfold result_of, flip_seed. cbn [gR gc gcp gcn gap gam]. unfold the_VB. cbn [aVB aV flip_seed_args]. rewrite one_mean. f_equal.
    unfold score, scale_of, the_samples, the_VB. cbn [aVB aV flip_seed_args gR gc gcp gcn gap gam atol]. rewrite PT', app_nil_r, one_mean.
    assert (F : forall s, feasible half_sd half_ray (map (transform_point s eye3 (0, 0, 1) (0, 0, 0)) [(0, 0, 0)]) (0, 0, -10) up down down = true).
    { intro s. cbn [map]. rewrite placed_ok, placed_eye. replace (1 + s * (0 - 0)) with 1 by ring. unfold feasible. rewrite normalize_down. cbn [existsb].
      assert (G : gtb (half_sd (0, 0, 1)) (- e6) = false) by (apply gtb_false; unfold half_sd, Zc, e6; cbn [snd]; lra). rewrite G. cbn [orb]. cbv zeta.
      assert (RY : half_ray (0, 0, 1) (scal3 (-1) down) = None).
      { unfold half_ray, scal3, down, X, Y, Zc. cbn [fst snd]. destruct (Req_EM_T (-1 * -1) 0) as [E|E]; [lra|]. destruct (Rle_dec 0 (- (1) / (-1 * -1))) as [L|L]; [|reflexivity]. exfalso. replace (- (1) / (-1 * -1)) with (-1) in L by field. lra. }
      unfold hit_side. rewrite RY. reflexivity. }
    unfold largest_scale. rewrite !F. reflexivity. }
  split; [reflexivity|].
  assert (TOT : exists r, matryoshka half_sd half_ray (flip_args flip_seed k) rnd inner = Ok r).
  { exact (body_total half_sd half_ray (flip_args flip_seed k) rnd (Some flip_seed) ltac:(discriminate) ltac:(discriminate) D ltac:(discriminate)). }
  destruct TOT as (r & RR). exists r. split; [exact RR|].
  destruct (swarm_facts half_sd half_ray (flip_args flip_seed k) rnd inner r D ltac:(discriminate) RR) as (sr & ev & SR & _ & _ & I & BD & EQ).
  injection SR as <-. destruct (track_ok (obj_of half_sd half_ray (flip_args flip_seed k) rnd) (rev ev) (start half_sd half_ray (flip_args flip_seed k) rnd (Some flip_seed))) as (_ & _ & T).
  assert (OB : forall x, In x ev -> obj_of half_sd half_ray (flip_args flip_seed k) rnd x = 0).
  { intros x IX. specialize (BD x IX). destruct BD as (LX & BX). pose proof (BX 5%nat ltac:(cbn; lia)) as B5. cbn in B5.
    unfold obj_of, score, scale_of. apply largest_zero. apply (outside_fails _ _ _ _ _ (transform_point e3 (axis_angle_to_matrix (slice3 x 0)) (slice3 x 3) (0, 0, 0) (0, 0, 0))).
    - unfold the_samples, the_VB. cbn [aVB aV flip_args app map]. left. rewrite one_mean. reflexivity.
    - rewrite placed_ok. unfold placed. change (slice3 x 3) with (nth 3 x 0, nth 4 x 0, nth 5 x 0). destruct (axis_angle_to_matrix (slice3 x 0)) as [[[[? ?] ?] [[? ?] ?]] [[? ?] ?]].
      unfold app3, sub3, scal3, add3, dot3, X, Y, Zc. cbn [fst snd]. rewrite Rmax_left in B5 by lra. match goal with |- _ + e3 * ?w <= 0 => replace w with 0 by ring end. lra. }
  assert (S0 : fst (start half_sd half_ray (flip_args flip_seed k) rnd (Some flip_seed)) = 0 /\ exists y, snd (start half_sd half_ray (flip_args flip_seed k) rnd (Some flip_seed)) = Some y).
  { unfold start. change (rs flip_seed) with 1. destruct (Rlt_dec 0 1) as [_|L]; [|lra]. cbv zeta. cbn [fst snd]. split; [|eexists; reflexivity].
    unfold score, scale_of. apply largest_zero. unfold decode, encode_all. cbn [String.eqb Ascii.eqb Bool.eqb]. unfold config_of, flip_seed. cbn [rR rc rcp rcn rap ram gR gc gcp gcn gap gam].
    rewrite normalize_up, normalize_down. unfold slice3, list_of. cbn [app nth Nat.add aV flip_args]. rewrite one_mean.
    assert (SU : forall v : vec3, (X v, Y v, Zc v) = v) by (intros [[? ?] ?]; reflexivity). rewrite !SU.
    rewrite (round_trip eye3 eye_rot (or_introl eye_angle)). rewrite normalize_up.
    assert (FP : flip_pos down up = up). { unfold flip_pos. destruct (Rlt_dec (dot3 down up) 0) as [L|L]; [unfold scal3, up, down, X, Y, Zc; cbn [fst snd]; f_equal; [f_equal|]; ring|]. exfalso. apply L. unfold dot3, up, down, X, Y, Zc. cbn [fst snd]. lra. }
    assert (FM : flip_neg down up = down). { unfold flip_neg. destruct (Rlt_dec 0 (dot3 down up)) as [L|L]; [|reflexivity]. exfalso. unfold dot3, up, down, X, Y, Zc in L. cbn [fst snd] in L. lra. }
    rewrite ?FP, ?FM, ?normalize_up, ?normalize_down, ?FM. unfold the_samples, the_VB. cbn [aVB aV flip_args]. rewrite PT, app_nil_r, one_mean. cbn [map]. rewrite placed_ok, placed_eye. replace (1 + e3 * (0 - 0)) with 1 by ring.
    unfold feasible. rewrite ?normalize_up, ?normalize_down. cbn [existsb].
    assert (G : gtb (half_sd (0, 0, 1)) (- e6) = false) by (apply gtb_false; unfold half_sd, Zc, e6; cbn [snd]; lra). rewrite G. cbn [orb]. cbv zeta.
    assert (FU : flip_pos up up = up). { unfold flip_pos. destruct (Rlt_dec (dot3 up up) 0) as [L|L]; [|reflexivity]. exfalso. unfold dot3, up, X, Y, Zc in L. cbn [fst snd] in L. lra. }
    rewrite ?FU. rewrite ?normalize_up.
    assert (RY : half_ray (0, 0, 1) (scal3 (-1) up) = Some 1).
    { unfold half_ray, scal3, up, X, Y, Zc. cbn [fst snd]. destruct (Req_EM_T (-1 * 1) 0) as [E|E]; [lra|]. replace (- (1) / (-1 * 1)) with 1 by field. destruct (Rle_dec 0 1) as [L|L]; [reflexivity|lra]. }
    unfold hit_side at 1. rewrite RY. cbn [above].
    replace (gtb _ e6) with true; [reflexivity|]. symmetry. unfold gtb. match goal with |- (if Rlt_dec e6 ?x then _ else _) = _ => replace x with 10; [destruct (Rlt_dec e6 10) as [L|L]; [reflexivity|unfold e6 in L; lra]|] end.
    unfold sub3, add3, scal3, up, dot3, X, Y, Zc. cbn [fst snd]. ring. }
  destruct S0 as (S1 & y & S2).
  rewrite EQ. unfold finish. destruct T as [->|(x & IX & -> & _)].
  - rewrite S2. cbn [rs result_of]. exact S1.
  - cbn [snd fst rs result_of]. apply OB. rewrite in_rev. exact IX.
Qed.
Print Assumptions C79_warm_direction_refuted.

(** the hypotheses of the theorems hold together: two points above the floor, mode 'all', one particle at the identity *)
Definition good_args (w : warm) : args := {| aV := [(0, 0, 1); (0, 0, 3)]; aVB := None; aopt := "all"; aR := None; ac := None; acp := None; acn := None; aap := None; aam := None;
  atol := / 1000; aiter := 3; awarm := w |}.
Definition good_x : vec := [0; 0; 0; 0; 0; 2; 0; 0; 1; 0; 0; 0; 1; 0; 0; -1].
Definition good_rnd (pts : list vec3) : randomness := {| points := pts; x0 := [good_x]; v0 := [repeat 0 16]; draws := fun _ _ => (0, 0) |}.
Lemma fold_min_le f d l v : In v l -> fold_min f d l <= f v.
Proof.
  unfold fold_min. induction l as [|w l IH]; [intros []|]. cbn [fold_right In]. intros [->|H]; [apply Rmin_l|]. eapply Rle_trans; [apply Rmin_r|apply IH; exact H].
Qed.
Lemma fold_max_ge f d l v : In v l -> f v <= fold_max f d l.
Proof.
  unfold fold_max. induction l as [|w l IH]; [intros []|]. cbn [fold_right In]. intros [->|H]; [apply Rmax_l|]. eapply Rle_trans; [apply IH; exact H|apply Rmax_r].
Qed.
Lemma good_drawn w pts : drawn (good_args w) (good_rnd pts).
Proof.
  unfold drawn. cbv zeta. split; [discriminate|]. split; [reflexivity|]. split; [|constructor; [reflexivity|constructor]].
  constructor; [|constructor]. split; [reflexivity|]. cbn [aV good_args hd aopt].
  set (l := [(0, 0, 1); (0, 0, 3)] : list vec3). assert (I1 : In (0, 0, 1) l) by (left; reflexivity). assert (I3 : In (0, 0, 3) l) by (right; left; reflexivity).
  pose proof (fold_min_le X (0, 0, 1) l _ I1) as A1. pose proof (fold_max_ge X (0, 0, 1) l _ I1) as A2.
  pose proof (fold_min_le Y (0, 0, 1) l _ I1) as A3. pose proof (fold_max_ge Y (0, 0, 1) l _ I1) as A4.
  pose proof (fold_min_le Zc (0, 0, 1) l _ I1) as A5. pose proof (fold_max_ge Zc (0, 0, 1) l _ I3) as A6.
  unfold X, Y, Zc in A1, A2, A3, A4, A5, A6. cbn [fst snd] in *.
  unfold lower, upper, list_of, box_min, box_max. cbn [String.eqb Ascii.eqb Bool.eqb]. unfold X at 1 3, Y at 1 3, Zc at 1 3. cbn [fst snd].
  set (nn := norm3 _). assert (0 <= nn) by apply norm_nn. clearbody nn. pose proof PI_RGT_0. unfold X, Y, Zc. cbn [fst snd].
  clearbody l. cbn [app List.length]. intros j J. unfold good_x. do 16 (destruct j as [|j]; [cbn [nth]; lra|]). lia.
Qed.
Lemma good_score w a : aV a = [(0, 0, 1); (0, 0, 3)] -> aVB a = None -> score half_sd half_ray a (good_rnd [(0, 0, 2)]) (decode good_x "all" (the_fixed (good_args w)) (mean3 (aV (good_args w)))) = 1.
Proof.
  intros EV EB. assert (M2 : mean3 [(0, 0, 1); (0, 0, 3)] = (0, 0, 2)) by (rewrite two_mean; f_equal; field).
  assert (DC : decode good_x "all" (the_fixed (good_args w)) (mean3 (aV (good_args w))) = upright (0, 0, 2) (0, 0, 2)).
  { unfold decode, good_x, slice3. cbn [String.eqb Ascii.eqb Bool.eqb nth Nat.add aV good_args]. rewrite M2. fold zero3. fold up. fold down. rewrite aa_zero, normalize_up, normalize_down.
    assert (FU : flip_pos up up = up). { unfold flip_pos. destruct (Rlt_dec (dot3 up up) 0) as [L|L]; [|reflexivity]. exfalso. unfold dot3, up, X, Y, Zc in L. cbn [fst snd] in L. lra. }
    assert (FM : flip_neg down up = down). { unfold flip_neg. destruct (Rlt_dec 0 (dot3 down up)) as [L|L]; [|reflexivity]. exfalso. unfold dot3, up, down, X, Y, Zc in L. cbn [fst snd] in L. lra. }
    rewrite FU, FM. unfold upright. f_equal. unfold add3, scal3, up, X, Y, Zc. cbn [fst snd]. f_equal; [f_equal|]; ring. }
  rewrite DC. apply (score_one [1; 3; 2] 2 2 2); [lra| | | |].
  - unfold the_samples, the_VB. rewrite EB, EV. reflexivity.
  - unfold the_VB. rewrite EB, EV. exact M2.
  - intros z [<-|[<-|[<-|[]]]]; lra.
  - intros z [<-|[<-|[<-|[]]]]; lra.
Qed.
Theorem C79_nonvacuous : exists r, matryoshka half_sd half_ray (good_args NoWarm) (good_rnd [(0, 0, 2)]) (good_rnd []) = Ok r /\ rs r = 1 /\
  distance_to half_inside half_surf half_sd /\ first_hit half_surf half_ray /\ drawn (good_args NoWarm) (good_rnd [(0, 0, 2)]) /\ given_sides (good_args NoWarm) /\
  nests half_inside half_surf ([(0, 0, 1); (0, 0, 3)] ++ [(0, 0, 2)]) (rBc r) 1 (config_of r).
Proof.
  assert (ND : (0 : R) = 0) by reflexivity.
  destruct (C79_best half_sd half_ray (good_args NoWarm) (good_rnd [(0, 0, 2)]) (good_rnd []) ltac:(discriminate) I (good_drawn _ _) ltac:(discriminate) eq_refl) as (r & RR & B & _).
  assert (GS : given_sides (good_args NoWarm)).
  { unfold given_sides. cbn [acn aap aam good_args]. split; [rewrite norm_unit; [lra|unfold dot3, X, Y, Zc; cbn [fst snd]; ring]|]. split; discriminate. }
  assert (S1 : 1 <= rs r).
  { destruct (only_total half_sd half_ray (pinned (good_args NoWarm) (decode good_x "all" (the_fixed (good_args NoWarm)) (mean3 (aV (good_args NoWarm))))) (good_rnd [(0, 0, 2)]) (good_rnd []) eq_refl ltac:(discriminate) ltac:(discriminate)) as (r' & R').
    pose proof (B good_x (good_rnd []) r' (or_introl eq_refl) (or_introl eq_refl) R') as BB.
    apply pinned_score in R'; [|apply decode_proper; left; reflexivity]. rewrite (good_score NoWarm (good_args NoWarm) eq_refl eq_refl) in R'. lra. }
  destruct (C79_nested half_inside half_surf half_sd half_ray _ _ _ _ half_dist half_first RR ltac:(lra) (or_introl eq_refl)) as (RG & _ & _ & _ & N).
  assert (E : rs r = 1) by lra. exists r. split; [exact RR|]. split; [exact E|]. split; [apply half_dist|]. split; [apply half_first|]. split; [apply good_drawn|]. split; [exact GS|]. rewrite E in N. exact N.
Qed.
Print Assumptions C79_nonvacuous.
(** a warm start from a proper result, and one from the inner 'rigid' run, both reach the seed's scale *)
Theorem C79_warm_nonvacuous : exists d r, matryoshka half_sd half_ray (good_args NoWarm) (good_rnd [(0, 0, 2)]) (good_rnd []) = Ok d /\ rs d = 1 /\

  matryoshka half_sd half_ray (good_args (WarmDict {| rs := 1; rR := eye3; rc := (0, 0, 2); rBc := (0, 0, 2); rcp := (0, 0, 2); rcn := up; rap := up; ram := down |})) (good_rnd []) (good_rnd []) = Ok r /\
  plain_angle eye3 /\ is_rotation3 eye3 /\ proper (upright (0, 0, 2) (0, 0, 2)) /\ rs r = 1.
Proof.
  destruct C79_nonvacuous as (d & D & D1 & _). exists d.
  set (sd0 := {| rs := 1; rR := eye3; rc := (0, 0, 2); rBc := (0, 0, 2); rcp := (0, 0, 2); rcn := up; rap := up; ram := down |}).
  destruct (body_total half_sd half_ray (good_args (WarmDict sd0)) (good_rnd []) (Some sd0) ltac:(discriminate) ltac:(discriminate) (good_drawn _ _) ltac:(discriminate)) as (r & RR).
  exists r. split; [exact D|]. split; [exact D1|]. split; [exact RR|]. split; [left; exact eye_angle|]. split; [exact eye_rot|]. split; [apply upright_proper|].
  assert (S : score half_sd half_ray (good_args (WarmDict sd0)) (good_rnd []) (upright (0, 0, 2) (0, 0, 2)) = 1).
  { apply (score_one [1; 3] 2 2 2); [lra|reflexivity|unfold the_VB; cbn [aVB aV good_args]; rewrite two_mean; f_equal; field| |]; intros z [<-|[<-|[]]]; lra. }
  pose proof (warm_at_least half_sd half_ray (good_args (WarmDict sd0)) (good_rnd []) r sd0 eq_refl RR ltac:(cbn; lra) eye_rot (or_introl eye_angle) (upright_proper _ _)) as W.
  change (config_of sd0) with (upright (0, 0, 2) (0, 0, 2)) in W. rewrite S in W.
  assert (RM : matryoshka half_sd half_ray (good_args (WarmDict sd0)) (good_rnd []) (good_rnd []) = Ok r) by exact RR.
  apply result_score in RM. destruct RM as (_ & [(_ & Z & _)|(SC & _)]); [lra|].
  destruct (scale_range half_sd half_ray (the_samples (good_args (WarmDict sd0)) (good_rnd [])) (mean3 (the_VB (good_args (WarmDict sd0)))) (atol (good_args (WarmDict sd0))) (config_of r)) as [E|E]; unfold score in SC; lra.
Qed.
Print Assumptions C79_warm_nonvacuous.
