(** C57: apply_colormap *)
From Coq Require Import Reals Lra Lia ZArith List Bool.
From Verif Require Import PyExn Vec ColormapModel.
Import ListNotations.
Open Scope R_scope.

(** nearest integer, ties to the even one *)
Definition is_round (x y : R) := exists k, y = IZR k /\ Rabs (x - IZR k) <= 1/2 /\ (Rabs (x - IZR k) = 1/2 -> Z.even k = true).
Definition clamp (lo hi v : R) := Rmin (Rmax v lo) hi.

Lemma rne_ok x : is_round x (IZR (rne x)).
Proof.
  unfold is_round, rne. destruct (base_Int_part (x + 1/2)) as [A B]. set (k := Int_part (x + 1/2)) in *. exists (if Req_EM_T (IZR k) (x + 1/2) then if Z.even k then k else (k - 1)%Z else k). split; [reflexivity|].
  destruct (Req_EM_T (IZR k) (x + 1/2)) as [E|N].
  - destruct (Z.even k) eqn:EV.
    + rewrite E. replace (x - (x + 1/2)) with (-(1/2)) by ring. rewrite Rabs_Ropp, Rabs_right by lra. split; [lra|auto].
    + rewrite minus_IZR, E. replace (x - (x + 1/2 - 1)) with (1/2) by lra. rewrite Rabs_right by lra. split; [lra|]. intros _. rewrite Z.even_sub, EV. reflexivity.
  - split; [unfold Rabs; destruct Rcase_abs; lra|]. intros Q. exfalso. unfold Rabs in Q. destruct Rcase_abs; lra.
Qed.
Lemma round_int k y : is_round (IZR k) y -> y = IZR k.
Proof.
  intros (j & -> & A & _). f_equal. rewrite <- minus_IZR, <- abs_IZR in A. assert (IZR (Z.abs (k - j)) < IZR 1) by lra. apply lt_IZR in H. lia.
Qed.
(** the resolved range *)
Lemma amin_spec x l : In (amin x l) (x :: l) /\ forall y, In y (x :: l) -> amin x l <= y.
Proof.
  revert x. induction l as [|a l IH]; intros x; cbn [amin].
  - split; [left; auto|]. intros y [ -> |[]]; lra.
  - destruct (IH a) as [P Q]. split.
    + unfold Rmin. destruct Rle_dec; [left; auto|right; auto].
    + intros y [ -> |Y]; [apply Rmin_l|]. eapply Rle_trans; [apply Rmin_r|]. auto.
Qed.
Lemma amax_spec x l : In (amax x l) (x :: l) /\ forall y, In y (x :: l) -> y <= amax x l.
Proof.
  revert x. induction l as [|a l IH]; intros x; cbn [amax].
  - split; [left; auto|]. intros y [ -> |[]]; lra.
  - destruct (IH a) as [P Q]. split.
    + unfold Rmax. destruct Rle_dec; [right; auto|left; auto].
    + intros y [ -> |Y]; [apply Rmax_l|]. eapply Rle_trans; [|apply Rmax_r]. auto.
Qed.
Lemma eps_pos : 0 < eps. Proof. apply Rinv_0_lt_compat, pow_lt. lra. Qed.
Lemma range_lt f mn mx log lo hi : resolve_range f mn mx log = Ok (lo, hi) -> lo < hi /\ (log = true -> 0 < lo).
Proof.
  unfold resolve_range. pose proof eps_pos. destruct (match mn with None => _ | Some _ => _ end) as [a|]; [|discriminate]. cbn [bind].
  destruct (match mx with None => _ | Some _ => _ end) as [b|]; [|discriminate]. cbn [bind]. set (m := if log then _ else a).
  assert (LP : log = true -> 0 < m) by (intros ->; unfold m; destruct Rlt_dec; lra).
  destruct (Rlt_dec b m); [discriminate|]. destruct (Rlt_dec b (m + eps)); intros E; injection E as <- <-; split; auto; lra.
Qed.

(** the axis *)
Lemma lin_lt a b n i j : a < b -> (2 <= n)%nat -> (i < j)%nat -> lin_at a b n i < lin_at a b n j.
Proof.
  intros L N IJ. unfold lin_at. apply Rplus_lt_compat_l, Rmult_lt_compat_r; [|apply lt_INR; auto]. apply Rdiv_lt_0_compat; [lra|]. apply lt_0_INR. lia.
Qed.
Lemma axis_lt log a b n i j : a < b -> (log = true -> 0 < a) -> (2 <= n)%nat -> (i < j)%nat -> axis_at log a b n i < axis_at log a b n j.
Proof.
  intros L P N IJ. unfold axis_at. destruct log; [|apply lin_lt; auto]. apply Rpower_lt; [lra|]. apply lin_lt; auto. unfold log2. apply Rmult_lt_compat_r; [apply Rinv_0_lt_compat; rewrite <- ln_1; apply ln_increasing; lra|]. apply ln_increasing; auto.
Qed.
Lemma axis_ends log a b n : a < b -> (log = true -> 0 < a) -> (2 <= n)%nat -> axis_at log a b n 0 = a /\ axis_at log a b n (n - 1) = b.
Proof.
  intros L P N. assert (I : INR (n - 1) <> 0) by (apply not_0_INR; lia).
  assert (E0 : forall u v, lin_at u v n 0 = u) by (intros; unfold lin_at; cbn [INR]; ring). assert (E1 : forall u v, lin_at u v n (n - 1) = v) by (intros; unfold lin_at; field; auto).
  assert (L2 : 0 < ln 2) by (rewrite <- ln_1; apply ln_increasing; lra).
  assert (R2 : forall x, 0 < x -> Rpower 2 (log2 x) = x). { intros x X. unfold Rpower, log2. replace (ln x / ln 2 * ln 2) with (ln x) by (field; lra). apply exp_ln; auto. }
  unfold axis_at. destruct log; rewrite E0, E1; [|auto]. specialize (P eq_refl). split; apply R2; lra.
Qed.
Lemma axis_len log a b n : length (axis log a b n) = n. Proof. unfold axis. rewrite map_length, seq_length. reflexivity. Qed.
Lemma axis_nth log a b n i : (i < n)%nat -> nth i (axis log a b n) 0 = axis_at log a b n i.
Proof. intros H. unfold axis. rewrite (nth_indep _ 0 (axis_at log a b n 0%nat)) by (rewrite map_length, seq_length; auto). rewrite map_nth, seq_nth by auto. reflexivity. Qed.

Lemma ss_spec xs v : (searchsorted xs v <= length xs)%nat /\ (forall i, (i < searchsorted xs v)%nat -> nth i xs 0 < v) /\ ((searchsorted xs v < length xs)%nat -> v <= nth (searchsorted xs v) xs 0).
Proof.
  induction xs as [|x r (A & B & C)]; cbn [searchsorted length]; [repeat split; intros; lia|]. destruct (Rlt_dec x v).
  - repeat split; [lia| |]. + intros [|i] H; cbn [nth]; [auto|apply B; lia]. + intros H. cbn [nth]. apply C. lia.
  - repeat split; [lia|intros; lia|]. intros _. cbn [nth]. lra.
Qed.
Lemma mid_len xs : length (midpoints xs) = (length xs - 1)%nat.
Proof. induction xs as [|x [|y r] IH]; auto. change (midpoints (x :: y :: r)) with ((y / 2 + x / 2) :: midpoints (y :: r)). cbn [length] in *. lia. Qed.
Lemma mid_nth xs i : (i + 1 < length xs)%nat -> nth i (midpoints xs) 0 = (nth i xs 0 + nth (i + 1) xs 0) / 2.
Proof.
  revert i. induction xs as [|x [|y r] IH]; intros i H; cbn [length] in H; try lia. change (midpoints (x :: y :: r)) with ((y / 2 + x / 2) :: midpoints (y :: r)). destruct i as [|i]; [cbn; field|].
  cbn [nth Nat.add]. apply IH. cbn [length]. lia.
Qed.
(** what one interpolation returns on a strictly increasing axis *)
Definition linear_at (xs : list R) (C : list (list R)) (v : R) (out : list R) := exists i t, (i + 1 < length xs)%nat /\ 0 <= t <= 1 /\
  v = (1 - t) * nth i xs 0 + t * nth (i + 1) xs 0 /\ length out = 3%nat /\ forall k, (k < 3)%nat -> nth k out 0 = (1 - t) * nth k (nth i C []) 0 + t * nth k (nth (i + 1) C []) 0.
Definition nearest_at (xs : list R) (C : list (list R)) (v : R) (out : list R) := exists i, (i < length xs)%nat /\ (forall j, (j < length xs)%nat -> Rabs (v - nth i xs 0) <= Rabs (v - nth j xs 0)) /\ out = nth i C [].
Lemma linear_ok xs C v : (2 <= length xs)%nat -> length C = length xs -> Forall (fun r => length r = 3%nat) C -> (forall i j, (i < j < length xs)%nat -> nth i xs 0 < nth j xs 0) ->
  nth 0 xs 0 <= v <= nth (length xs - 1) xs 0 -> linear_at xs C v (call_linear xs C v).
Proof.
  intros N L W INC [V0 V1]. unfold call_linear. destruct (ss_spec xs v) as (A & B & D). set (s := searchsorted xs v) in *.
  assert (SL : (s < length xs)%nat). { destruct (Nat.eq_dec s (length xs)) as [E|]; [|lia]. specialize (B (length xs - 1)%nat ltac:(lia)). lra. }
  set (k := clip_nat 1 (length xs - 1) s). assert (K : (1 <= k <= length xs - 1)%nat) by (unfold k, clip_nat; lia).
  assert (KV : nth (k - 1) xs 0 <= v <= nth k xs 0).
  { destruct (Nat.eq_dec s 0) as [E|E].
    - assert (k = 1%nat) by (unfold k, clip_nat; lia). rewrite H. cbn [Nat.sub]. specialize (D SL). rewrite E in D. pose proof (INC 0%nat 1%nat ltac:(lia)). lra.
    - assert (KS : k = s) by (unfold k, clip_nat; lia). rewrite KS. specialize (D SL). specialize (B (s - 1)%nat ltac:(lia)). lra. }
  pose proof (INC (k - 1)%nat k ltac:(lia)) as LT. set (xl := nth (k - 1) xs 0) in *. set (xh := nth k xs 0) in *.
  exists (k - 1)%nat, ((v - xl) / (xh - xl)). replace (k - 1 + 1)%nat with k by lia. fold xl xh.
  rewrite Forall_forall in W. assert (LA : length (nth (k - 1) C []) = 3%nat) by (apply W, nth_In; lia). assert (LB : length (nth k C []) = 3%nat) by (apply W, nth_In; lia).
  split; [lia|]. split; [|split; [|split]].
  - split; [apply Rmult_le_pos; [lra|left; apply Rinv_0_lt_compat; lra]|]. apply (Rmult_le_reg_r (xh - xl)); [lra|]. unfold Rdiv. rewrite Rmult_assoc, Rinv_l by lra. lra.
  - field. lra.
  - rewrite map_length, combine_length, LA, LB. reflexivity.
  - intros j J. set (g := fun p : R * R => (snd p - fst p) / (xh - xl) * (v - xl) + fst p). rewrite (nth_indep _ 0 (g (0, 0))) by (rewrite map_length, combine_length; lia). rewrite map_nth, combine_nth by congruence. unfold g. cbn [fst snd]. field. lra.
Qed.
Lemma nearest_ok xs C v : (2 <= length xs)%nat -> (forall i j, (i < j < length xs)%nat -> nth i xs 0 < nth j xs 0) -> nearest_at xs C v (call_nearest xs C v).
Proof.
  intros N INC. unfold call_nearest. destruct (ss_spec (midpoints xs) v) as (A & B & D). rewrite mid_len in *. set (s := searchsorted (midpoints xs) v) in *.
  exists s. replace (clip_nat 0 (length xs - 1) s) with s by (unfold clip_nat; lia). split; [lia|]. split; [|reflexivity]. intros j J.
  destruct (Nat.lt_trichotomy j s) as [LT|[ -> |GT]]; [|lra|].
  - specialize (B (s - 1)%nat ltac:(lia)). rewrite mid_nth in B by lia. replace (s - 1 + 1)%nat with s in B by lia. pose proof (INC j s ltac:(lia)).
    assert (nth j xs 0 <= nth (s - 1) xs 0). { destruct (Nat.eq_dec j (s - 1)) as [ -> |]; [lra|]. left. apply INC. lia. }
    unfold Rabs. repeat destruct Rcase_abs; lra.
  - specialize (D ltac:(lia)). rewrite mid_nth in D by lia. pose proof (INC s j ltac:(lia)).
    assert (nth (s + 1) xs 0 <= nth j xs 0). { destruct (Nat.eq_dec j (s + 1)) as [ -> |]; [lra|]. left. apply INC. lia. }
    unfold Rabs. repeat destruct Rcase_abs; lra.
Qed.
Lemma mapR_ok {A B} (g : A -> res B) (h : A -> B) l : (forall a, In a l -> g a = Ok (h a)) -> mapR g l = Ok (map h l).
Proof. induction l as [|a l IH]; intros H; cbn; auto. rewrite H by (left; auto). cbn. rewrite IH by (intros; apply H; right; auto). reflexivity. Qed.

(** the whole function, two or more colours: every value is clamped into the range, located on the axis between the first and the last colour, and the
    interpolated (or nearest) table colour is rounded *)
Theorem C57_value : forall C f mn mx log pl lo hi, (2 <= length C)%nat -> Forall (fun r => length r = 3%nat) C -> resolve_range f mn mx log = Ok (lo, hi) ->
  exists out, apply_colormap C f mn mx log pl = Ok out /\ length out = length f /\
  forall q, (q < length f)%nat -> length (nth q out []) = 3%nat /\ exists exact,
    (if pl then linear_at (axis log lo hi (length C)) C (clamp lo hi (nth q f 0)) exact else nearest_at (axis log lo hi (length C)) C (clamp lo hi (nth q f 0)) exact)
    /\ forall k, (k < 3)%nat -> is_round (nth k exact 0) (nth k (nth q out []) 0).
Proof.
  intros C f mn mx log pl lo hi N W RR. destruct (range_lt _ _ _ _ _ _ RR) as [LT LP]. unfold apply_colormap.
  destruct (Nat.eqb_spec (length C) 0); [lia|]. replace (forallb _ C) with true by (symmetry; apply forallb_forall; rewrite Forall_forall in W; intros r R; apply Nat.eqb_eq; auto). cbn [negb].
  destruct (Nat.eqb_spec (length C) 1); [lia|]. rewrite RR. cbn [bind]. set (xs := axis log lo hi (length C)).
  assert (LX : length xs = length C) by apply axis_len.
  assert (INC : forall i j, (i < j < length xs)%nat -> nth i xs 0 < nth j xs 0). { intros i j H. unfold xs. rewrite !axis_nth by lia. apply axis_lt; auto; lia. }
  destruct (axis_ends log lo hi (length C) LT LP N) as [E0 E1].
  assert (X0 : nth 0 xs 0 = lo) by (unfold xs; rewrite axis_nth by lia; auto). assert (X1 : nth (length xs - 1) xs 0 = hi) by (rewrite LX; unfold xs; rewrite axis_nth by lia; auto).
  set (h := fun v => if pl then call_linear xs C v else call_nearest xs C v).
  assert (CL : forall v, lo <= clamp lo hi v <= hi). { intros v. unfold clamp. split; [apply Rmin_glb; [apply Rmax_r|lra]|apply Rmin_r]. }
  rewrite (mapR_ok _ h).
  2: { intros a IN. apply in_map_iff in IN as (v & <- & _). fold (clamp lo hi v). unfold interp. rewrite X0, X1. destruct (CL v). destruct Rlt_dec; [lra|]. destruct Rlt_dec; [lra|]. reflexivity. }
  cbn [bind]. eexists. split; [reflexivity|]. rewrite !map_length. split; [reflexivity|]. intros q Q. rewrite !map_map.
  set (g := fun v => map (fun x => IZR (rne x)) (h (Rmin (Rmax v lo) hi))). assert (GE : nth q (map g f) [] = g (nth q f 0)) by (rewrite (nth_indep (map g f) [] (g 0)) by (rewrite map_length; auto); apply map_nth). change (map _ f) with (map g f). rewrite GE. unfold g.
  fold (clamp lo hi (nth q f 0)). set (v := clamp lo hi (nth q f 0)). pose proof (CL (nth q f 0)) as CV. fold v in CV.
  assert (H3 : length (h v) = 3%nat /\ if pl then linear_at xs C v (h v) else nearest_at xs C v (h v)).
  { unfold h. destruct pl.
    - pose proof (linear_ok xs C v ltac:(lia) (eq_sym LX) W INC ltac:(lra)) as P. split; auto. destruct P as (? & ? & _ & _ & _ & P & _). exact P.
    - pose proof (nearest_ok xs C v ltac:(lia) INC) as P. split; auto. destruct P as (i & I & _ & ->). rewrite Forall_forall in W. apply W, nth_In. lia. }
  destruct H3 as [H3 HH]. split; [rewrite map_length; auto|]. exists (h v). split; [exact HH|]. intros k K.
  rewrite (nth_indep (map _ (h v)) 0 (IZR (rne 0))) by (rewrite map_length; lia). rewrite (map_nth (fun x => IZR (rne x))). apply rne_ok.
Qed.
Print Assumptions C57_value.
(** at and below the minimum: the first colour; at and above the maximum: the last *)
Theorem C57_ends : forall C f mn mx log pl lo hi out, (2 <= length C)%nat -> Forall (fun r => length r = 3%nat) C -> resolve_range f mn mx log = Ok (lo, hi) ->
  apply_colormap C f mn mx log pl = Ok out -> forall q k, (q < length f)%nat -> (k < 3)%nat ->
  (nth q f 0 <= lo -> is_round (nth k (nth 0 C []) 0) (nth k (nth q out []) 0)) /\ (hi <= nth q f 0 -> is_round (nth k (nth (length C - 1) C []) 0) (nth k (nth q out []) 0)).
Proof.
  intros C f mn mx log pl lo hi out N W RR E q k Q K. destruct (range_lt _ _ _ _ _ _ RR) as [LT LP]. destruct (C57_value C f mn mx log pl lo hi N W RR) as (out' & E' & _ & H). rewrite E in E'. injection E' as <-.
  destruct (H q Q) as (_ & ex & HX & HR). specialize (HR k K). set (xs := axis log lo hi (length C)) in *.
  assert (LX : length xs = length C) by apply axis_len. destruct (axis_ends log lo hi (length C) LT LP N) as [E0 E1].
  assert (X0 : nth 0 xs 0 = lo) by (unfold xs; rewrite axis_nth by lia; auto). assert (X1 : nth (length C - 1) xs 0 = hi) by (unfold xs; rewrite axis_nth by lia; auto).
  assert (INC : forall i j, (i < j < length C)%nat -> nth i xs 0 < nth j xs 0). { intros i j HH. unfold xs. rewrite !axis_nth by lia. apply axis_lt; auto; lia. }
  assert (G0 : nth q f 0 <= lo -> clamp lo hi (nth q f 0) = lo) by (intros; unfold clamp; rewrite Rmax_right, Rmin_left; lra).
  assert (G1 : hi <= nth q f 0 -> clamp lo hi (nth q f 0) = hi) by (intros; unfold clamp; rewrite Rmax_left, Rmin_right; lra).
  destruct pl.
  - destruct HX as (i & t & I & T & V & _ & EX). rewrite EX in HR by auto. pose proof (INC i (i + 1)%nat ltac:(lia)) as II. split; intros HV; [rewrite (G0 HV) in V|rewrite (G1 HV) in V].
    + destruct (Nat.eq_dec i 0) as [ -> |NE].
      * rewrite X0 in *. assert (t = 0). { assert (t * (nth (0 + 1) xs 0 - lo) = 0) by lra. apply Rmult_integral in H0 as [|]; lra. } subst t. replace ((1 - 0) * nth k (nth 0 C []) 0 + 0 * nth k (nth (0 + 1) C []) 0) with (nth k (nth 0 C []) 0) in HR by ring. exact HR.
      * exfalso. pose proof (INC 0%nat i ltac:(lia)). rewrite X0 in *. nra.
    + destruct (Nat.eq_dec (i + 1) (length C - 1)) as [EQ|NE].
      * rewrite EQ, X1 in *. assert (t = 1). { assert ((1 - t) * (hi - nth i xs 0) = 0) by lra. apply Rmult_integral in H0 as [|]; lra. } subst t. match type of HR with is_round ?e _ => replace e with (nth k (nth (length C - 1) C []) 0) in HR by ring end. exact HR.
      * exfalso. pose proof (INC (i + 1)%nat (length C - 1)%nat ltac:(lia)). rewrite X1 in *. nra.
  - destruct HX as (i & I & M & ->). split; intros HV; [rewrite (G0 HV) in M; specialize (M 0%nat ltac:(lia)); rewrite X0 in M|rewrite (G1 HV) in M; specialize (M (length C - 1)%nat ltac:(lia)); rewrite X1 in M]; rewrite Rminus_eq_0, Rabs_R0 in M.
    + destruct (Nat.eq_dec i 0) as [ -> |NE]; auto. exfalso. pose proof (INC 0%nat i ltac:(lia)). rewrite X0 in *. unfold Rabs in M. destruct Rcase_abs; lra.
    + destruct (Nat.eq_dec i (length C - 1)) as [ -> |NE]; auto. exfalso. pose proof (INC i (length C - 1)%nat ltac:(lia)). rewrite X1 in *. unfold Rabs in M. destruct Rcase_abs; lra.
Qed.
Print Assumptions C57_ends.
(** one colour: everything gets it *)
Theorem C57_single : forall c f mn mx log pl, length c = 3%nat -> apply_colormap [c] f mn mx log pl = Ok (repeat c (length f)).
Proof. intros c f mn mx log pl L. unfold apply_colormap. cbn [length Nat.eqb forallb negb nth]. rewrite L. reflexivity. Qed.
(** the default range is the range of the data; explicit bounds are used as given when at least machine epsilon apart *)
Theorem C57_range : forall f, f <> [] -> exists lo hi, resolve_range f None None false = Ok (lo, hi) /\ In lo f /\ (forall v, In v f -> lo <= v <= hi) /\ (forall v w, In v f -> In w f -> w - v >= eps -> In hi f).
Proof.
  intros [|x l] N; [contradiction|]. unfold resolve_range. cbn [amin0 amax0 bind]. destruct (amin_spec x l) as [A B], (amax_spec x l) as [A' B'].
  destruct (Rlt_dec (amax x l) (amin x l)) as [Q|Q]; [exfalso; specialize (B' _ A); lra|]. do 2 eexists. split; [reflexivity|]. split; auto. destruct Rlt_dec.
  - split; [intros v V; specialize (B v V); specialize (B' v V); lra|]. intros v w V V' D. specialize (B v V). specialize (B' w V'). lra.
  - split; [|auto]. intros v V; specialize (B v V); specialize (B' v V); lra.
Qed.
Print Assumptions C57_range.
Theorem C57_explicit_range : forall f lo hi, lo + eps <= hi -> resolve_range f (Some lo) (Some hi) false = Ok (lo, hi) /\ (eps <= lo -> resolve_range f (Some lo) (Some hi) true = Ok (lo, hi)).
Proof.
  intros f lo hi H. pose proof eps_pos. unfold resolve_range. cbn [bind]. split; [|intros G; destruct (Rlt_dec lo eps); [lra|]]; (destruct (Rlt_dec hi lo); [lra|]; destruct (Rlt_dec hi (lo + eps)); [lra|reflexivity]).
Qed.
Example C57_nonvacuous : exists lo hi, resolve_range [0; 1; 2] None None false = Ok (lo, hi) /\ Forall (fun r => length r = 3%nat) [[255; 0; 0]; [0; 255; 0]].
Proof. destruct (C57_range [0;1;2] ltac:(discriminate)) as (lo & hi & E & _). exists lo, hi. split; [exact E|]. repeat constructor. Qed.
