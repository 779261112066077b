(** C49, C51, C54 *)
From Coq Require Import Reals Lra Lia ZArith List Bool Psatz.
From Verif Require Import NumpyModel PyExn Vec MatModel MatProofs GeomModel SubdivModel AabbModel AabbProofs PointsModel.
Import ListNotations.
Open Scope R_scope.

(** *** C49 *)
Lemma fold_max_le l : forall x, x <= fold_left Rmax l x /\ (forall y, In y l -> y <= fold_left Rmax l x) /\ (fold_left Rmax l x = x \/ In (fold_left Rmax l x) l).
Proof.
  induction l as [|a l IH]; intros x; cbn [fold_left]; [split; [lra|split; [intros ? []|now left]]|].
  destruct (IH (Rmax x a)) as (A & B & C). pose proof (Rmax_l x a). pose proof (Rmax_r x a). split; [lra|]. split; [intros y [ <- |I]; [lra|auto]|].
  destruct C as [C|C]; [|right; now right]. rewrite C. unfold Rmax. destruct Rle_dec; [right; now left|now left].
Qed.
Lemma max_list_ok l m : max_list l = Some m -> In m l /\ forall y, In y l -> y <= m.
Proof.
  destruct l as [|x r]; cbn [max_list]; [discriminate|]. intros E. injection E as <-. destruct (fold_max_le r x) as (A & B & C). split; [destruct C as [ -> |C]; [now left|now right]|]. intros y [ <- |I]; auto.
Qed.
(** the largest side of the axis-aligned bounding box *)
Definition extent (v : list vec) (s : R) : Prop :=
  (exists p q j, In p v /\ In q v /\ (j < length p)%nat /\ nth j p 0 - nth j q 0 = s) /\ (forall p q j, In p v -> In q v -> (j < length p)%nat -> nth j p 0 - nth j q 0 <= s).
Definition center_of (center : option vec) (j : nat) : R := match center with None => 0 | Some c => nth j c 0 end.
Section Norm.
  Variable d : nat. Variable v : list vec. Variable center : option vec.
  Hypothesis NE : v <> []. Hypothesis DIM : Forall (fun r => length r = d) v. Hypothesis DP : (0 < d)%nat.
  Hypothesis CD : match center with None => True | Some c => length c = d end.
  Lemma row_len p : In p v -> length p = d. Proof using DIM. intros I. exact (proj1 (Forall_forall _ _) DIM p I). Qed.
  Lemma normalize_shape s : 0 < s -> extent v s -> exists mn mx, length mn = d /\ length mx = d /\
    (forall j, (j < d)%nat -> (forall p, In p v -> nth j mn 0 <= nth j p 0 <= nth j mx 0) /\ (exists p, In p v /\ nth j mn 0 = nth j p 0) /\ (exists p, In p v /\ nth j mx 0 = nth j p 0)) /\
    exists out, normalize_points v center = Ok (map (fun r => map2 Rminus r mn) v, out) /\ length out = length v /\
    forall i, (i < length v)%nat -> length (nth i out []) = d /\ forall j, (j < d)%nat -> nth j (nth i out []) 0 = (nth j (nth i v []) 0 - (nth j mn 0 + nth j mx 0) / 2) / s + center_of center j.
  Proof using All.
    intros SP (E1 & E2). destruct (amin0_ok d v NE DIM) as (mn & EM & LM & PM). destruct (amax0_ok d v NE DIM) as (mx & EX & LX & PX).
    exists mn, mx. split; [exact LM|]. split; [exact LX|]. split.
    { intros j J. destruct (PM j J) as (A & p & Ip & Ep). destruct (PX j J) as (B & q & Iq & Eq). split; [intros r Ir; split; auto|]. split; eauto. }
    unfold normalize_points. rewrite EM. cbn [lift bind]. set (v1 := map (fun r => map2 Rminus r mn) v).
    assert (V1 : forall r, In r v1 -> length r = d) by (intros r I; apply in_map_iff in I; destruct I as (p & <- & I); rewrite map2_length; rewrite (row_len p I); auto).
    assert (M : max_list (concat v1) = Some s).
    { destruct (max_list (concat v1)) as [m|] eqn:Q.
      - apply max_list_ok in Q. destruct Q as (Q1 & Q2). f_equal. apply Rle_antisym.
        + apply in_concat in Q1. destruct Q1 as (r & Ir & Im). unfold v1 in Ir. apply in_map_iff in Ir. destruct Ir as (p & <- & Ip). pose proof (row_len p Ip) as Lp.
          apply (In_nth _ _ 0) in Im. destruct Im as (j & J & <-). rewrite map2_length in J by lia. rewrite map2_nth by lia. destruct (PM j ltac:(lia)) as (_ & q & Iq & ->). apply E2; auto.
        + destruct E1 as (p & q & j & Ip & Iq & J & <-). pose proof (row_len p Ip) as Lp. destruct (PM j ltac:(lia)) as (A & _). pose proof (A q Iq).
          assert (nth j (map2 Rminus p mn) 0 <= m). { apply Q2. apply in_concat. exists (map2 Rminus p mn). split; [unfold v1; now apply (in_map (fun r => map2 Rminus r mn))|]. apply nth_In. rewrite map2_length; lia. }
          rewrite map2_nth in H0 by lia. lra.
      - exfalso. destruct v as [|p r]; [congruence|]. unfold v1 in Q. cbn [map concat] in Q. assert (Lp : length p = d) by (inversion DIM; auto). destruct p as [|a p]; [cbn in Lp; lia|]. destruct mn as [|b mn]; [cbn in LM; lia|]. cbn in Q. discriminate. }
    rewrite M. cbn [lift bind]. destruct (Req_EM_T s 0); [lra|]. set (v2 := map (map (fun x => x / s)) v1).
    assert (N2 : v2 <> []) by (unfold v2, v1; intros Q; apply map_eq_nil in Q; apply map_eq_nil in Q; contradiction).
    assert (V2 : Forall (fun r => length r = d) v2) by (apply Forall_forall; intros r I; apply in_map_iff in I; destruct I as (q & <- & I); rewrite map_length; auto).
    destruct (amax0_ok d v2 N2 V2) as (mx2 & EX2 & LX2 & PX2). rewrite EX2. cbn [lift bind].
    assert (NT : forall p j, In p v -> (j < d)%nat -> nth j (map (fun x => x / s) (map2 Rminus p mn)) 0 = (nth j p 0 - nth j mn 0) / s).
    { intros p j Ip J. pose proof (row_len p Ip). rewrite (nth_indep _ 0 (0 / s)) by (rewrite map_length, map2_length; lia). rewrite (map_nth (fun x => x / s)). rewrite map2_nth by lia. reflexivity. }
    assert (MX2 : forall j, (j < d)%nat -> nth j mx2 0 = (nth j mx 0 - nth j mn 0) / s).
    { intros j J. destruct (PX2 j J) as (A & r & Ir & Er). unfold v2, v1 in Ir. rewrite map_map in Ir. apply in_map_iff in Ir. destruct Ir as (p & <- & Ip). rewrite (NT p j Ip J) in Er. rewrite Er.
      destruct (PX j J) as (B & q & Iq & Eq). assert (C : (nth j q 0 - nth j mn 0) / s <= nth j mx2 0). { rewrite <- (NT q j Iq J). apply A. unfold v2, v1. rewrite map_map. apply in_map_iff. exists q. split; auto. }
      rewrite Er in C. pose proof (B p Ip). rewrite <- Eq in C. assert (IS : 0 < / s) by now apply Rinv_0_lt_compat. apply Rle_antisym; [apply Rmult_le_compat_r; lra|exact C]. }
    set (h := map (fun x => 0.5 * x) mx2). assert (LH : length h = d) by (unfold h; rewrite map_length; auto).
    assert (NH : forall j, (j < d)%nat -> nth j h 0 = (nth j mx 0 - nth j mn 0) / s / 2).
    { intros j J. unfold h. rewrite (nth_indep _ 0 (0.5 * 0)) by (rewrite map_length; lia). rewrite (map_nth (fun x => 0.5 * x)). rewrite (MX2 j J). replace 0.5 with (/2) by lra. field. lra. }
    eexists. split; [reflexivity|]. 
    assert (R3 : forall i, (i < length v)%nat -> let r := nth i (map (fun r => map2 Rminus r h) v2) [] in length r = d /\ forall j, (j < d)%nat -> nth j r 0 = (nth j (nth i v []) 0 - (nth j mn 0 + nth j mx 0) / 2) / s).
    { intros i I r. unfold r, v2, v1. rewrite !map_map. rewrite (nth_indep _ [] (map2 Rminus (map (fun x => x / s) (map2 Rminus [] mn)) h)) by (rewrite map_length; lia).
      rewrite (map_nth (fun x => map2 Rminus (map (fun x0 => x0 / s) (map2 Rminus x mn)) h)). pose proof (nth_In v [] I) as Ip. pose proof (row_len _ Ip) as Lp.
      assert (LL : length (map (fun x0 => x0 / s) (map2 Rminus (nth i v []) mn)) = d) by (rewrite map_length, map2_length; lia).
      split; [rewrite map2_length; lia|]. intros j J. rewrite map2_nth by lia. rewrite (NT _ j Ip J), (NH j J). field. lra. }
    assert (LV : length (map (fun r => map2 Rminus r h) v2) = length v) by (unfold v2, v1; rewrite !map_length; reflexivity).
    destruct center as [c|]; cbn [center_of].
    - rewrite map_length. split; [exact LV|]. intros i I. rewrite (nth_indep _ [] (map2 Rplus [] c)) by (rewrite map_length; lia). rewrite (map_nth (fun r => map2 Rplus r c)).
      destruct (R3 i I) as (A & B). split; [rewrite map2_length; lia|]. intros j J. rewrite map2_nth by lia. rewrite (B j J). reflexivity.
    - split; [exact LV|]. intros i I. destruct (R3 i I) as (A & B). split; [exact A|]. intros j J. rewrite (B j J). ring.
  Qed.
End Norm.
(** uniform scale and translation; inside the unit box around the centre, symmetric in it; the largest side becomes 1 *)
Theorem C49_unit_box : forall d (v : list vec) (center : option vec) (s : R), v <> [] -> Forall (fun r => length r = d) v -> (0 < d)%nat -> match center with None => True | Some c => length c = d end -> 0 < s -> extent v s ->
  exists caller out, normalize_points v center = Ok (caller, out) /\ length out = length v /\
    (exists shift, forall i j, (i < length v)%nat -> (j < d)%nat -> nth j (nth i out []) 0 = / s * nth j (nth i v []) 0 + shift j) /\
    (forall p j, In p out -> (j < d)%nat -> - / 2 <= nth j p 0 - center_of center j <= / 2) /\
    (forall j, (j < d)%nat -> exists p q, In p out /\ In q out /\ (nth j p 0 - center_of center j) = - (nth j q 0 - center_of center j) /\ forall r, In r out -> nth j p 0 <= nth j r 0 <= nth j q 0) /\
    extent out 1.
Proof.
  intros d v center s NE DIM DP CD SP EXT. destruct (normalize_shape d v center NE DIM DP CD s SP EXT) as (mn & mx & LM & LX & P & out & E & LO & R).
  assert (IS : 0 < / s) by now apply Rinv_0_lt_compat.
  exists (map (fun r => map2 Rminus r mn) v), out. split; [exact E|]. split; [exact LO|].
  assert (IO : forall r, In r out -> exists i, (i < length v)%nat /\ r = nth i out []) by (intros r I; apply (In_nth _ _ []) in I; destruct I as (i & I & <-); exists i; split; [rewrite <- LO; exact I|reflexivity]).
  assert (OI : forall i, (i < length v)%nat -> In (nth i out []) out) by (intros i I; apply nth_In; rewrite LO; exact I).
  assert (SIDE : forall j, (j < d)%nat -> nth j mx 0 - nth j mn 0 <= s).
  { intros j J. destruct (P j J) as (_ & (p & Ip & ->) & (q & Iq & ->)). destruct EXT as (_ & B). apply B; auto. rewrite (row_len d v DIM q Iq). exact J. }
  assert (DIVLE : forall x, x <= s -> x / s <= 1) by (intros x H; apply (Rmult_le_reg_r s); [lra|]; unfold Rdiv; rewrite Rmult_assoc, Rinv_l; lra).
  split; [exists (fun j => - (nth j mn 0 + nth j mx 0) / 2 / s + center_of center j); intros i j I J; rewrite (proj2 (R i I) j J); field; lra|].
  split.
  { intros p j Ip J. destruct (IO p Ip) as (i & I & ->). rewrite (proj2 (R i I) j J). destruct (P j J) as (B & _). specialize (B _ (nth_In v [] I)). specialize (SIDE j J).
    replace ((nth j (nth i v []) 0 - (nth j mn 0 + nth j mx 0) / 2) / s + center_of center j - center_of center j) with ((2 * nth j (nth i v []) 0 - nth j mn 0 - nth j mx 0) / s / 2) by (field; lra).
    set (w := 2 * nth j (nth i v []) 0 - nth j mn 0 - nth j mx 0). assert (w <= s) by (unfold w; lra). assert (- w <= s) by (unfold w; lra).
    pose proof (DIVLE w H). pose proof (DIVLE (- w) H0). replace (- w / s) with (- (w / s)) in H2 by (field; lra). lra. }
  split.
  { intros j J. destruct (P j J) as (B & (p & Ip & Ep) & (q & Iq & Eq)). apply (In_nth _ _ []) in Ip, Iq. destruct Ip as (i & I & <-). destruct Iq as (k & K & <-).
    exists (nth i out []), (nth k out []). split; [auto|]. split; [auto|]. destruct (R i I) as (_ & Ri). destruct (R k K) as (_ & Rk). rewrite (Ri j J), (Rk j J). assert (Ep' : nth j (nth i v []) 0 = nth j mn 0) by (symmetry; exact Ep). assert (Eq' : nth j (nth k v []) 0 = nth j mx 0) by (symmetry; exact Eq). rewrite Ep', Eq'. split; [field; lra|].
    intros r Ir. destruct (IO r Ir) as (n & N & ->). rewrite (proj2 (R n N) j J). specialize (B _ (nth_In v [] N)). unfold Rdiv. split; apply Rplus_le_compat_r; apply Rmult_le_compat_r; lra. }
  assert (DIFF : forall i k j, (i < length v)%nat -> (k < length v)%nat -> (j < d)%nat -> nth j (nth i out []) 0 - nth j (nth k out []) 0 = (nth j (nth i v []) 0 - nth j (nth k v []) 0) / s).
  { intros i k j I K J. rewrite (proj2 (R i I) j J). rewrite (proj2 (R k K) j J). field. lra. }
  destruct EXT as ((p & q & j & Ip & Iq & J & ES) & B). pose proof (row_len d v DIM p Ip) as Lp. apply (In_nth _ _ []) in Ip, Iq. destruct Ip as (i & I & <-). destruct Iq as (k & K & <-). split.
  - exists (nth i out []), (nth k out []), j. destruct (R i I) as (Li & _). split; [auto|]. split; [auto|]. split; [rewrite Li; rewrite <- Lp; exact J|]. assert (J2 : (j < d)%nat) by (rewrite <- Lp; exact J). pose proof (DIFF i k j I K J2) as DD. assert (ES' : nth j (nth i v []) 0 - nth j (nth k v []) 0 = s) by exact ES. rewrite ES' in DD. etransitivity; [exact DD|]. field. lra.
  - intros a b j' Ia Ib J'. destruct (IO a Ia) as (i' & I' & ->). destruct (IO b Ib) as (k' & K' & ->). destruct (R i' I') as (Li & _). rewrite DIFF; [|exact I'|exact K'|rewrite <- Li; exact J']. apply DIVLE. apply B; [now apply nth_In|now apply nth_In|].
    rewrite (row_len d v DIM _ (nth_In v [] I')). rewrite <- Li. exact J'.
Qed.
Print Assumptions C49_unit_box.
Lemma map_fix {A} (f : A -> A) l p : map f l = l -> In p l -> f p = p.
Proof. induction l as [|a l IH]; intros E I; [destruct I|]. cbn in E. injection E as E1 E2. destruct I as [ <- |I]; auto. Qed.
(** the caller's own array is overwritten with the coordinates minus their minima: it survives only if every column already starts at 0 *)
Theorem C49_caller_refuted : forall d (v : list vec) (center : option vec) (s : R) caller out, v <> [] -> Forall (fun r => length r = d) v -> (0 < d)%nat -> match center with None => True | Some c => length c = d end -> 0 < s -> extent v s ->
  normalize_points v center = Ok (caller, out) -> (caller = v <-> forall j, (j < d)%nat -> (exists p, In p v /\ nth j p 0 = 0) /\ forall p, In p v -> 0 <= nth j p 0).
Proof.
  intros d v center s caller out NE DIM DP CD SP EXT E. destruct (normalize_shape d v center NE DIM DP CD s SP EXT) as (mn & mx & LM & _ & P & out' & E' & _). rewrite E in E'. injection E' as -> <-.
  assert (Z : forall j, (j < d)%nat -> forall p, In p v -> nth j (map2 Rminus p mn) 0 = nth j p 0 - nth j mn 0) by (intros j J p Ip; apply map2_nth; rewrite (row_len d v DIM p Ip); lia).
  split.
  - intros Q j J. destruct (P j J) as (B & (p & Ip & Ep) & _). assert (N : nth j mn 0 = 0).
    { assert (K : map2 Rminus p mn = p) by exact (map_fix (fun r => map2 Rminus r mn) v p Q Ip).
      pose proof (Z j J p Ip) as H. rewrite K in H. lra. }
    split; [exists p; split; [auto|lra]|]. intros r Ir. destruct (B r Ir). lra.
  - intros H. rewrite <- (map_id v) at 2. apply map_ext_in. intros p Ip. apply nth_ext with (d := 0) (d' := 0); [apply map2_length; rewrite (row_len d v DIM p Ip); lia|].
    intros j J. rewrite map2_length in J by (rewrite (row_len d v DIM p Ip); lia). rewrite (row_len d v DIM p Ip) in J. rewrite (Z j J p Ip). destruct (P j J) as (B & (q & Iq & Eq) & _). destruct (H j J) as ((r & Ir & Er) & H2).
    destruct (B r Ir). pose proof (H2 q Iq). lra.
Qed.
Print Assumptions C49_caller_refuted.
Example C49_nonvacuous : extent [[1;1];[2;3]] 2 /\ ~ (forall j, (j < 2)%nat -> (exists p, In p [[1;1];[2;3]] /\ nth j p 0 = 0) /\ forall p, In p [[1;1];[2;3]] -> 0 <= nth j p 0).
Proof.
  split.
  - split; [exists [2;3], [1;1], 1%nat; repeat split; [right; now left|now left|cbn; lia|cbn; lra]|].
    intros p q j [ <- |[ <- |[]]] [ <- |[ <- |[]]] J; destruct j as [|[|j]]; cbn in *; try lra; lia.
  - intros H. destruct (H 0%nat ltac:(lia)) as ((p & [ <- |[ <- |[]]] & E) & _); cbn in E; lra.
Qed.

(** *** C51 *)
Section LBS.
  Variable m d : nat. Variable V : nat -> nat -> R.
  (** the image of point p under (A,b), coordinate j *)
  Definition affine (A : nat -> nat -> R) (b : nat -> R) (x : nat -> R) (j : nat) : R := sumn d (fun k => A j k * x k) + b j.
  Lemma lbs_sum Ws Rs Ts p j : lbs m d V Ws Rs Ts p j = sumn m (fun i => Ws p i * affine (Rs i) (Ts i) (V p) j).
  Proof.
    unfold lbs, sumn at 2. generalize (seq 0 m) as l. intros l. assert (G : forall acc, fold_left (fun U i => U + Ws p i * (sumn d (fun k => V p k * Rs i j k) + Ts i j)) l acc = acc + sumf (fun i => Ws p i * affine (Rs i) (Ts i) (V p) j) l).
    { induction l as [|i l IH]; intros acc; cbn [fold_left sumf fold_right]; [cbn; ring|]. rewrite IH. unfold affine.
      replace (sumn d (fun k => V p k * Rs i j k)) with (sumn d (fun k => Rs i j k * V p k)) by (apply sumf_ext; intros; ring). cbn [sumf]. ring. }
    rewrite G. ring.
  Qed.
End LBS.
(** the weighted sum of the handles' images of the vertex *)
Theorem C51_blend : forall m d V Ws Rs Ts p j, lbs m d V Ws Rs Ts p j = sumn m (fun i => Ws p i * affine d (Rs i) (Ts i) (V p) j).
Proof. exact lbs_sum. Qed.
Print Assumptions C51_blend.
Theorem C51_common_transform : forall m d V Ws Rs Ts A b p j, sumn m (Ws p) = 1 -> (forall i k, (i < m)%nat -> (k < d)%nat -> Rs i j k = A j k) -> (forall i, (i < m)%nat -> Ts i j = b j) ->
  lbs m d V Ws Rs Ts p j = affine d A b (V p) j.
Proof.
  intros m d V Ws Rs Ts A b p j W HR HT. rewrite lbs_sum. transitivity (sumn m (fun i => Ws p i * affine d A b (V p) j)).
  - apply sumf_ext. intros i I. apply in_seq in I. f_equal. unfold affine. f_equal; [|apply HT; lia]. apply sumf_ext. intros k K. apply in_seq in K. rewrite HR by lia. reflexivity.
  - unfold sumn at 1. rewrite sumf_scal_r. unfold sumn in W. rewrite W. ring.
Qed.
Print Assumptions C51_common_transform.
Theorem C51_identity : forall m d V Ws Rs Ts p j, (j < d)%nat -> sumn m (Ws p) = 1 -> (forall i k, (i < m)%nat -> (k < d)%nat -> Rs i j k = if (j =? k)%nat then 1 else 0) -> (forall i, (i < m)%nat -> Ts i j = 0) ->
  lbs m d V Ws Rs Ts p j = V p j.
Proof.
  intros m d V Ws Rs Ts p j J W HR HT. rewrite (C51_common_transform m d V Ws Rs Ts (fun a k => if (a =? k)%nat then 1 else 0) (fun _ => 0) p j W HR HT).
  unfold affine. rewrite Rplus_0_r. unfold sumn.
  replace (seq 0 d) with (seq 0 j ++ j :: seq (S j) (d - j - 1)) by (change (j :: seq (S j) (d - j - 1)) with (seq (0 + j) (S (d - j - 1))); rewrite <- seq_app; f_equal; lia).
  rewrite sumf_app. cbn [sumf]. rewrite Nat.eqb_refl. rewrite (sumf_zero _ (seq 0 j)), (sumf_zero _ (seq (S j) (d - j - 1))); [ring|intros k K; apply in_seq in K; destruct (Nat.eqb_spec j k); [lia|ring]|intros k K; apply in_seq in K; destruct (Nat.eqb_spec j k); [lia|ring]].
Qed.
Print Assumptions C51_identity.
Theorem C51_linear_in_weights : forall m d V W1 W2 Rs Ts a b p j,
  lbs m d V (fun q i => a * W1 q i + b * W2 q i) Rs Ts p j = a * lbs m d V W1 Rs Ts p j + b * lbs m d V W2 Rs Ts p j.
Proof.
  intros. rewrite !lbs_sum. unfold sumn at 1 2 3. rewrite <- !sumf_scal, <- sumf_plus. apply sumf_ext. intros. ring.
Qed.
Print Assumptions C51_linear_in_weights.
(** moving all handles by one more rigid (or affine) map moves the result by it *)
Theorem C51_equivariant : forall m d V Ws Rs Ts A b p j, sumn m (Ws p) = 1 ->
  lbs m d V Ws (fun i r k => sumn d (fun h => A r h * Rs i h k)) (fun i r => sumn d (fun h => A r h * Ts i h) + b r) p j =
  affine d A b (lbs m d V Ws Rs Ts p) j.
Proof.
  intros m d V Ws Rs Ts A b p j W. rewrite lbs_sum. unfold affine at 2.
  transitivity (sumn m (fun i => sumn d (fun h => A j h * (Ws p i * affine d (Rs i) (Ts i) (V p) h)) + Ws p i * b j)).
  - apply sumf_ext. intros i _. unfold affine. rewrite Rmult_plus_distr_l. rewrite Rmult_plus_distr_l. rewrite <- Rplus_assoc. f_equal. unfold sumn. rewrite <- !sumf_scal. rewrite (sumf_ext _ (fun k => sumf (fun h => Ws p i * (A j h * Rs i h k * V p k)) (seq 0 d))).
    + rewrite sumf_swap. rewrite <- sumf_plus. apply sumf_ext. intros h _. rewrite !Rmult_plus_distr_l. f_equal; [|ring]. rewrite <- !sumf_scal. apply sumf_ext. intros; ring.
    + intros k _. rewrite <- sumf_scal_r, <- sumf_scal. apply sumf_ext. intros; ring.
  - unfold sumn at 1. rewrite sumf_plus, sumf_scal_r. unfold sumn in W. rewrite W, Rmult_1_l. f_equal. unfold sumn at 1. rewrite sumf_swap. apply sumf_ext. intros h _. rewrite sumf_scal. f_equal. symmetry. apply lbs_sum.
Qed.
Print Assumptions C51_equivariant.
Example C51_nonvacuous : lbs 2 2 (fun _ k => INR k) (fun _ _ => /2) (fun _ j k => if (j =? k)%nat then 1 else 0) (fun i j => INR i) 0 1 = 3/2.
Proof. unfold lbs, sumn; cbn. field. Qed.
