From Coq Require Import Reals Lra ZArith List Bool Permutation Lia Arith.
From Verif Require Import NumpyModel PyExn Vec GeomModel LoopsModel SubdivModel Subdiv2Proofs AabbModel AabbSpec.
Import ListNotations.
Open Scope R_scope.

Lemma map2_length f a b : length a = length b -> length (map2 f a b) = length a.
Proof. revert b. induction a; intros [|? ?] H; cbn in *; try discriminate; auto. Qed.
Lemma map2_nth f a : forall b j, length a = length b -> (j < length a)%nat -> nth j (map2 f a b) 0 = f (nth j a 0) (nth j b 0).
Proof. induction a; intros [|? ?] j H J; cbn in *; try discriminate; try lia. destruct j; auto. apply IHa; lia. Qed.

Section Fold.
  Variable f : R -> R -> R.
  Variable le' : R -> R -> Prop.
  Hypothesis le_refl : forall x, le' x x.
  Hypothesis le_trans : forall x y z, le' x y -> le' y z -> le' x z.
  Hypothesis fl : forall x y, le' x (f x y).
  Hypothesis fr : forall x y, le' y (f x y).
  Hypothesis fch : forall x y, f x y = x \/ f x y = y.
  Variable dim : nat.
  Lemma fold_bound rows : forall r, length r = dim -> Forall (fun x => length x = dim) rows ->
    let m := fold_left (map2 f) rows r in length m = dim /\ forall j, (j < dim)%nat ->
      (forall x, In x (r :: rows) -> le' (nth j x 0) (nth j m 0)) /\ exists x, In x (r :: rows) /\ nth j m 0 = nth j x 0.
  Proof.
    induction rows as [|y rows IH]; intros r R F; cbn zeta.
    - cbn. split; auto. intros j J. split; [intros x [ <- |[]]; auto|exists r; auto].
    - inversion F as [|? ? Y F']; subst. cbn [fold_left].
      assert (L : length (map2 f r y) = length r) by (apply map2_length; lia).
      destruct (IH (map2 f r y) L F') as [L2 B]. split; [exact L2|]. intros j J. destruct (B j J) as [U [x [I E]]].
      split.
      + intros z [ <- |[ <- |Z]].
        * eapply le_trans; [|apply U; left; reflexivity]. rewrite map2_nth by lia. apply fl.
        * eapply le_trans; [|apply U; left; reflexivity]. rewrite map2_nth by lia. apply fr.
        * apply U. now right.
      + destruct I as [ <- |I]; [|exists x; split; [right; right; auto|auto]].
        rewrite map2_nth in E by lia. destruct (fch (nth j r 0) (nth j y 0)) as [Q|Q]; rewrite Q in E; [exists r|exists y]; split; auto; cbn; auto.
  Qed.
End Fold.

Lemma amax0_ok dim rows : rows <> [] -> Forall (fun x : vec => length x = dim) rows ->
  exists m, amax0 rows = Some m /\ length m = dim /\ forall j, (j < dim)%nat ->
    (forall x, In x rows -> nth j x 0 <= nth j m 0) /\ exists x, In x rows /\ nth j m 0 = nth j x 0.
Proof.
  intros N F. destruct rows as [|r rows]; [congruence|]. inversion F; subst. cbn [amax0]. eexists; split; [reflexivity|].
  apply (fold_bound Rmax Rle); auto; try (intros; lra).
  - intros; apply Rmax_l. - intros; apply Rmax_r. - intros x y; unfold Rmax; destruct Rle_dec; auto.
Qed.
Lemma amin0_ok dim rows : rows <> [] -> Forall (fun x : vec => length x = dim) rows ->
  exists m, amin0 rows = Some m /\ length m = dim /\ forall j, (j < dim)%nat ->
    (forall x, In x rows -> nth j m 0 <= nth j x 0) /\ exists x, In x rows /\ nth j m 0 = nth j x 0.
Proof.
  intros N F. destruct rows as [|r rows]; [congruence|]. inversion F; subst. cbn [amin0]. eexists; split; [reflexivity|].
  apply (fold_bound Rmin (fun x y => y <= x)); auto; try (intros; lra).
  - intros; apply Rmin_l. - intros; apply Rmin_r. - intros x y; unfold Rmin; destruct Rle_dec; auto.
Qed.
Lemma vmax_el_ok dim el : Forall (fun x => length x = dim) el ->
  length (vmax_el dim el) = dim /\ forall j v, (j < dim)%nat -> In v el -> nth j v 0 <= nth j (vmax_el dim el) 0.
Proof.
  unfold vmax_el. intros F.
  enough (H : forall el acc, Forall (fun x => length x = dim) el -> length acc = dim ->
    length (fold_left (fun acc v => map2 Rmax v acc) el acc) = dim /\ forall j v, (j < dim)%nat -> v = acc \/ In v el -> nth j v 0 <= nth j (fold_left (fun acc v => map2 Rmax v acc) el acc) 0).
  { destruct (H el (repeat (-10000) dim) F (repeat_length _ _)) as [L B]. split; auto. }
  clear. induction el as [|x el IH]; intros acc F A; cbn; [split; auto; intros j v J [ -> |[]]; lra|].
  inversion F; subst. assert (L : length (map2 Rmax x acc) = length acc) by (rewrite map2_length; lia).
  destruct (IH _ H2 L) as [L2 B]. split; auto. intros j v J [ -> |[ <- |I]].
  - eapply Rle_trans; [|apply B; auto]. rewrite map2_nth by lia. apply Rmax_r.
  - eapply Rle_trans; [|apply B; auto]. rewrite map2_nth by lia. apply Rmax_l.
  - apply B; auto.
Qed.
Lemma vmin_el_ok dim el : Forall (fun x => length x = dim) el ->
  length (vmin_el dim el) = dim /\ forall j v, (j < dim)%nat -> In v el -> nth j (vmin_el dim el) 0 <= nth j v 0.
Proof.
  unfold vmin_el. intros F.
  enough (H : forall el acc, Forall (fun x => length x = dim) el -> length acc = dim ->
    length (fold_left (fun acc v => map2 Rmin v acc) el acc) = dim /\ forall j v, (j < dim)%nat -> v = acc \/ In v el -> nth j (fold_left (fun acc v => map2 Rmin v acc) el acc) 0 <= nth j v 0).
  { destruct (H el (repeat 10000 dim) F (repeat_length _ _)) as [L B]. split; auto. }
  clear. induction el as [|x el IH]; intros acc F A; cbn; [split; auto; intros j v J [ -> |[]]; lra|].
  inversion F; subst. assert (L : length (map2 Rmin x acc) = length acc) by (rewrite map2_length; lia).
  destruct (IH _ H2 L) as [L2 B]. split; auto. intros j v J [ -> |[ <- |I]].
  - eapply Rle_trans; [apply B; auto|]. rewrite map2_nth by lia. apply Rmin_r.
  - eapply Rle_trans; [apply B; auto|]. rewrite map2_nth by lia. apply Rmin_l.
  - apply B; auto.
Qed.
Lemma argmax_lt l : l <> [] -> (argmax l < length l)%nat.
Proof.
  destruct l as [|x l]; [congruence|]. intros _. cbn [argmax length].
  enough (H : forall l b v i, (b < i)%nat -> (argmax_from b v i l < i + length l)%nat) by (specialize (H l O x 1%nat); lia).
  clear. induction l as [|x l IH]; intros b v i H; cbn; [lia|]. destruct Rlt_dec; [pose proof (IH i x (S i))|pose proof (IH b v (S i))]; lia.
Qed.

Section BuildP.
  Variable argsort : list R -> list nat.
  Hypothesis AS : forall l, Permutation (argsort l) (seq 0 (length l)).
  Variables (dim m : nat) (vminB vmaxB : list vec).
  Hypothesis DP : (0 < dim)%nat.
  Hypothesis Lmin : length vminB = m.
  Hypothesis Lmax : length vmaxB = m.
  Hypothesis Fmin : Forall (fun x => length x = dim) vminB.
  Hypothesis Fmax : Forall (fun x => length x = dim) vmaxB.

  (** exact bounds of the elements in [tris] *)
  Definition box_of (c w : vec) (tris : list nat) : Prop :=
    length c = dim /\ length w = dim /\ forall j, (j < dim)%nat ->
      ((forall e, In e tris -> nth j c 0 - nth j w 0 / 2 <= nth j (nth e vminB []) 0) /\ exists e, In e tris /\ nth j c 0 - nth j w 0 / 2 = nth j (nth e vminB []) 0) /\
      ((forall e, In e tris -> nth j (nth e vmaxB []) 0 <= nth j c 0 + nth j w 0 / 2) /\ exists e, In e tris /\ nth j c 0 + nth j w 0 / 2 = nth j (nth e vmaxB []) 0).

  Lemma Forall_nth_map (B : list vec) tris : length B = m -> Forall (fun x => length x = dim) B -> (forall e, In e tris -> (e < m)%nat) ->
    Forall (fun x => length x = dim) (map (fun e => nth e B []) tris).
  Proof. intros L F V. apply Forall_map, Forall_forall. intros e I. rewrite Forall_forall in F. apply F, nth_In. rewrite L. auto. Qed.

  Lemma box_from tl : tl <> [] -> (forall e, In e tl -> (e < m)%nat) ->
    exists mx mn, amax0 (map (fun e => nth e vmaxB []) tl) = Some mx /\ amin0 (map (fun e => nth e vminB []) tl) = Some mn /\ box_of (center mx mn) (width mx mn) tl.
  Proof.
    intros N V.
    destruct (amax0_ok dim (map (fun e => nth e vmaxB []) tl)) as (mx & E1 & L1 & B1); [destruct tl; cbn; congruence|apply Forall_nth_map; auto|].
    destruct (amin0_ok dim (map (fun e => nth e vminB []) tl)) as (mn & E2 & L2 & B2); [destruct tl; cbn; congruence|apply Forall_nth_map; auto|].
    exists mx, mn. split; auto. split; auto. unfold box_of, center, width.
    rewrite map_length, !map2_length by lia. split; auto. split; auto. intros j J.
    rewrite (nth_indep _ 0 (0.5 * 0)) by (rewrite map_length, map2_length; lia). rewrite (map_nth (fun x => 0.5 * x)), !map2_nth by lia.
    replace (0.5 * (nth j mx 0 + nth j mn 0) - (nth j mx 0 - nth j mn 0) / 2) with (nth j mn 0) by lra.
    replace (0.5 * (nth j mx 0 + nth j mn 0) + (nth j mx 0 - nth j mn 0) / 2) with (nth j mx 0) by lra.
    destruct (B1 j J) as [U1 (x1 & I1 & Q1)]. destruct (B2 j J) as [U2 (x2 & I2 & Q2)].
    apply in_map_iff in I1 as (e1 & <- & I1). apply in_map_iff in I2 as (e2 & <- & I2).
    split; split; [intros e I; apply U2, in_map_iff; eauto|eauto|intros e I; apply U1, in_map_iff; eauto|eauto].
  Qed.

  Lemma mapO_nth {A} (l : list A) idx d : (forall i, In i idx -> (i < length l)%nat) -> mapO (nth_error l) idx = Some (map (fun i => nth i l d) idx).
  Proof. intros H. apply mapO_ok. intros i I. apply nth_error_nth'. auto. Qed.

  Lemma split_ok tris : (2 <= length tris)%nat -> (forall e, In e tris -> (e < m)%nat) ->
    exists bd cl wl tl cr wr tr, split_box argsort vminB vmaxB tris = Ok (bd, (cl, wl, tl), (cr, wr, tr)) /\
      (0 <= bd < Z.of_nat dim)%Z /\ tl <> [] /\ tr <> [] /\ Permutation (tl ++ tr) tris /\ box_of cl wl tl /\ box_of cr wr tr.
  Proof.
    intros N V. unfold split_box. set (n := length tris).
    rewrite (mapO_nth vminB tris []) by (intros; rewrite Lmin; auto). rewrite (mapO_nth vmaxB tris []) by (intros; rewrite Lmax; auto).
    set (vmin := map (fun i => nth i vminB []) tris). set (vmax := map (fun i => nth i vmaxB []) tris).
    assert (TN : tris <> []) by (destruct tris; cbn in N; [lia|congruence]).
    destruct (box_from tris TN V) as (mx & mn & E1 & E2 & B). fold vmax in E1. fold vmin in E2.
    cbn [lift bind]. rewrite E1, E2. cbn [lift bind].
    set (bd := argmax (map2 Rminus mx mn)).
    assert (BD : (bd < dim)%nat).
    { destruct B as (_ & LW & _). unfold width in LW. unfold bd. rewrite <- LW. apply argmax_lt. intros Q. rewrite Q in LW. cbn in LW. lia. }
    assert (LV : length vmin = n /\ length vmax = n) by (unfold vmin, vmax, n; rewrite !map_length; auto). destruct LV as [LV1 LV2].
    rewrite (mapO_ok _ (fun r => nth bd r 0)).
    2: { intros r I. apply nth_error_nth'. unfold vmax in I. apply in_map_iff in I as (e & <- & I). rewrite Forall_forall in Fmax.
         rewrite Fmax; auto. apply nth_In. rewrite Lmax; auto. }
    cbn [lift bind]. set (key := map (fun r => nth bd r 0) vmax). pose proof (AS key) as P. set (sorted := argsort key) in *.
    assert (LK : length key = n) by (unfold key; rewrite map_length; auto). rewrite LK in P.
    assert (LS : length sorted = n) by (rewrite (Permutation_length P), seq_length; auto).
    assert (H2 : (1 <= n / 2 /\ n / 2 < n)%nat).
    { split; [apply Nat.div_le_lower_bound; unfold n; lia|apply Nat.div_lt; unfold n; lia]. }
    set (left := firstn (n / 2) sorted). set (right := firstn (n - n / 2) (skipn (n / 2) sorted)).
    assert (LR : left ++ right = sorted).
    { unfold left, right. rewrite (firstn_all2 (n := n - n / 2)) by (rewrite skipn_length; lia). apply firstn_skipn. }
    assert (SV : forall i, In i sorted -> (i < n)%nat) by (intros i I; apply (Permutation_in _ P), in_seq in I; lia).
    assert (VL : forall i, In i left -> (i < n)%nat) by (intros i I; apply SV; rewrite <- LR; apply in_or_app; auto).
    assert (VR : forall i, In i right -> (i < n)%nat) by (intros i I; apply SV; rewrite <- LR; apply in_or_app; auto).
    assert (LL : length left = (n / 2)%nat) by (unfold left; rewrite firstn_length; lia).
    assert (RL : length right = (n - n / 2)%nat) by (unfold right; rewrite firstn_length, skipn_length; lia).
    rewrite (mapO_nth vmax left []), (mapO_nth vmin left []) by (intros; rewrite ?LV1, ?LV2; auto). cbn [lift bind].
    set (tl := map (fun i => nth i tris O) left). set (tr := map (fun i => nth i tris O) right).
    assert (GM : forall (B : list vec) idx, (forall i, In i idx -> (i < n)%nat) -> map (fun i => nth i (map (fun e => nth e B []) tris) []) idx = map (fun e => nth e B []) (map (fun i => nth i tris O) idx)).
    { intros B' idx VI. rewrite map_map. apply map_ext_in. intros i I.
      rewrite (nth_indep _ [] (nth O B' [])) by (rewrite map_length; apply VI; auto). rewrite (map_nth (fun e => nth e B' [])). reflexivity. }
    unfold vmax, vmin. rewrite !(GM _ left) by auto. fold tl.
    assert (TV : forall idx, (forall i, In i idx -> (i < n)%nat) -> forall e, In e (map (fun i => nth i tris O) idx) -> (e < m)%nat).
    { intros idx VI e I. apply in_map_iff in I as (i & <- & I). apply V, nth_In, VI; auto. }
    destruct (box_from tl) as (mxl & mnl & El1 & El2 & Bl); [unfold tl; destruct left; cbn in *; [lia|congruence]|apply TV; auto|].
    rewrite El1, El2. cbn [lift bind].
    rewrite (mapO_nth (map (fun i => nth i vmaxB []) tris) right []), (mapO_nth (map (fun i => nth i vminB []) tris) right []) by (intros; rewrite map_length; auto).
    cbn [lift bind]. rewrite !(GM _ right) by auto. fold tr.
    destruct (box_from tr) as (mxr & mnr & Er1 & Er2 & Br); [unfold tr; destruct right; cbn in *; [lia|congruence]|apply TV; auto|].
    rewrite Er1, Er2. cbn [lift bind].
    rewrite (mapO_nth tris left O), (mapO_nth tris right O) by auto. cbn [lift bind]. fold tl tr.
    exists (Z.of_nat bd), (center mxl mnl), (width mxl mnl), tl, (center mxr mnr), (width mxr mnr), tr.
    split; [reflexivity|]. split; [lia|]. split; [unfold tl; destruct left; cbn in *; [lia|congruence]|]. split; [unfold tr; destruct right; cbn in *; [lia|congruence]|].
    split; [|split; auto]. unfold tl, tr. rewrite <- map_app, LR.
    rewrite (Permutation_map (fun i => nth i tris O) P). 
    replace (map (fun i => nth i tris O) (seq 0 n)) with tris; auto.
    apply nth_ext with (d := O) (d' := O); [rewrite map_length, seq_length; auto|]. intros i I.
    rewrite (nth_indep (map _ _) O (nth O tris O)) by (rewrite map_length, seq_length; auto).
    rewrite (map_nth (fun i => nth i tris O)). rewrite seq_nth by auto. reflexivity.
  Qed.
End BuildP.
