(** subdivisions compose; splitting along several edges subdivides *)
From Coq Require Import Reals Lra Psatz ZArith List Bool Permutation Lia.
From Verif Require Import Vec PyExn NumpyModel UpEnvModel UpEnvProofs.
Import ListNotations.
Open Scope R_scope.

Definition quad (t : tet) : Prop := List.length t = 4%nat.
Lemma quad4 t : quad t -> exists a b c d, t = [a; b; c; d].
Proof. unfold quad. destruct t as [|a [|b [|c [|d [|e t]]]]]; try discriminate. intros _. exists a, b, c, d. reflexivity. Qed.

Lemma mix_within attr s t u : quad s -> quad t -> within attr s t -> weights u -> exists w, weights w /\ forall q, mix u s (attr q) = mix w t (attr q).
Proof.
  intros QS QT W U. destruct (quad4 s QS) as (a & b & c & d & ->). destruct (quad4 t QT) as (x & y & z & o & ->).
  destruct (weights4 u U) as (ua & ub & uc & ud & -> & UA & UB & UC & UD & US).
  destruct (W a ltac:(cbn; tauto)) as (wa & HA & EA). destruct (W b ltac:(cbn; tauto)) as (wb & HB & EB).
  destruct (W c ltac:(cbn; tauto)) as (wc & HC & EC). destruct (W d ltac:(cbn; tauto)) as (wd & HD & ED). clear W.
  apply weights4 in HA, HB, HC, HD.
  destruct HA as (a1 & a2 & a3 & a4 & -> & A1 & A2 & A3 & A4 & A5). destruct HB as (b1 & b2 & b3 & b4 & -> & B1 & B2 & B3 & B4 & B5).
  destruct HC as (c1 & c2 & c3 & c4 & -> & C1 & C2 & C3 & C4 & C5). destruct HD as (d1 & d2 & d3 & d4 & -> & D1 & D2 & D3 & D4 & D5).
  assert (P4 : forall p q r s, 0 <= p -> 0 <= q -> 0 <= r -> 0 <= s -> 0 <= ua * p + ub * q + uc * r + ud * s).
  { intros p q r s HP HQ HR HS. pose proof (Rmult_le_pos _ _ UA HP). pose proof (Rmult_le_pos _ _ UB HQ). pose proof (Rmult_le_pos _ _ UC HR). pose proof (Rmult_le_pos _ _ UD HS). lra. }
  exists [ua * a1 + ub * b1 + uc * c1 + ud * d1; ua * a2 + ub * b2 + uc * c2 + ud * d2; ua * a3 + ub * b3 + uc * c3 + ud * d3; ua * a4 + ub * b4 + uc * c4 + ud * d4].
  split.
  - apply mk_weights; [apply P4; assumption|apply P4; assumption|apply P4; assumption|apply P4; assumption|].
    transitivity (ua * (a1 + a2 + a3 + a4) + ub * (b1 + b2 + b3 + b4) + uc * (c1 + c2 + c3 + c4) + ud * (d1 + d2 + d3 + d4)); [ring|]. rewrite A5, B5, C5, D5. lra.
  - intro q. unfold mix in *. cbn [map dotl] in *. rewrite (EA q), (EB q), (EC q), (ED q). ring.
Qed.
Lemma within_trans attr r s t : quad s -> quad t -> within attr r s -> within attr s t -> within attr r t.
Proof.
  intros QS QT A B v I. destruct (A v I) as (u & U & E). destruct (mix_within attr s t u QS QT B U) as (w & W & E2). exists w. split; [exact W|]. intro q. rewrite E. apply E2.
Qed.
Lemma within_refl attr t : quad t -> within attr t t.
Proof.
  intro Q. destruct (quad4 t Q) as (a & b & c & d & ->).
  intros u [<-|[<-|[<-|[<-|[]]]]]; [exists [1; 0; 0; 0]|exists [0; 1; 0; 0]|exists [0; 0; 1; 0]|exists [0; 0; 0; 1]]; (split; [apply mk_weights; lra|intro q; unfold mix; cbn [map dotl]; ring]).
Qed.
Lemma total_app attr g h : total attr (g ++ h) = total attr g + total attr h.
Proof. unfold total. induction g as [|s g IH]; cbn [app fold_right]; [ring|]. rewrite IH. ring. Qed.
Lemma total_perm attr g h : Permutation g h -> total attr g = total attr h.
Proof. unfold total. induction 1; cbn [fold_right] in *; lra. Qed.
Lemma subdivides_refl attr t : quad t -> subdivides attr t [t].
Proof.
  intro Q. split.
  - cbn [total fold_right]. ring.
  - apply Forall_cons; [apply within_refl, Q|apply Forall_nil].
  - intros w W. exists t, w. repeat split; try apply W; left; reflexivity.
Qed.
Lemma subdivides_trans attr t g hs : quad t -> Forall quad g -> subdivides attr t g -> Forall2 (subdivides attr) g hs -> subdivides attr t (concat hs).
Proof.
  intros QT QG [SV SI SC] F. split.
  - rewrite <- SV. clear SV SI SC QG. induction F as [|s h g hs H F IH]; [reflexivity|]. cbn [concat]. rewrite total_app, IH, (sub_vol _ _ _ H). reflexivity.
  - clear SV SC. induction F as [|s h g hs H F IH]; [apply Forall_nil|]. cbn [concat]. apply Forall_app. inversion QG; subst. inversion SI; subst. split; [|apply IH; assumption].
    eapply Forall_impl; [|exact (sub_in _ _ _ H)]. cbn beta. intros r W. eapply within_trans; [| |exact W|]; assumption.
  - intros w W. destruct (SC w W) as (s & w' & I & W' & E). assert (K : exists h, In h hs /\ subdivides attr s h).
    { clear - F I. induction F as [|s' h g hs H F IH]; [destruct I|]. destruct I as [->|I]; [exists h; split; [left; reflexivity|exact H]|]. destruct (IH I) as (h' & J & K). exists h'. split; [right; exact J|exact K]. }
    destruct K as (h & J & K). destruct (sub_cov _ _ _ K w' W') as (r & w2 & I2 & W2 & E2). exists r, w2. split; [|split; [exact W2|]].
    + apply in_concat. exists h. auto.
    + intro q. rewrite E. apply E2.
Qed.
Lemma subdivides_swap attr a b c d : subdivides attr [a; b; c; d] [[a; b; d; c]].
Proof.
  split.
  - cbn [total fold_right vol3]. rewrite Rplus_0_r. rewrite <- Rabs_Ropp. f_equal. field.
  - apply Forall_cons; [|apply Forall_nil]. intros v I. apply within_refl; [reflexivity|]. cbn in *. tauto.
  - intros w W. destruct (weights4 w W) as (p & q & r & s & -> & A & B & C & D & S). exists [a; b; d; c], [p; q; s; r]. split; [left; reflexivity|].
    split; [apply mk_weights; lra|]. intro k. unfold mix. cbn [map dotl]. ring.
Qed.
Lemma subdivides_ext attr attr' t g : (forall q v, In v t \/ (exists s, In s g /\ In v s) -> attr q v = attr' q v) -> quad t -> Forall quad g -> subdivides attr t g -> subdivides attr' t g.
Proof.
  intros E QT QG [SV SI SC]. rewrite Forall_forall in QG.
  assert (V : forall s, quad s -> (forall q v, In v s -> attr q v = attr' q v) -> vol3 attr s = vol3 attr' s).
  { intros s Q H. destruct (quad4 s Q) as (a & b & c & d & ->). cbn [vol3].
    rewrite (H 0%nat a), (H 0%nat b), (H 0%nat c), (H 0%nat d), (H 1%nat a), (H 1%nat b), (H 1%nat c), (H 1%nat d), (H 2%nat a), (H 2%nat b), (H 2%nat c), (H 2%nat d) by (cbn; tauto). reflexivity. }
  assert (M : forall w s, (forall q v, In v s -> attr q v = attr' q v) -> forall q, mix w s (attr q) = mix w s (attr' q)).
  { intros w s H q. unfold mix. f_equal. apply map_ext_in. intros v I. apply H, I. }
  split.
  - rewrite <- (V t QT) by (intros; apply E; left; assumption). rewrite <- SV. clear SV SI SC.
    assert (K : forall s, In s g -> vol3 attr s = vol3 attr' s) by (intros s I; apply V; [apply QG, I|intros q v J; apply E; right; exists s; auto]).
    clear E QG. induction g as [|s g IH]; [reflexivity|]. unfold total in *. cbn [fold_right]. rewrite IH by (intros; apply K; right; assumption). rewrite (K s) by (left; reflexivity). reflexivity.
  - rewrite Forall_forall in *. intros s I v J. destruct (SI s I v J) as (w & W & EQ). exists w. split; [exact W|]. intro q. rewrite <- E by (right; exists s; auto). rewrite EQ. apply M. intros; apply E; left; assumption.
  - intros w W. destruct (SC w W) as (s & w' & I & W' & EQ). exists s, w'. repeat split; try assumption; try apply W'. intro q. rewrite <- (M w t) by (intros; apply E; left; assumption). rewrite EQ. apply M. intros; apply E; right; exists s; auto.
Qed.

(** ** splitting along several edges *)
Definition good (attr : nat -> nat -> R) (ev : (nat * nat) * nat) : Prop :=
  fst (fst ev) <> snd (fst ev) /\ exists mu, 0 < mu < 1 /\ forall q, attr q (snd ev) = (1 - mu) * attr q (fst (fst ev)) + mu * attr q (snd (fst ev)).
Definition solid (attr : nat -> nat -> R) (t : tet) : Prop := quad t /\ vol3 attr t <> 0.
Lemma split_one attr (P : nat -> Prop) c ev : solid attr c -> Forall P c -> good attr ev -> P (snd ev) ->
  let g := if contains c (fst ev) then split_2_edge c (fst ev) (snd ev) else [c] in subdivides attr c g /\ Forall (solid attr) g /\ Forall (Forall P) g.
Proof.
  intros [Q NV] PC (NE & mu & M & E) PV. cbv zeta. destruct (contains c (fst ev)) eqn:CT.
  - apply contains_in in CT. destruct CT as [I1 I2]. destruct (quad4 c Q) as (a & b & c' & d & ->). destruct ev as [[x y] v]. cbn [fst snd] in *.
    destruct (vol3_distinct _ _ _ _ _ NV) as (N1 & N2 & N3 & N4 & N5 & N6).
    destruct (keep_position a b c' d x y N1 N2 N3 N4 N5 N6 I1 I2 NE) as (o & p & K & POS).
    unfold split_2_edge. rewrite K. cbn [fst snd nth]. 
    assert (IO : In o [a; b; c'; d] /\ In p [a; b; c'; d]).
    { destruct POS as [H|[H|[H|[H|[H|[H|[H|[H|[H|[H|[H|H]]]]]]]]]]]; injection H as -> -> -> ->; cbn; tauto. }
    destruct IO as [IO IP]. rewrite Forall_forall in PC.
    split; [exact (split_subdivides attr a b c' d x y o p v mu POS M E)|].
    pose proof (split_vol attr a b c' d x y o p v mu POS M E) as [V1 V2].
    assert (VP : 0 < Rabs (vol3 attr [a; b; c'; d])) by (apply Rabs_pos_lt, NV).
    split.
    + apply Forall_cons; [|apply Forall_cons; [|apply Forall_nil]]; (split; [reflexivity|]); intro Z.
      * rewrite Z, Rabs_R0 in V1. assert (0 < mu * Rabs (vol3 attr [a; b; c'; d])) by (apply Rmult_lt_0_compat; lra). lra.
      * rewrite Z, Rabs_R0 in V2. assert (0 < (1 - mu) * Rabs (vol3 attr [a; b; c'; d])) by (apply Rmult_lt_0_compat; lra). lra.
    + repeat (apply Forall_cons || apply Forall_nil); auto.
  - split; [apply subdivides_refl, Q|]. split; (apply Forall_cons; [|apply Forall_nil]); [split|]; assumption.
Qed.
Lemma solid_quad attr g : Forall (solid attr) g -> Forall quad g.
Proof. apply Forall_impl. intros t [Q _]. exact Q. Qed.
Lemma split_round attr (P : nat -> Prop) ev ts : Forall (solid attr) ts -> Forall (Forall P) ts -> good attr ev -> P (snd ev) ->
  let f := fun c => if contains c (fst ev) then split_2_edge c (fst ev) (snd ev) else [c] in
  Forall2 (subdivides attr) ts (map f ts) /\ Forall (solid attr) (flat_map f ts) /\ Forall (Forall P) (flat_map f ts).
Proof.
  intros S PT G PV. cbv zeta. induction ts as [|c ts IH]; [repeat split; constructor|]. inversion S; subst. inversion PT; subst.
  destruct (split_one attr P c ev ltac:(assumption) ltac:(assumption) G PV) as (A & B & C). destruct (IH ltac:(assumption) ltac:(assumption)) as (A' & B' & C').
  cbn [map flat_map]. split; [constructor; assumption|]. split; apply Forall_app; split; assumption.
Qed.
Lemma split_array attr (P : nat -> Prop) t evs : solid attr t -> Forall P t -> Forall (good attr) evs -> Forall (fun ev => P (snd ev)) evs ->
  subdivides attr t (split_2_edge_array t evs) /\ Forall (solid attr) (split_2_edge_array t evs) /\ Forall (Forall P) (split_2_edge_array t evs).
Proof.
  intros S PT G PV. unfold split_2_edge_array.
  assert (K : forall ts, subdivides attr t ts -> Forall (solid attr) ts -> Forall (Forall P) ts ->
    let r := fold_left (fun ts ev => flat_map (fun c => if contains c (fst ev) then split_2_edge c (fst ev) (snd ev) else [c]) ts) evs ts in
    subdivides attr t r /\ Forall (solid attr) r /\ Forall (Forall P) r).
  { induction evs as [|ev evs IH]; intros ts A B C; cbn [fold_left]; cbv zeta; [auto|]. inversion G; subst. inversion PV; subst.
    destruct (split_round attr P ev ts B C ltac:(assumption) ltac:(assumption)) as (X & Y & Z). cbv zeta in IH. apply IH; try assumption.
    rewrite flat_map_concat_map. eapply subdivides_trans; [apply S|eapply solid_quad; exact B|exact A|exact X]. }
  apply K; [apply subdivides_refl, S| |]; (apply Forall_cons; [assumption|apply Forall_nil]).
Qed.

(** ** tilings *)
Definition tiling (attr : nat -> nat -> R) (T P : list tet) : Prop := exists gs, Permutation (concat gs) P /\ Forall2 (subdivides attr) T gs.
Lemma tiling_refl attr T : Forall quad T -> tiling attr T T.
Proof.
  intro Q. exists (map (fun t => [t]) T). split.
  - clear Q. induction T as [|t T IH]; [apply perm_nil|]. cbn. apply perm_skip, IH.
  - induction Q as [|t T QT Q IH]; cbn; constructor; [apply subdivides_refl, QT|exact IH].
Qed.
Lemma tiling_perm attr T P P' : Permutation P P' -> tiling attr T P -> tiling attr T P'.
Proof. intros E (gs & A & B). exists gs. split; [eapply Permutation_trans; eassumption|exact B]. Qed.
Lemma Forall2_refl_single attr g : Forall quad g -> Forall2 (subdivides attr) g (map (fun s => [s]) g).
Proof. induction 1; cbn; constructor; [apply subdivides_refl|]; assumption. Qed.
Lemma concat_singles {A} (g : list A) : concat (map (fun s => [s]) g) = g.
Proof. induction g; cbn; congruence. Qed.
Lemma tiling_step attr T s P h : Forall quad T -> Forall quad (s :: P) -> tiling attr T (s :: P) -> subdivides attr s h -> tiling attr T (h ++ P).
Proof.
  intros QT QP (gs & A & B) S.
  assert (QG : Forall quad (concat gs)) by (rewrite Forall_forall in *; intros x I; apply QP; eapply Permutation_in; eassumption).
  assert (I : In s (concat gs)) by (eapply Permutation_in; [apply Permutation_sym, A|left; reflexivity]).
  apply in_concat in I. destruct I as (g & IG & IS). apply in_split in IG. destruct IG as (g1 & g2 & ->). apply in_split in IS. destruct IS as (k1 & k2 & ->).
  exists (g1 ++ (k1 ++ h ++ k2) :: g2). split.
  - rewrite concat_app in *. cbn [concat] in *.
    assert (PP : Permutation P (concat g1 ++ k1 ++ k2 ++ concat g2)).
    { apply Permutation_cons_inv with s. rewrite <- A. rewrite <- !app_assoc. cbn [app].
      rewrite (Permutation_middle (concat g1)). apply Permutation_app_head. apply Permutation_sym, (Permutation_middle k1 (k2 ++ concat g2) s). }
    rewrite PP. rewrite <- !app_assoc. rewrite (app_assoc h). rewrite (Permutation_app_comm (concat g1)). rewrite <- !app_assoc.
    rewrite (Permutation_app_comm k1). rewrite <- !app_assoc. apply Permutation_app_head.
    rewrite !app_assoc. rewrite (Permutation_app_comm ((k2 ++ concat g2) ++ concat g1)).
    rewrite (Permutation_app_comm (concat g1)). rewrite <- !app_assoc. rewrite (Permutation_app_comm (concat g1)). rewrite <- !app_assoc. reflexivity.
  - rewrite concat_app in QG. cbn [concat] in QG. rewrite !Forall_app in QG. destruct QG as (_ & [Q1 Q2] & _). inversion Q2; subst.
    apply Forall2_app_inv_r in B. destruct B as (T1 & T2' & F1 & F2 & ->). inversion F2 as [|t g T2 g2' ST F3]; subst. apply Forall2_app; [exact F1|]. constructor; [|exact F3].
    assert (E : k1 ++ h ++ k2 = concat (map (fun s => [s]) k1 ++ [h] ++ map (fun s => [s]) k2)) by (rewrite !concat_app, !concat_singles; cbn; rewrite app_nil_r; reflexivity).
    rewrite E. eapply subdivides_trans; [| |exact ST|].
    + rewrite Forall_app in QT. destruct QT as [_ QT]. inversion QT; assumption.
    + apply Forall_app; split; assumption.
    + apply Forall2_app; [apply Forall2_refl_single; assumption|]. constructor; [exact S|apply Forall2_refl_single; assumption].
Qed.
Lemma tiling_ext attr attr' (bound : nat -> Prop) T P : (forall q v, bound v -> attr q v = attr' q v) -> Forall quad T -> Forall quad P -> Forall (Forall bound) T -> Forall (Forall bound) P ->
  tiling attr T P -> tiling attr' T P.
Proof.
  intros E QT QP BT BP (gs & A & B). exists gs. split; [exact A|].
  assert (QG : Forall quad (concat gs) /\ Forall (Forall bound) (concat gs)).
  { split; rewrite Forall_forall in *; intros x I; [apply QP|apply BP]; eapply Permutation_in; eassumption. }
  destruct QG as [QG BG]. clear A QP BP. induction B as [|t g T gs S F IH]; constructor.
  - cbn [concat] in QG, BG. apply Forall_app in QG, BG. inversion QT; subst. inversion BT; subst. eapply subdivides_ext; [| | |exact S]; try assumption; try apply QG.
    intros q v [I|(s & I & J)]; apply E; [rewrite Forall_forall in *; auto|]. destruct BG as [BG _]. rewrite Forall_forall in BG. specialize (BG s I). rewrite Forall_forall in BG. apply BG, J.
  - cbn [concat] in QG, BG. apply Forall_app in QG, BG. inversion QT; subst. inversion BT; subst. apply IH; tauto.
Qed.
Lemma tiling_total attr T P : tiling attr T P -> total attr P = total attr T.
Proof. intros (gs & A & B). rewrite <- (total_perm _ _ _ A). clear A. induction B as [|t g T gs S F IH]; [reflexivity|]. cbn [concat]. rewrite total_app, IH, (sub_vol _ _ _ S). reflexivity. Qed.
Lemma tiling_within attr T P s : tiling attr T P -> In s P -> exists t, In t T /\ within attr s t.
Proof.
  intros (gs & A & B) I. eapply Permutation_in in I; [|apply Permutation_sym, A]. clear A. induction B as [|t g T gs S F IH]; [destruct I|].
  cbn [concat] in I. apply in_app_or in I. destruct I as [I|I].
  - exists t. split; [left; reflexivity|]. pose proof (sub_in _ _ _ S) as K. rewrite Forall_forall in K. apply K, I.
  - destruct (IH I) as (t' & J & W). exists t'. split; [right; exact J|exact W].
Qed.
Lemma tiling_covers attr T P t : tiling attr T P -> In t T -> forall w, weights w -> exists s w', In s P /\ weights w' /\ forall q, mix w t (attr q) = mix w' s (attr q).
Proof.
  intros (gs & A & B) I w W. assert (K : exists g, In g gs /\ subdivides attr t g).
  { clear A. induction B as [|t' g T gs S F IH]; [destruct I|]. destruct I as [->|I]; [exists g; split; [left; reflexivity|exact S]|]. destruct (IH I) as (g' & J & K). exists g'. split; [right; exact J|exact K]. }
  destruct K as (g & J & S). destruct (sub_cov _ _ _ S w W) as (s & w' & IS & W' & E). exists s, w'. split; [|auto]. eapply Permutation_in; [exact A|]. apply in_concat. exists g. auto.
Qed.
