(** * C80: the upper envelope subdivides the mesh by the largest material *)
From Coq Require Import Reals Lra Psatz ZArith List Bool Permutation Lia.
From Verif Require Import Vec PyExn NumpyModel UpEnvModel UpEnvProofs UpEnv2Proofs UpEnv3Proofs.
Import ListNotations.
Open Scope R_scope.

(** ** Specification: points of a tetrahedron by barycentric weights, the labels interpolated there, signed volumes *)
Definition place (V : list vec3) (w : list R) (t : tet) : vec3 := fold_right (fun p r => add3 (scal3 (fst p) (nth (snd p) V zero3)) r) zero3 (combine w t).
Definition label (D : list (list R)) (w : list R) (t : tet) (j : nat) : R := fold_right (fun p r => fst p * nth j (nth (snd p) D []) 0 + r) 0 (combine w t).
Definition bary (w : list R) : Prop := List.length w = 4%nat /\ (forall x, In x w -> 0 <= x) /\ fold_right Rplus 0 w = 1.
Definition tvol (V : list vec3) (t : tet) : R := match map (fun v => nth v V zero3) t with [a; b; c; d] => dot3 (sub3 b a) (cross3 (sub3 c a) (sub3 d a)) / 6 | _ => 0 end.
Definition volumes (V : list vec3) (G : list tet) : R := fold_right (fun t r => tvol V t + r) 0 G.
Definition proper (V : list vec3) (t : tet) : Prop := List.length t = 4%nat /\ (forall v, In v t -> (v < List.length V)%nat) /\ 0 < tvol V t.
Definition tet_mesh (V : list vec3) (T : list tet) (D : list (list R)) (k : nat) : Prop :=
  List.length D = List.length V /\ (forall d, In d D -> List.length d = k) /\ (forall t, In t T -> proper V t).
(** t carries the label of m alone, lies in one input tetrahedron, and nowhere on it is another material larger by the tolerance *)
Definition labelled (V : list vec3) (T : list tet) (D : list (list R)) (k : nat) (U : list vec3) (t : tet) (l : list bool) : Prop :=
  proper U t /\ exists m, (m < k)%nat /\ List.length l = k /\ (forall j, nth j l false = true <-> j = m) /\
  exists s, In s T /\ forall w, bary w -> exists w', bary w' /\ place U w t = place V w' s /\ forall j, (j < k)%nat -> label D w' s j < label D w' s m + 1 / 100000.

Lemma bary_weights w : bary w <-> weights w.
Proof.
  unfold bary, weights. rewrite Forall_forall. split; intros (L & A & B); split; try exact L; split; try exact A;
    destruct w as [|a [|b [|c [|d [|e w]]]]]; try discriminate L; cbn in *; lra.
Qed.
Lemma tvol_vol3 V D t : tvol V t = vol3 (attr_of V D) t.
Proof. unfold tvol. destruct t as [|a [|b [|c [|d [|e t]]]]]; reflexivity. Qed.
Lemma volumes_total V D G : (forall t, In t G -> 0 < tvol V t) -> volumes V G = total (attr_of V D) G.
Proof.
  unfold volumes, total. induction G as [|t G IH]; intro P; cbn [fold_right]; [reflexivity|]. rewrite IH by (intros; apply P; right; assumption).
  pose proof (P t (or_introl eq_refl)) as H. rewrite <- tvol_vol3, Rabs_right by lra. reflexivity.
Qed.
Lemma place_mix V D w t : weights w -> quad t -> place V w t = (mix w t (attr_of V D 0), mix w t (attr_of V D 1), mix w t (attr_of V D 2)).
Proof.
  intros W Q. apply weights4 in W. destruct W as (a & b & c & d & -> & _). destruct (quad4 t Q) as (x & y & z & o & ->).
  apply vec3_eq; unfold place, mix, attr_of, add3, scal3, zero3; cbn [combine fold_right fst snd X Y Zc map dotl]; unfold X, Y, Zc; cbn [fst snd]; ring.
Qed.
Lemma label_mix V D w t j : weights w -> quad t -> label D w t j = mix w t (attr_of V D (3 + j)).
Proof.
  intros W Q. apply weights4 in W. destruct W as (a & b & c & d & -> & _). destruct (quad4 t Q) as (x & y & z & o & ->).
  unfold label, mix. cbn [Nat.add attr_of combine fold_right fst snd map dotl]. reflexivity.
Qed.
Lemma mix_lt w t f g : weights w -> quad t -> (forall v, In v t -> f v < g v + thr) -> mix w t f < mix w t g + thr.
Proof.
  intros W Q H. apply weights4 in W. destruct W as (a & b & c & d & -> & A & B & C & D & S). destruct (quad4 t Q) as (x & y & z & o & ->). unfold mix. cbn [map dotl].
  pose proof (H x ltac:(cbn; tauto)) as HX. pose proof (H y ltac:(cbn; tauto)) as HY. pose proof (H z ltac:(cbn; tauto)) as HZ. pose proof (H o ltac:(cbn; tauto)) as HO.
  set (m := Rmax (Rmax (f x - g x) (f y - g y)) (Rmax (f z - g z) (f o - g o))).
  assert (M : m < thr) by (unfold m; repeat apply Rmax_lub_lt; lra).
  assert (M1 : f x - g x <= m) by (unfold m; eapply Rle_trans; [apply Rmax_l|apply Rmax_l]).
  assert (M2 : f y - g y <= m) by (unfold m; eapply Rle_trans; [apply Rmax_r|apply Rmax_l]).
  assert (M3 : f z - g z <= m) by (unfold m; eapply Rle_trans; [apply Rmax_l|apply Rmax_r]).
  assert (M4 : f o - g o <= m) by (unfold m; eapply Rle_trans; [apply Rmax_r|apply Rmax_r]).
  pose proof (Rmult_le_compat_l _ _ _ A M1). pose proof (Rmult_le_compat_l _ _ _ B M2). pose proof (Rmult_le_compat_l _ _ _ C M3). pose proof (Rmult_le_compat_l _ _ _ D M4).
  assert (E : a * m + b * m + c * m + d * m = m) by (rewrite <- (Rmult_1_l m) at 5; rewrite <- S; ring). lra.
Qed.
Lemma one_hot_length k m : List.length (one_hot k m) = k.
Proof. unfold one_hot. rewrite map_length, seq_length. reflexivity. Qed.
Lemma one_hot_nth k m j : (m < k)%nat -> nth j (one_hot k m) false = true <-> j = m.
Proof.
  intro M. destruct (Nat.lt_ge_cases j k) as [J|J].
  - unfold one_hot. rewrite nth_indep with (d' := Nat.eqb m 0) by (rewrite map_length, seq_length; exact J). rewrite map_nth, seq_nth by exact J. cbn. rewrite Nat.eqb_eq. split; congruence.
  - rewrite nth_overflow by (rewrite one_hot_length; exact J). split; [discriminate|lia].
Qed.

(** ** what the loop delivers *)
Lemma run V T D k U G L : tet_mesh V T D k -> upper_envelope V T D k = Ok (U, G, L) ->
  exists st c l fs z, U = sV st /\ G = firstn (List.length c) (zero_tet :: c) /\ L = firstn (List.length l) (repeat false k :: l) /\
    inv T k {| sV := V; sD := D; capV := List.length V; sF := T; sL := []; idxF := List.length T |} c st fs z /\ Forall2 (sound k st) c l.
Proof.
  intros (LD & WD & FT) H. unfold upper_envelope in H. bind_step H. rename a into l0.
  destruct (Nat.eqb (List.length T) 0 && negb (Nat.eqb k 0)); [discriminate H|]. bind_step H. destruct a as [[st cf] cl]. injection H as <- <- <-.
  set (s0 := {| sV := V; sD := D; capV := List.length V; sF := T; sL := []; idxF := List.length T |}).
  set (s1 := {| sV := V; sD := D; capV := List.length V; sF := T; sL := l0; idxF := List.length T |}) in *.
  assert (SH : shape k s0) by (split; [exact LD|rewrite Forall_forall; exact WD]).
  assert (FN : Forall (fine s0) T).
  { rewrite Forall_forall. intros t I. destruct (FT t I) as (Q & B & P). split; [exact Q|]. split; [rewrite (tvol_vol3 V D) in P; exact P|]. unfold below. rewrite Forall_forall. exact B. }
  assert (I1 : inv T k s0 [] s1 T 0).
  { split; cbn [s1 sV sD sF sL].
    - exists [], []. cbn. rewrite !app_nil_r. auto.
    - exact SH.
    - cbn. rewrite app_nil_r. reflexivity.
    - apply mapE_ok in E. rewrite <- (F2_length E). reflexivity.
    - rewrite app_nil_r. exact FN.
    - rewrite app_nil_r. apply tiling_refl. eapply Forall_impl; [|exact FN]. intros t Q. apply Q. }
  destruct (materials_ok T k s0 (List.length V) (List.length T) SH FN (seq 0 k) s1 [] [] st cf cl T 0) as (c & l & fs & z & EC & EL & I2 & SO).
  { rewrite Forall_forall. intros m I. apply in_seq in I. lia. } { exact I1. } { left. reflexivity. } { constructor. } { exact E0. }
  exists st, c, l, fs, z. subst cf cl. cbn [List.length]. replace (S (List.length c) - 1)%nat with (List.length c) by lia. replace (S (List.length l) - 1)%nat with (List.length l) by lia. auto.
Qed.
Lemma firstn_shift {A} (x : A) (c : list A) : (c = [] /\ firstn (List.length c) (x :: c) = []) \/ exists b y, c = b ++ [y] /\ firstn (List.length c) (x :: c) = x :: b.
Proof.
  destruct c as [|a c]; [left; auto|right]. destruct (exists_last (l := a :: c)) as (b & y & E); [discriminate|]. exists b, y. split; [exact E|].
  rewrite E, app_length. cbn [List.length]. rewrite Nat.add_1_r. cbn [firstn]. rewrite firstn_app, firstn_all, Nat.sub_diag. cbn. rewrite app_nil_r. reflexivity.
Qed.

Lemma Forall2_imp_in {A B} (P Q : A -> B -> Prop) c l : Forall2 P c l -> (forall t r, In t c -> P t r -> Q t r) -> Forall2 Q c l.
Proof. induction 1 as [|t r c l H F IH]; intro K; constructor; [apply K; [left; reflexivity|exact H]|]. apply IH. intros t' r' I. apply K. right. exact I. Qed.
Lemma volumes_app V a b : volumes V (a ++ b) = volumes V a + volumes V b.
Proof. unfold volumes. induction a as [|t a IH]; cbn [app fold_right]; [ring|]. rewrite IH. ring. Qed.
Lemma volumes_perm V a b : Permutation a b -> volumes V a = volumes V b.
Proof. unfold volumes. induction 1; cbn [fold_right] in *; lra. Qed.

(** If the call returns, the vertices extend the given ones; after a first row (0,0,0,0) with no label, every tetrahedron is positively oriented, lies in an input tetrahedron,
    carries one label, and that material is the largest up to 1e-5 at every point of it; and together with some left-out pieces the tetrahedra tile the input. *)
Theorem C80_partial V T D k U G L : tet_mesh V T D k -> T <> [] -> upper_envelope V T D k = Ok (U, G, L) ->
  firstn (List.length V) U = V /\
  (G = [] /\ L = [] \/ hd [] G = [0; 0; 0; 0]%nat /\ hd [] L = repeat false k) /\
  Forall2 (labelled V T D k U) (tl G) (tl L) /\
  exists rest, rest <> [] /\ (forall t, In t rest -> proper U t) /\ volumes U (tl G) + volumes U rest = volumes V T /\
    forall s w, In s T -> bary w -> exists t w', (In t (tl G) \/ In t rest) /\ bary w' /\ place V w s = place U w' t.
Proof.
  intros M NT H. destruct (run V T D k U G L M H) as (st & c & l & fs & z & EU & EG & EL & I & SO). destruct M as (LD & WD & FT).
  pose proof I as [(A & B & EV & ED) [SL SW] F1 L1 FN TL]. cbn [sV sD] in EV, ED.
  assert (KE : forall q v, (v < List.length V)%nat -> at_st st q v = attr_of V D q v) by (intros q v HV; unfold at_st; rewrite EV, ED; apply attr_app; assumption).
  assert (QT : forall t, In t T -> quad t) by (intros t HT; exact (proj1 (FT t HT))).
  assert (MT : forall s w q, In s T -> weights w -> mix w s (at_st st q) = mix w s (attr_of V D q)).
  { intros s w q HS _. unfold mix. f_equal. apply map_ext_in. intros v HV. apply KE. exact (proj1 (proj2 (FT s HS)) v HV). }
  assert (PT : forall s w, In s T -> weights w -> place V w s = (mix w s (at_st st 0), mix w s (at_st st 1), mix w s (at_st st 2))).
  { intros s w HS W. rewrite !MT by assumption. apply place_mix; auto. }
  assert (FP : forall t, In t (fs ++ c) -> proper U t).
  { intros t HT. rewrite Forall_forall in FN. destruct (FN t HT) as (Q & P & BL). unfold below in BL. rewrite Forall_forall in BL. subst U. split; [exact Q|]. split; [exact BL|]. rewrite (tvol_vol3 _ (sD st)). exact P. }
  assert (LAB : Forall2 (labelled V T D k U) c l).
  { eapply Forall2_imp_in; [exact SO|]. intros t r IC (m & MK & -> & SM). assert (HT : In t (fs ++ c)) by (apply in_or_app; right; exact IC).
    split; [apply FP, HT|]. exists m. split; [exact MK|]. split; [apply one_hot_length|]. split; [intro j; apply one_hot_nth, MK|].
    destruct (tiling_within _ _ _ _ TL HT) as (s & IS & WI). exists s. split; [exact IS|]. intros w W. apply bary_weights in W.
    assert (Q : quad t) by exact (proj1 (FP t HT)).
    destruct (mix_within _ t s w Q (QT s IS) WI W) as (w' & W' & EQ). exists w'. split; [apply bary_weights, W'|]. split.
    - rewrite (PT s w' IS W'), <- !EQ. subst U. apply place_mix; assumption.
    - intros j J. rewrite !(label_mix V) by auto. rewrite <- !MT by assumption. rewrite <- !EQ. 
      assert (HL : mix w t (at_st st (3 + j)) < mix w t (at_st st (3 + m)) + thr) by (apply mix_lt; [exact W|exact Q|]; intros v IV; apply SM; assumption). unfold thr in HL. lra. }
  assert (VT : volumes U (fs ++ c) = volumes V T).
  { rewrite (volumes_total U (sD st)) by (intros t HT; exact (proj2 (proj2 (FP t HT)))). rewrite (volumes_total V D) by (intros t HT; exact (proj2 (proj2 (FT t HT)))).
    subst U. fold (at_st st). rewrite (tiling_total _ _ _ TL). clear - KE FT. unfold total. induction T as [|t T IH]; cbn [fold_right]; [reflexivity|].
    rewrite IH by (intros; apply FT; right; assumption). f_equal. f_equal. apply vol3_ext. intros q v HV. apply KE. apply (proj1 (proj2 (FT t (or_introl eq_refl)))), HV. }
  assert (CV : forall s w, In s T -> bary w -> exists t w', In t (fs ++ c) /\ bary w' /\ place V w s = place U w' t).
  { intros s w IS W. apply bary_weights in W. destruct (tiling_covers _ _ _ s TL IS w W) as (t & w' & IT & W' & EQ). exists t, w'. split; [exact IT|]. split; [apply bary_weights, W'|].
    rewrite (PT s w IS W), !EQ. symmetry. subst U. apply place_mix; [exact W'|exact (proj1 (FP t IT))]. }
  split; [subst U; rewrite EV, firstn_app, firstn_all, Nat.sub_diag; cbn; apply app_nil_r|].
  pose proof (F2_length LAB) as LL.
  destruct (firstn_shift zero_tet c) as [[C0 C1]|(b & y & C0 & C1)]; destruct (firstn_shift (repeat false k) l) as [[K0 K1]|(b' & y' & K0 & K1)]; rewrite C0, K0 in LL;
    try (rewrite ?app_length in LL; cbn in LL; lia); rewrite C1 in EG; rewrite K1 in EL; subst G L; cbn [hd tl].
  - split; [left; auto|]. split; [constructor|]. exists fs. subst c. rewrite app_nil_r in *. split; [|split; [exact FP|split; [cbn; lra|]]].
    + intros ->. destruct T as [|t T]; [congruence|]. assert (P : forall t, In t T -> 0 < tvol V t) by (intros u HU; apply (FT u (or_intror HU))).
      assert (0 <= volumes V T) by (clear - P; unfold volumes; induction T as [|u T IH]; cbn [fold_right]; [lra|]; pose proof (P u (or_introl eq_refl)); assert (0 <= fold_right (fun t r => tvol V t + r) 0 T) by (apply IH; intros; apply P; right; assumption); lra).
      pose proof (proj2 (proj2 (FT t (or_introl eq_refl)))). unfold volumes in VT at 2. cbn [fold_right] in VT. fold (volumes V T) in VT. cbn in VT. lra.
    + intros s w IS W. destruct (CV s w IS W) as (t & w' & IT & R). exists t, w'. split; [right; exact IT|exact R].
  - split; [right; auto|]. subst c l. split; [apply Forall2_app_inv_l in LAB; destruct LAB as (l1 & l2 & F2 & F3 & E); pose proof (F2_length F2); pose proof (F2_length F3) as L3; destruct l2 as [|y2 [|? ?]]; try discriminate L3; apply app_inj_tail in E; destruct E as [-> _]; exact F2|].
    exists (y :: fs). split; [discriminate|]. split; [|split].
    + intros t [<-|HT]; apply FP; rewrite !in_app_iff; cbn; tauto.
    + rewrite <- VT. rewrite <- volumes_app. apply volumes_perm. rewrite (Permutation_app_comm fs). rewrite <- app_assoc. reflexivity.
    + intros s w IS W. destruct (CV s w IS W) as (t & w' & IT & R). exists t, w'. split; [|exact R]. rewrite !in_app_iff in IT. cbn in *. tauto.
Qed.

(** ** the first row is never a labelled tetrahedron, and volume is always lost *)
Theorem C80_first_row_refuted V T D k U G L : tet_mesh V T D k -> T <> [] -> upper_envelope V T D k = Ok (U, G, L) -> G <> [] ->
  tvol U (hd [] G) = 0 /\ forall j, nth j (hd [] L) false = false.
Proof.
  intros M NT H NG. destruct (C80_partial V T D k U G L M NT H) as (_ & [[E _]|[E1 E2]] & _); [congruence|]. rewrite E1, E2. split.
  - unfold tvol. cbn [map]. unfold dot3, cross3, sub3, X, Y, Zc. cbn [fst snd]. field.
  - intro j. destruct (nth_in_or_default j (repeat false k) false) as [I|E]; [apply repeat_spec in I; exact I|exact E].
Qed.
Theorem C80_volume_refuted V T D k U G L : tet_mesh V T D k -> T <> [] -> upper_envelope V T D k = Ok (U, G, L) -> volumes U (tl G) < volumes V T.
Proof.
  intros M NT H. destruct (C80_partial V T D k U G L M NT H) as (_ & _ & _ & rest & NR & PR & E & _). rewrite <- E.
  assert (K : 0 < volumes U rest); [|lra]. destruct rest as [|t rest]; [congruence|]. unfold volumes. cbn [fold_right].
  pose proof (proj2 (proj2 (PR t (or_introl eq_refl)))) as P. assert (N : 0 <= fold_right (fun t r => tvol U t + r) 0 rest); [|lra].
  assert (PR' : forall u, In u rest -> 0 < tvol U u) by (intros u HU; apply (PR u (or_intror HU))). clear - PR'.
  induction rest as [|u rest IH]; cbn [fold_right]; [lra|]. pose proof (PR' u (or_introl eq_refl)). assert (0 <= fold_right (fun t r => tvol U t + r) 0 rest) by (apply IH; intros; apply PR'; right; assumption). lra.
Qed.

(** ** one material: the last two tetrahedra are lost *)
Lemma rows_ok {A} (l : list A) t : (forall v, In v t -> (v < List.length l)%nat) -> exists r, rows l t = Ok r /\ List.length r = List.length t /\ forall x, In x r -> In x l.
Proof.
  induction t as [|v t IH]; intro H; [exists []; cbn; repeat split; intros x []|]. cbn [rows fold_right]. fold (rows l t).
  destruct (nth_error l v) as [x|] eqn:E; [|apply nth_error_None in E; pose proof (H v (or_introl eq_refl)); lia].
  destruct IH as (r & -> & L & I); [intros; apply H; right; assumption|]. unfold get. rewrite E. cbn [lift bind]. exists (x :: r). split; [reflexivity|]. split; [cbn; congruence|].
  intros y [<-|J]; [eapply nth_error_In, E|apply I, J].
Qed.
Lemma mapE_const {A B} (f : A -> res B) b l : (forall x, In x l -> f x = Ok b) -> mapE f l = Ok (repeat b (List.length l)).
Proof. induction l as [|x l IH]; intro H; cbn [mapE List.length repeat]; [reflexivity|]. rewrite (H x (or_introl eq_refl)). cbn [bind]. rewrite IH by (intros; apply H; right; assumption). reflexivity. Qed.
Lemma select_prefix {A} n : forall (l : list A) m, (n <= List.length l)%nat -> select (repeat true n ++ repeat false m) l = firstn n l.
Proof.
  induction n as [|n IH]; intros l m H; [apply select_false|]. destruct l as [|x l]; [cbn in H; lia|]. unfold select in *. cbn [repeat app combine filter fst map snd firstn].
  f_equal. apply IH. cbn in H. lia.
Qed.
Lemma select_suffix {A} n : forall (l : list A) m, (n + m = List.length l)%nat -> select (repeat false n ++ repeat true m) l = skipn n l.
Proof.
  induction n as [|n IH]; intros l m H.
  - cbn [repeat app skipn]. cbn in H. subst m. unfold select. induction l as [|x l IHl]; cbn; [reflexivity|]. f_equal. exact IHl.
  - destruct l as [|x l]; [cbn in H; lia|]. unfold select in *. cbn [repeat app combine filter fst map snd skipn]. apply IH. cbn in H. lia.
Qed.
Lemma map_negb_repeat b n : map negb (repeat b n) = repeat (negb b) n.
Proof. induction n; cbn; congruence. Qed.
Lemma carve_all k mid st : (1 <= List.length (sF st))%nat -> idxF st = List.length (sF st) -> List.length (sL st) = List.length (sF st) ->
  (forall t, In t (sF st) -> carved k mid (sD st) t = Ok true /\ exists v, In v t /\ v <> 0%nat) ->
  let n := (List.length (sF st) - 1)%nat in
  carve k mid st = Ok ({| sV := sV st; sD := sD st; capV := capV st; sF := skipn n (sF st); sL := skipn n (sL st); idxF := List.length (sF st) |}, firstn n (sF st)).
Proof.
  intros N XF LL H n. unfold carve. rewrite XF. fold n.
  assert (E : mapE (fun i => bind (get (sF st) i) (fun t => carved k mid (sD st) t)) (seq 0 n) = Ok (repeat true n)).
  { rewrite <- (seq_length n 0) at 2. apply mapE_const. intros i I. apply in_seq in I. unfold get. destruct (nth_error (sF st) i) as [t|] eqn:E; [|apply nth_error_None in E; unfold n in I; lia].
    cbn [lift bind]. apply H. eapply nth_error_In, E. }
  rewrite E. cbn [bind]. rewrite map_app, !map_negb_repeat. cbn [negb].
  rewrite select_prefix by (unfold n; lia). rewrite !select_suffix by (rewrite ?LL; unfold n; lia).
  assert (Z : first_zero (skipn n (sF st)) 0 = None).
  { assert (F : Forall (fun t => exists v, In v t /\ v <> 0%nat) (skipn n (sF st))).
    { rewrite Forall_forall. intros t I. apply (H t). rewrite <- (firstn_skipn n (sF st)). apply in_or_app. right. exact I. }
    clear - F. generalize 0%nat at 1. induction F as [|t l (v & I & NV) F IH]; intro i; cbn [first_zero]; [reflexivity|].
    destruct (forallb (fun v => Nat.eqb v 0) t) eqn:Q; [|apply IH]. rewrite forallb_forall in Q. specialize (Q v I). apply Nat.eqb_eq in Q. congruence. }
  rewrite Z. reflexivity.
Qed.
Lemma proper_nonzero V t : proper V t -> exists v, In v t /\ v <> 0%nat.
Proof.
  intros (Q & _ & P). destruct t as [|a [|b [|c [|d [|e t]]]]]; try discriminate Q.
  destruct (Nat.eq_dec a 0) as [->|N]; [|exists a; cbn; tauto]. destruct (Nat.eq_dec b 0) as [->|N]; [|exists b; cbn; tauto].
  exfalso. unfold tvol in P. cbn [map] in P. unfold dot3, cross3, sub3, X, Y, Zc in P. cbn [fst snd] in P. lra.
Qed.
Lemma argmax_from_stay : forall l best bi i, (forall x, In x l -> x <= best) -> argmax_from best bi i l = bi.
Proof.
  induction l as [|x l IH]; intros best bi i H; cbn [argmax_from]; [reflexivity|]. destruct (Rlt_dec best x) as [L|L]; [pose proof (H x (or_introl eq_refl)); lra|]. apply IH. intros; apply H; right; assumption.
Qed.
Definition first_largest (D : list (list R)) : Prop := forall d, In d D -> forall x, In x d -> x <= nth 0 d 0.
Lemma argmax_zero d : (forall x, In x d -> x <= nth 0 d 0) -> argmax d = 0%nat.
Proof. destruct d as [|x d]; [reflexivity|]. intro H. cbn [argmax]. apply argmax_from_stay. intros y I. apply (H y). right. exact I. Qed.
Lemma first_rows D t : first_largest D -> (forall v, In v t -> (v < List.length D)%nat) -> exists ds, rows D t = Ok ds /\ List.length ds = List.length t /\ forallb (Nat.eqb 0) (map argmax ds) = true /\ map argmax ds = repeat 0%nat (List.length t).
Proof.
  intros F B. destruct (rows_ok D t B) as (ds & E & L & I). exists ds. split; [exact E|]. split; [exact L|].
  assert (M : map argmax ds = repeat 0%nat (List.length t)).
  { rewrite <- L. clear - F I. induction ds as [|d ds IH]; [reflexivity|]. cbn [map List.length repeat]. rewrite IH by (intros; apply I; right; assumption). f_equal. apply argmax_zero, F, I. left. reflexivity. }
  split; [|exact M]. rewrite M. clear. induction (List.length t); cbn; auto.
Qed.
Lemma carved_first k D t : first_largest D -> (forall v, In v t -> (v < List.length D)%nat) -> carved k 0 D t = Ok true.
Proof. intros F B. destruct (first_rows D t F B) as (ds & E & _ & M & _). unfold carved. rewrite E. cbn [bind]. rewrite M. reflexivity. Qed.

Lemma firstn_repeat' {A} (b : A) : forall n m, (n <= m)%nat -> firstn n (repeat b m) = repeat b n.
Proof. induction n as [|n IH]; intros [|m] H; try reflexivity; [lia|]. cbn [repeat firstn]. rewrite IH by lia. reflexivity. Qed.
Theorem C80_one_material_refuted V T D : tet_mesh V T D 1 -> T <> [] ->
  upper_envelope V T D 1 = Ok (V, firstn (List.length T - 1) (zero_tet :: T), firstn (List.length T - 1) ([false] :: repeat [true] (List.length T))).
Proof.
  intros (LD & WD & FT) NT. assert (N1 : (1 <= List.length T)%nat) by (destruct T; [congruence|cbn; lia]).
  assert (F : first_largest D).
  { intros d I x J. pose proof (WD d I) as L. destruct d as [|y [|z d]]; try discriminate L. destruct J as [->|[]]. cbn. lra. }
  unfold upper_envelope. assert (E0 : mapE (quick 1 D) T = Ok (repeat [true] (List.length T))).
  { apply mapE_const. intros t I. unfold quick. destruct (rows_ok D t) as (ds & -> & _); [rewrite LD; exact (proj1 (proj2 (FT t I)))|]. reflexivity. }
  rewrite E0. cbn [bind]. replace (Nat.eqb (List.length T) 0) with false by (symmetry; apply Nat.eqb_neq; lia). cbn [andb seq materials]. change (1 - 1)%nat with 0%nat. cbn [seq pair_passes bind].
  rewrite (carve_all 1 0); [|exact N1|reflexivity|cbn [sF sL]; rewrite repeat_length; reflexivity|cbn [sF sD]; intros t I; split; [apply carved_first; [exact F|rewrite LD; exact (proj1 (proj2 (FT t I)))]|eapply proper_nonzero, FT, I]].
  cbn [bind sV sF]. f_equal. f_equal; [f_equal|].
  - cbn [app List.length]. rewrite firstn_length, Nat.min_l by lia. replace (S (List.length T - 1) - 1)%nat with (List.length T - 1)%nat by lia. destruct (List.length T - 1)%nat as [|n] eqn:EN; [reflexivity|].
    rewrite !firstn_cons. f_equal. rewrite firstn_firstn, Nat.min_l by lia. reflexivity.
  - cbn [app List.length]. rewrite repeat_length, firstn_length, Nat.min_l by lia. replace (S (List.length T - 1) - 1)%nat with (List.length T - 1)%nat by lia.
    change (one_hot 1 0) with [true]. change (repeat false 1) with [false]. destruct (List.length T) as [|n]; [lia|]. replace (S n - 1)%nat with n by lia. destruct n as [|n]; [reflexivity|]. rewrite !firstn_cons. f_equal.
    rewrite !firstn_repeat' by lia. reflexivity.
Qed.

(** ** a material that is largest everywhere, among two or more: the second round reads outside the array *)
Lemma pair_skip nV nF k mid LLT : forall js st, (forall j, In j js -> has LLT mid && has LLT j = false) -> pair_passes nV nF k mid LLT js st = Ok st.
Proof. induction js as [|j js IH]; intros st H; cbn [pair_passes]; [reflexivity|]. rewrite (H j (or_introl eq_refl)). apply IH. intros; apply H; right; assumption. Qed.
Lemma has_one_hot k j : j <> 0%nat -> has (one_hot k 0) j = false.
Proof.
  intro N. unfold has, one_hot. destruct (Nat.lt_ge_cases j k) as [J|J]; [|apply nth_overflow; rewrite map_length, seq_length; exact J].
  rewrite nth_indep with (d' := Nat.eqb 0 0) by (rewrite map_length, seq_length; exact J). rewrite map_nth, seq_nth by exact J. cbn. destruct j; [congruence|reflexivity].
Qed.
Lemma has_map k (f : nat -> bool) j : f j = false -> has (map f (seq 0 k)) j = false.
Proof.
  intro H. unfold has. destruct (Nat.lt_ge_cases j k) as [J|J]; [|apply nth_overflow; rewrite map_length, seq_length; exact J].
  rewrite nth_indep with (d' := f 0%nat) by (rewrite map_length, seq_length; exact J). rewrite map_nth, seq_nth by exact J. exact H.
Qed.
Lemma existsb_none k j (sel : list (list bool)) : j <> 0%nat -> (forall l, In l sel -> l = one_hot k 0) -> existsb (fun l => has l j) sel = false.
Proof. intros N H. destruct (existsb _ sel) eqn:E; [|reflexivity]. apply existsb_exists in E. destruct E as (l & I & Q). rewrite (H l I), has_one_hot in Q by exact N. discriminate. Qed.

Theorem C80_uniform_refuted V T D k : tet_mesh V T D k -> (2 <= k)%nat -> (3 <= List.length T)%nat -> first_largest D -> upper_envelope V T D k = Err IndexError.
Proof.
  intros (LD & WD & FT) K2 N3 F. assert (BD : forall t, In t T -> forall v, In v t -> (v < List.length D)%nat) by (intros t I v J; rewrite LD; exact (proj1 (proj2 (FT t I)) v J)).
  unfold upper_envelope. assert (E0 : mapE (quick k D) T = Ok (repeat (one_hot k 0) (List.length T))).
  { apply mapE_const. intros t I. unfold quick. destruct (first_rows D t F (BD t I)) as (ds & -> & _ & _ & M). cbn [bind]. replace (Nat.eqb k 1) with false by (symmetry; apply Nat.eqb_neq; lia).
    rewrite M, (proj1 (FT t I)). reflexivity. }
  rewrite E0. cbn [bind]. replace (Nat.eqb (List.length T) 0) with false by (symmetry; apply Nat.eqb_neq; lia). cbn [andb].
  destruct k as [|[|k]]; [lia|lia|]. cbn [seq materials].
  rewrite pair_skip.
  2: { intros j I. apply in_seq in I. apply andb_false_iff. right. apply (has_map (S (S k))). apply (existsb_none (S (S k))); [lia|]. intros l J. apply filter_In in J. destruct J as [J _]. cbn [sL] in J. apply repeat_spec in J. exact J. }
  cbn [bind]. rewrite (carve_all (S (S k)) 0); [|cbn [sF]; lia|reflexivity|cbn [sF sL]; rewrite repeat_length; reflexivity|cbn [sF sD]; intros t I; split; [apply carved_first; [exact F|exact (BD t I)]|eapply proper_nonzero, FT, I]].
  cbn [bind sV sF sL sD idxF capV]. rewrite pair_skip.
  2: { intros j I. apply andb_false_iff. left. apply (has_map (S (S k))). apply (existsb_none (S (S k))); [lia|]. intros l J. apply filter_In in J. destruct J as [J _].
       apply (repeat_spec (List.length T)). rewrite <- (firstn_skipn (List.length T - 1) (repeat (one_hot (S (S k)) 0) (List.length T))). apply in_or_app. right. exact J. }
  cbn [bind]. unfold carve. cbn [sF idxF sD].
  destruct (List.length T - 1)%nat as [|[|n]] eqn:EN; [lia|lia|].
  assert (LS : List.length (skipn (S (S n)) T) = 1%nat) by (rewrite skipn_length; lia).
  destruct (skipn (S (S n)) T) as [|u [|? ?]] eqn:ES; try discriminate LS.
  assert (IU : In u T) by (rewrite <- (firstn_skipn (S (S n)) T), ES; apply in_or_app; right; left; reflexivity).
  cbn [seq mapE]. change (get [u] 0) with (Ok u). change (get [u] 1) with (@Err (list nat) IndexError). cbn [bind].
  unfold carved. destruct (rows_ok D u (BD u IU)) as (ds & -> & _). cbn [bind]. destruct (forallb (Nat.eqb 1) (map argmax ds)); reflexivity.
Qed.
