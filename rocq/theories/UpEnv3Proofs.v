(** the arrays: every pass keeps the current tetrahedra a subdivision of the input *)
From Coq Require Import Reals Lra Psatz ZArith List Bool Permutation Lia.
From Verif Require Import Vec PyExn NumpyModel UpEnvModel UpEnvProofs UpEnv2Proofs.
Import ListNotations.
Open Scope R_scope.

Ltac bind_step H := match type of H with bind ?x _ = Ok _ => let E := fresh "E" in destruct x eqn:E; cbn [bind] in H; [|discriminate H] end.

Lemma get_some {A} (l : list A) i x : get l i = Ok x -> nth_error l i = Some x.
Proof. unfold get. destruct (nth_error l i); cbn; congruence. Qed.
Lemma rows_spec {A} (l : list A) t r : rows l t = Ok r -> Forall2 (fun i x => nth_error l i = Some x) t r.
Proof.
  revert r. induction t as [|i t IH]; intros r H; cbn [rows fold_right] in H; [injection H as <-; constructor|].
  fold (rows l t) in H. bind_step H. bind_step H. injection H as <-. constructor; [apply get_some; assumption|apply IH; reflexivity].
Qed.
Lemma F2_length {A B} {P : A -> B -> Prop} {l r} : Forall2 P l r -> List.length l = List.length r.
Proof. induction 1; cbn; congruence. Qed.
Lemma mapE_ok {A B} (f : A -> res B) l r : mapE f l = Ok r -> Forall2 (fun x y => f x = Ok y) l r.
Proof.
  revert r. induction l as [|x l IH]; intros r H; cbn [mapE] in H; [injection H as <-; constructor|].
  bind_step H. bind_step H. injection H as <-. constructor; [assumption|apply IH; reflexivity].
Qed.

Definition attr_of (V : list vec3) (D : list (list R)) (q v : nat) : R :=
  match q with 0%nat => X (nth v V zero3) | 1%nat => Y (nth v V zero3) | 2%nat => Zc (nth v V zero3) | S (S (S j)) => nth j (nth v D []) 0 end.
Definition at_st (st : state) := attr_of (sV st) (sD st).
Definition below (n : nat) (t : tet) : Prop := Forall (fun v => (v < n)%nat) t.
Definition shape (k : nat) (st : state) : Prop := List.length (sD st) = List.length (sV st) /\ Forall (fun d => List.length d = k) (sD st).
Definition extends (st st' : state) : Prop := exists A B, sV st' = sV st ++ A /\ sD st' = sD st ++ B.
Lemma extends_refl st : extends st st.
Proof. exists [], []. rewrite !app_nil_r. auto. Qed.
Lemma extends_trans a b c : extends a b -> extends b c -> extends a c.
Proof. intros (x & y & E1 & E2) (z & w & E3 & E4). exists (x ++ z), (y ++ w). rewrite E3, E4, E1, E2, <- !app_assoc. auto. Qed.
Lemma attr_app V A D B q v : List.length D = List.length V -> (v < List.length V)%nat -> attr_of (V ++ A) (D ++ B) q v = attr_of V D q v.
Proof. intros L H. unfold attr_of. rewrite !app_nth1 by lia. reflexivity. Qed.
Lemma extends_attr k st st' q v : shape k st -> extends st st' -> (v < List.length (sV st))%nat -> at_st st' q v = at_st st q v.
Proof. intros [L _] (A & B & E1 & E2) H. unfold at_st. rewrite E1, E2. apply attr_app; assumption. Qed.
Lemma extends_len st st' : extends st st' -> (List.length (sV st) <= List.length (sV st'))%nat.
Proof. intros (A & B & E & _). rewrite E, app_length. lia. Qed.

(** ** crossings and new vertices *)
Lemma crosses_spec d1 d2 : crosses d1 d2 = true -> d1 < 0 < d2 \/ d2 < 0 < d1.
Proof.
  unfold crosses. intro H. apply andb_prop in H. destruct H as [H _]. apply andb_prop in H. destruct H as [H _].
  destruct (Rlt_dec d1 0); [destruct (Rlt_dec 0 d2); [left; lra|discriminate]|]. destruct (Rlt_dec 0 d1); [|discriminate]. destruct (Rlt_dec d2 0); [right; lra|discriminate].
Qed.
Lemma crossing_mu d1 d2 : crosses d1 d2 = true -> 0 < (0 - d1) / (d2 - d1) < 1.
Proof.
  intro H. apply crosses_spec in H. destruct H as [[A B]|[A B]].
  - split; [apply Rdiv_lt_0_compat; lra|]. apply (Rmult_lt_reg_r (d2 - d1)); [lra|]. unfold Rdiv. rewrite Rmult_assoc, Rinv_l by lra. lra.
  - assert (E : (0 - d1) / (d2 - d1) = d1 / (d1 - d2)) by (field; lra). rewrite E. split; [apply Rdiv_lt_0_compat; lra|].
    apply (Rmult_lt_reg_r (d1 - d2)); [lra|]. unfold Rdiv. rewrite Rmult_assoc, Rinv_l by lra. lra.
Qed.
Lemma nth_lerpl mu : forall p q j, List.length p = List.length q -> nth j (lerpl mu p q) 0 = (1 - mu) * nth j p 0 + mu * nth j q 0.
Proof.
  induction p as [|x p IH]; intros [|y q] j L; try discriminate L; cbn [lerpl]; [destruct j; cbn; ring|]. destruct j as [|j]; cbn [nth]; [reflexivity|]. apply IH. injection L. auto.
Qed.
Lemma lerpl_length mu : forall p q, List.length p = List.length q -> List.length (lerpl mu p q) = List.length p.
Proof. induction p as [|x p IH]; intros [|y q] L; try discriminate L; cbn [lerpl List.length]; [reflexivity|]. f_equal. apply IH. injection L. auto. Qed.

Definition entry (st : state) (ev : (nat * nat) * nat) : Prop :=
  good (at_st st) ev /\ (fst (fst ev) < List.length (sV st))%nat /\ (snd (fst ev) < List.length (sV st))%nat /\ (snd ev < List.length (sV st))%nat.
Lemma entry_ext k st st' ev : shape k st -> extends st st' -> entry st ev -> entry st' ev.
Proof.
  intros S E ((NE & mu & M & Q) & A & B & C). pose proof (extends_len _ _ E). split; [|lia]. split; [exact NE|]. exists mu. split; [exact M|].
  intro q. rewrite !(extends_attr k st st') by (assumption || lia). apply Q.
Qed.
Lemma lookup_in tab e v : lookup tab e = Some v -> In (e, v) tab.
Proof.
  unfold lookup. destruct (find _ tab) as [[f w]|] eqn:F; cbn; [|discriminate]. intros [= <-]. apply find_some in F. destruct F as [I K]. cbn [fst] in K.
  unfold edge_eqb in K. apply andb_prop in K. destruct K as [K1 K2]. apply Nat.eqb_eq in K1, K2. destruct e, f. cbn in *. subst. exact I.
Qed.
Definition same_tets (st st' : state) : Prop := sF st' = sF st /\ sL st' = sL st /\ idxF st' = idxF st.
Lemma make_vertices_ok k inD : forall es st tab vids st' tab',
  shape k st -> Forall (entry st) tab -> Forall (fun e => crosses (nth (fst e) inD 0) (nth (snd e) inD 0) = true /\ (fst e < List.length (sV st))%nat /\ (snd e < List.length (sV st))%nat) es ->
  make_vertices inD es st tab = Ok (vids, st', tab') ->
  shape k st' /\ extends st st' /\ same_tets st st' /\ Forall (entry st') tab' /\ List.length vids = List.length es /\ Forall (entry st') (combine es vids).
Proof.
  induction es as [|e es IH]; intros st tab vids st' tab' SH TB FE H; cbn [make_vertices] in H.
  - injection H as <- <- <-. split; [exact SH|]. split; [apply extends_refl|]. split; [repeat split|]. split; [exact TB|]. split; [reflexivity|constructor].
  - inversion FE as [|? ? (CR & B1 & B2) FE']; subst.
    destruct (lookup tab e) as [v|] eqn:LK.
    + bind_step H. destruct a as [[vs s1] t1]. injection H as <- <- <-. destruct (IH _ _ _ _ _ SH TB FE' E) as (A & B & C & D & L & G).
      split; [exact A|]. split; [exact B|]. split; [exact C|]. split; [exact D|]. split; [cbn; lia|]. cbn [combine]. constructor; [|exact G].
      apply lookup_in in LK. rewrite Forall_forall in TB. exact (entry_ext k st s1 _ SH B (TB _ LK)).
    + bind_step H. bind_step H. bind_step H. bind_step H. bind_step H. bind_step H.
      rename a into p1, a0 into p2, a1 into d1, a2 into d2, a3 into a1, a4 into a2.
      apply get_some in E, E0, E1, E2, E3, E4.
      destruct (Nat.ltb (List.length (sV st)) (capV st)); [|discriminate H]. cbv zeta in H. bind_step H. destruct a as [[vs s1] t1]. injection H as <- <- <-.
      pose proof (nth_error_nth _ _ 0 E1) as N1. pose proof (nth_error_nth _ _ 0 E2) as N2. rewrite N1, N2 in CR.
      set (mu := (0 - d1) / (d2 - d1)) in *. pose proof (crossing_mu _ _ CR) as M. fold mu in M.
      set (st1 := {| sV := sV st ++ [lerp3 mu p1 p2]; sD := sD st ++ [lerpl mu a1 a2]; capV := capV st; sF := sF st; sL := sL st; idxF := idxF st |}) in *.
      destruct SH as [SL SW]. assert (SW' := SW). rewrite Forall_forall in SW'. pose proof (SW' _ (nth_error_In _ _ E3)) as W1. pose proof (SW' _ (nth_error_In _ _ E4)) as W2.
      assert (SH1 : shape k st1).
      { split; cbn [st1 sV sD]; [rewrite !app_length; cbn; lia|]. apply Forall_app. split; [exact SW|]. constructor; [|constructor]. rewrite lerpl_length by congruence. exact W1. }
      assert (X1 : extends st st1) by (exists [lerp3 mu p1 p2], [lerpl mu a1 a2]; auto).
      assert (LV : List.length (sV st1) = S (List.length (sV st))) by (cbn [st1 sV]; rewrite app_length; cbn; lia).
      assert (EN : entry st1 (e, List.length (sV st))).
      { split; [|cbn [fst snd]; lia]. cbn [fst snd]. split; [intro Q; cbn [fst snd] in Q; rewrite Q in E1; rewrite E1 in E2; injection E2 as Q2; rewrite Q2 in CR; apply crosses_spec in CR; lra|].
        exists mu. split; [exact M|]. intro q. cbn [fst snd].
        assert (P1 : nth (fst e) (sV st ++ [lerp3 mu p1 p2]) zero3 = p1) by (apply nth_error_nth; rewrite nth_error_app1 by lia; exact E).
        assert (P2 : nth (snd e) (sV st ++ [lerp3 mu p1 p2]) zero3 = p2) by (apply nth_error_nth; rewrite nth_error_app1 by lia; exact E0).
        assert (P3 : nth (List.length (sV st)) (sV st ++ [lerp3 mu p1 p2]) zero3 = lerp3 mu p1 p2) by (rewrite app_nth2, Nat.sub_diag by lia; reflexivity).
        assert (Q1 : nth (fst e) (sD st ++ [lerpl mu a1 a2]) [] = a1) by (apply nth_error_nth; rewrite nth_error_app1 by lia; exact E3).
        assert (Q2 : nth (snd e) (sD st ++ [lerpl mu a1 a2]) [] = a2) by (apply nth_error_nth; rewrite nth_error_app1 by lia; exact E4).
        assert (Q3 : nth (List.length (sV st)) (sD st ++ [lerpl mu a1 a2]) [] = lerpl mu a1 a2) by (rewrite <- SL, app_nth2, Nat.sub_diag by lia; reflexivity).
        unfold at_st, attr_of. cbn [st1 sV sD]. rewrite P1, P2, P3, Q1, Q2, Q3.
        destruct q as [|[|[|j]]]; [| | |apply nth_lerpl; congruence]; unfold lerp3, add3, scal3, sub3, X, Y, Zc; cbn [fst snd]; ring. }
      assert (TB1 : Forall (entry st1) ((e, List.length (sV st)) :: tab)).
      { constructor; [exact EN|]. eapply Forall_impl; [|exact TB]. intros ev H. exact (entry_ext k st st1 ev (conj SL SW) X1 H). }
      assert (FE1 : Forall (fun e => crosses (nth (fst e) inD 0) (nth (snd e) inD 0) = true /\ (fst e < List.length (sV st1))%nat /\ (snd e < List.length (sV st1))%nat) es).
      { eapply Forall_impl; [|exact FE']. cbn beta. intros f (A & B & C). rewrite LV. repeat split; (assumption || lia). }
      destruct (IH _ _ _ _ _ SH1 TB1 FE1 E5) as (A & B & C & D & L & G).
      split; [exact A|]. split; [exact (extends_trans _ _ _ X1 B)|]. split; [exact C|]. split; [exact D|]. split; [cbn; lia|]. cbn [combine]. constructor; [|exact G].
      exact (entry_ext k st1 s1 _ SH1 B EN).
Qed.

(** ** one tetrahedron *)
Lemma in_insert e f l : In e (insert f l) <-> e = f \/ In e l.
Proof. induction l as [|g l IH]; cbn [insert]; [cbn; intuition congruence|]. destruct (edge_le f g); cbn [In]; [intuition congruence|]. rewrite IH. intuition congruence. Qed.
Lemma in_sortrows e l : In e (sortrows l) <-> In e l.
Proof. induction l as [|f l IH]; cbn [sortrows fold_right]; [tauto|]. fold (sortrows l). rewrite in_insert, IH. cbn. intuition congruence. Qed.
Lemma in_tet_edges t e : In e (tet_edges t) -> In (fst e) t /\ In (snd e) t.
Proof.
  destruct t as [|a [|b [|c [|d [|? t]]]]]; try (intro H; destruct H; fail). cbn [tet_edges]. unfold sorted_edge. intro H.
  destruct H as [<-|[<-|[<-|[<-|[<-|[<-|[]]]]]]]; destruct (Nat.leb _ _); cbn; tauto.
Qed.
Definition fine (st : state) (t : tet) : Prop := quad t /\ 0 < vol3 (at_st st) t /\ below (List.length (sV st)) t.
Lemma vol3_ext attr attr' t : (forall q v, In v t -> attr q v = attr' q v) -> vol3 attr t = vol3 attr' t.
Proof.
  intro H. destruct t as [|a [|b [|c [|d [|? t]]]]]; try reflexivity. cbn [vol3].
  rewrite (H 0%nat a), (H 0%nat b), (H 0%nat c), (H 0%nat d), (H 1%nat a), (H 1%nat b), (H 1%nat c), (H 1%nat d), (H 2%nat a), (H 2%nat b), (H 2%nat c), (H 2%nat d) by (cbn; tauto). reflexivity.
Qed.
Lemma fine_ext k st st' t : shape k st -> extends st st' -> fine st t -> fine st' t.
Proof.
  intros S E (Q & P & B). split; [exact Q|]. unfold below in *. rewrite Forall_forall in B. split.
  - erewrite vol3_ext; [exact P|]. intros q v I. eapply extends_attr; [exact S|exact E|apply B, I].
  - rewrite Forall_forall. intros v I. pose proof (B v I). pose proof (extends_len _ _ E). lia.
Qed.
Lemma volume_of_vol3 V D t v : volume_of V t = Ok v -> v = vol3 (attr_of V D) t.
Proof.
  unfold volume_of. intro H. bind_step H. pose proof (rows_spec _ _ _ E) as F.
  destruct a as [|a [|b [|c [|d [|? ?]]]]]; try discriminate H. injection H as <-.
  inversion F as [|i1 x1 t1 r1 H1 F1]; subst. inversion F1 as [|i2 x2 t2 r2 H2 F2]; subst. inversion F2 as [|i3 x3 t3 r3 H3 F3]; subst. inversion F3 as [|i4 x4 t4 r4 H4 F4]; subst. inversion F4; subst.
  cbn [vol3 attr_of]. rewrite (nth_error_nth _ _ zero3 H1), (nth_error_nth _ _ zero3 H2), (nth_error_nth _ _ zero3 H3), (nth_error_nth _ _ zero3 H4).
  unfold dot3, cross3, sub3, X, Y, Zc. cbn [fst snd]. reflexivity.
Qed.
Lemma reorient_ok V D (P : nat -> Prop) s s' : solid (attr_of V D) s -> Forall P s -> reorient V s = Ok s' ->
  quad s' /\ 0 < vol3 (attr_of V D) s' /\ Forall P s' /\ subdivides (attr_of V D) s [s'].
Proof.
  intros [Q N] PS H. unfold reorient in H. bind_step H. apply (volume_of_vol3 V D) in E. destruct (quad4 s Q) as (p & q & r & t & ->).
  destruct (Rlt_dec a 0) as [L|L]; injection H as <-.
  - split; [reflexivity|]. split; [|split; [|apply subdivides_swap]].
    + assert (K : vol3 (attr_of V D) [p; q; t; r] = - vol3 (attr_of V D) [p; q; r; t]) by (cbn [vol3]; field). rewrite K, <- E. lra.
    + rewrite Forall_forall in *. intros x I. apply PS. cbn in *. tauto.
  - split; [reflexivity|]. split; [|split; [exact PS|apply subdivides_refl; reflexivity]]. rewrite <- E in *. lra.
Qed.
Lemma reorient_all V D (P : nat -> Prop) : forall ss ts, Forall (solid (attr_of V D)) ss -> Forall (Forall P) ss -> mapE (reorient V) ss = Ok ts ->
  Forall (fun s => quad s /\ 0 < vol3 (attr_of V D) s /\ Forall P s) ts /\ Forall2 (subdivides (attr_of V D)) ss (map (fun s => [s]) ts).
Proof.
  intros ss ts S PS H. apply mapE_ok in H. induction H as [|s t ss ts H F IH]; [split; constructor|]. inversion S; subst. inversion PS; subst.
  destruct (reorient_ok V D P s t) as (A & B & C & E); try assumption. destruct IH as [IH1 IH2]; try assumption. split; constructor; auto.
Qed.

(** ** array writes *)
Lemma set_at_app {A} (l1 : list A) x l2 y : set_at (l1 ++ x :: l2) (List.length l1) y = l1 ++ y :: l2.
Proof. induction l1 as [|z l1 IH]; cbn; [reflexivity|]. rewrite IH. reflexivity. Qed.
Lemma put_block_zeros {A} (fs : list A) o z b r : put_block (fs ++ repeat o z) (List.length fs) b = Ok r -> (List.length b <= z)%nat /\ r = (fs ++ b) ++ repeat o (z - List.length b).
Proof.
  unfold put_block. destruct (Nat.leb _ _) eqn:L; [|discriminate]. intros [= <-]. apply Nat.leb_le in L. rewrite app_length, repeat_length in L.
  assert (LZ : (List.length b <= z)%nat) by lia. split; [exact LZ|].
  rewrite firstn_app, firstn_all, Nat.sub_diag. cbn [firstn]. rewrite app_nil_r, <- app_assoc. f_equal. f_equal.
  rewrite skipn_app, skipn_all2 by lia. cbn [app]. replace (List.length fs + List.length b - List.length fs)%nat with (List.length b) by lia.
  replace z with (List.length b + (z - List.length b))%nat at 1 by lia. rewrite repeat_app, skipn_app, skipn_all2 by (rewrite repeat_length; lia). rewrite repeat_length, Nat.sub_diag. reflexivity.
Qed.
Lemma put_block_length {A} (l : list A) i b r : put_block l i b = Ok r -> List.length r = List.length l.
Proof.
  unfold put_block. destruct (Nat.leb _ _) eqn:L; [|discriminate]. intros [= <-]. apply Nat.leb_le in L. rewrite !app_length, firstn_length, skipn_length. lia.
Qed.

(** ** the invariant *)
Section Inv.
  Variable T : list tet.
  Variable k : nat.
  Variable st0 : state.
  Hypothesis SH0 : shape k st0.
  Hypothesis T0 : Forall (fine st0) T.
  Record inv (cf : list tet) (st : state) (fs : list tet) (z : nat) : Prop := {
    i_ext : extends st0 st; i_shape : shape k st; i_F : sF st = fs ++ repeat zero_tet z; i_len : List.length (sL st) = List.length (sF st);
    i_fine : Forall (fine st) (fs ++ cf); i_tile : tiling (at_st st) T (fs ++ cf) }.
  Lemma T_quad : Forall quad T.
  Proof. eapply Forall_impl; [|exact T0]. intros t H. apply H. Qed.
  Lemma fine_quad st l : Forall (fine st) l -> Forall quad l.
  Proof. apply Forall_impl. intros t H. apply H. Qed.
  Lemma T_below st : extends st0 st -> Forall (below (List.length (sV st))) T.
  Proof. intro E. eapply Forall_impl; [|exact T0]. intros t (_ & _ & B). eapply Forall_impl; [|exact B]. cbn beta. intros v L. pose proof (extends_len _ _ E). lia. Qed.
  Lemma tile_ext cf st st' fs z : inv cf st fs z -> extends st st' -> tiling (at_st st') T (fs ++ cf).
  Proof.
    intros [X1 S1 F1 L1 FN TL] E. eapply (tiling_ext (at_st st) (at_st st') (fun v => (v < List.length (sV st))%nat)); [| | | | |exact TL].
    - intros q v H. symmetry. eapply extends_attr; eassumption.
    - apply T_quad.
    - eapply fine_quad, FN.
    - apply T_below, X1.
    - eapply Forall_impl; [|exact FN]. intros t (_ & _ & B). exact B.
  Qed.
  Lemma propagate_ok cf inD i st tab st' tab' fs z : inv cf st fs z -> idxF st = List.length fs -> (i < List.length fs)%nat -> Forall (entry st) tab -> propagate inD i st tab = Ok (st', tab') ->
    Forall (entry st') tab' /\ exists fs' z', inv cf st' fs' z' /\ idxF st' = List.length fs' /\ (List.length fs <= List.length fs')%nat.
  Proof.
    intros I XF IL TB H. unfold propagate in H. bind_step H. rename a into t. apply get_some in E. bind_step H.
    destruct (all_sgn true a || all_sgn false a); [injection H as <- <-; split; [exact TB|exists fs, z; auto]|].
    set (es := sortrows _) in H. destruct es as [|e0 er] eqn:EE; [injection H as <- <-; split; [exact TB|exists fs, z; auto]|].
    rewrite <- EE in *. clear e0 er EE. bind_step H. destruct a0 as [[vids st1] tab1]. bind_step H. rename a0 into ts. bind_step H. rename a0 into lr. bind_step H. rename a0 into f1. bind_step H. rename a0 into l1.
    injection H as <- <-. pose proof I as I'. destruct I as [X1 S1 F1 L1 FN TL].
    rewrite F1, nth_error_app1 in E by exact IL. destruct (nth_error_split _ _ E) as (f & g & FS & LF). 
    assert (FT : fine st t) by (rewrite FS in FN; rewrite !Forall_app in FN; destruct FN as [[_ FN] _]; inversion FN; assumption).
    assert (ES : Forall (fun e => crosses (nth (fst e) inD 0) (nth (snd e) inD 0) = true /\ (fst e < List.length (sV st))%nat /\ (snd e < List.length (sV st))%nat) es).
    { rewrite Forall_forall. intros e IE. unfold es in IE. rewrite in_sortrows in IE. apply filter_In in IE. destruct IE as [IE CR]. split; [exact CR|].
      apply in_tet_edges in IE. destruct FT as (_ & _ & B). unfold below in B. rewrite Forall_forall in B. split; apply B; tauto. }
    destruct (make_vertices_ok k inD es st tab vids st1 tab1 S1 TB ES E1) as (S2 & X2 & (SF & SLE & SI) & TB1 & LV & EN).
    set (ss := split_2_edge_array t (combine es vids)) in *.
    pose proof (fine_ext k _ _ _ S1 X2 FT) as (QT & VT & BT).
    destruct (split_array (at_st st1) (fun v => (v < List.length (sV st1))%nat) t (combine es vids)) as (SD1 & SD2 & SD3).
    { split; [exact QT|lra]. } { exact BT. } { eapply Forall_impl; [|exact EN]. intros ev H. apply H. } { eapply Forall_impl; [|exact EN]. intros ev H. apply H. }
    fold ss in SD1, SD2, SD3.
    destruct (reorient_all (sV st1) (sD st1) _ ss ts SD2 SD3 E2) as (RF & R2).
    assert (SDT : subdivides (at_st st1) t ts).
    { rewrite <- (concat_singles ts). eapply subdivides_trans; [exact QT|eapply solid_quad; exact SD2|exact SD1|exact R2]. }
    destruct ts as [|h tl].
    { exfalso. pose proof (sub_vol _ _ _ SDT) as Z. cbn in Z. rewrite Rabs_right in Z by lra. lra. }
    cbn [hd List.tl] in *.
    assert (ST : set_at (sF st1) i h = (f ++ h :: g) ++ repeat zero_tet z).
    { rewrite SF, F1, FS, <- LF, <- !app_assoc. cbn [app]. apply set_at_app. }
    assert (LF' : List.length (f ++ h :: g) = List.length fs) by (rewrite FS, !app_length; reflexivity).
    rewrite ST, SI, XF, <- LF' in E4. destruct (put_block_zeros _ _ _ _ _ E4) as [LZ EF].
    assert (XS : extends st0 st1) by exact (extends_trans st0 st st1 X1 X2).
    assert (FN1 : Forall (fine st1) (fs ++ cf)) by (eapply Forall_impl; [|exact FN]; intros u HU; exact (fine_ext k st st1 u S1 X2 HU)).
    pose proof (tile_ext cf st st1 fs z I' X2) as TL1.
    split.
    { eapply Forall_impl; [|exact TB1]. intros ev HE. exact HE. }
    exists ((f ++ h :: g) ++ tl), (z - List.length tl)%nat. split; [|cbn [idxF]; rewrite SI, XF, app_length, LF'; split; [reflexivity|lia]].
    split; cbn [sV sD sF sL idxF].
    - exact XS.
    - exact S2.
    - exact EF.
    - rewrite (put_block_length _ _ _ _ E5), (put_block_length _ _ _ _ E4), <- ST, SF, SLE, L1. clear. generalize (sF st). intro l. revert i. induction l as [|x l IH]; intros [|i]; cbn; auto.
    - rewrite FS, !Forall_app in FN1. destruct FN1 as [[A B] C]. inversion B; subst. inversion RF; subst. rewrite !Forall_app. 
      assert (K : forall u, quad u /\ 0 < vol3 (attr_of (sV st1) (sD st1)) u /\ Forall (fun v => (v < List.length (sV st1))%nat) u -> fine {| sV := sV st1; sD := sD st1; capV := capV st1; sF := (f ++ h :: g) ++ tl ++ []; sL := l1; idxF := 0 |} u) by (intros u HU; exact HU).
      split; [split; [split; [exact A|constructor; [assumption|assumption]]|assumption]|exact C].
    - apply (tiling_perm _ _ ((h :: tl) ++ (f ++ g ++ cf))).
      + cbn [app]. rewrite <- !app_assoc. cbn [app]. rewrite <- Permutation_middle. apply perm_skip. rewrite (Permutation_app_comm tl). rewrite <- !app_assoc. apply Permutation_app_head. apply Permutation_app_head. apply Permutation_app_comm.
      + apply (tiling_step _ _ t); [apply T_quad| | |exact SDT].
        * apply fine_quad in FN1. rewrite FS in FN1. rewrite !Forall_app in FN1. destruct FN1 as [[A B] C]. inversion B; subst. constructor; [assumption|]. rewrite !Forall_app. auto.
        * eapply tiling_perm; [|exact TL1]. rewrite FS, <- app_assoc. cbn [app]. apply Permutation_sym, Permutation_middle.
  Qed.
  Lemma grow_ok cf st fs z nV nF : inv cf st fs z -> exists z', inv cf (grow nV nF k st) fs z'.
  Proof.
    intros [X1 S1 F1 L1 FN TL]. unfold grow. destruct (Nat.ltb (List.length (sF st)) (idxF st + 10 + 1)).
    - exists (z + nF)%nat. split; cbn [sV sD sF sL idxF]; try assumption.
      + rewrite F1, <- app_assoc, <- repeat_app. reflexivity.
      + rewrite !app_length, !repeat_length. lia.
    - exists z. split; cbn [sV sD sF sL idxF]; assumption.
  Qed.
  Lemma split_pass_ok cf nV nF inD : forall is st tab st' fs z, inv cf st fs z -> idxF st = List.length fs -> Forall (fun i => (i < List.length fs)%nat) is -> Forall (entry st) tab ->
    split_pass nV nF k inD is st tab = Ok st' -> exists fs' z', inv cf st' fs' z' /\ idxF st' = List.length fs' /\ (List.length fs <= List.length fs')%nat.
  Proof.
    induction is as [|i is IH]; intros st tab st' fs z I XF FI TB H; cbn [split_pass] in H; [injection H as <-; exists fs, z; auto|].
    inversion FI; subst. bind_step H. destruct a as [st1 tab1]. destruct (grow_ok cf st fs z nV nF I) as (z1 & I1).
    destruct (propagate_ok cf inD i (grow nV nF k st) tab st1 tab1 fs z1 I1) as (TB1 & fs1 & z2 & I2 & XF2 & LE); try assumption.
    destruct (IH st1 tab1 st' fs1 z2 I2 XF2) as (fs' & z' & I3 & XF3 & LE3); try assumption.
    { eapply Forall_impl; [|eassumption]. cbn beta. intros; lia. }
    exists fs', z'. split; [exact I3|]. split; [exact XF3|lia].
  Qed.
  Lemma pair_passes_ok cf nV nF mid LLT : forall js st st' fs z, inv cf st fs z -> (idxF st = List.length fs \/ (z = 0%nat /\ (List.length fs <= idxF st)%nat)) ->
    pair_passes nV nF k mid LLT js st = Ok st' -> exists fs' z', inv cf st' fs' z' /\ (idxF st' = List.length fs' \/ (z' = 0%nat /\ (List.length fs' <= idxF st')%nat)).
  Proof.
    induction js as [|j js IH]; intros st st' fs z I XF H; cbn [pair_passes] in H; [injection H as <-; exists fs, z; auto|].
    destruct (has LLT mid && has LLT j); [|eapply IH; eassumption].
    destruct (Nat.leb (idxF st) (List.length (sF st))) eqn:LE; [|discriminate H]. apply Nat.leb_le in LE. bind_step H.
    (* a stale counter is noticed here *)
    assert (NS : idxF st = List.length fs).
    { destruct XF as [XF|[-> XF]]; [exact XF|]. pose proof (i_F _ _ _ _ I) as F. cbn [repeat] in F. rewrite app_nil_r in F. rewrite F in LE. lia. }
    assert (FI : Forall (fun i => (i < List.length fs)%nat) (seq 0 (idxF st))) by (rewrite Forall_forall; intros i IN; apply in_seq in IN; lia).
    destruct (split_pass_ok cf nV nF _ _ _ _ _ fs z I NS FI (Forall_nil _) E) as (fs2 & z2 & I2 & XF2 & _).
    eapply IH; [exact I2|left; exact XF2|exact H].
  Qed.

  (** ** carving *)
  Definition sound (st : state) (t : tet) (l : list bool) : Prop :=
    exists m, (m < k)%nat /\ l = one_hot k m /\ forall v j, In v t -> (j < k)%nat -> at_st st (3 + j) v < at_st st (3 + m) v + thr.
  Lemma select_app {A} (m1 m2 : list bool) (l1 l2 : list A) : List.length m1 = List.length l1 -> select (m1 ++ m2) (l1 ++ l2) = select m1 l1 ++ select m2 l2.
  Proof.
    unfold select. revert l1. induction m1 as [|b m1 IH]; intros [|x l1] L; try discriminate L; cbn [app combine filter map]; [reflexivity|].
    injection L as L. destruct b; cbn [fst map]; rewrite IH by exact L; reflexivity.
  Qed.
  Lemma select_false {A} z (l : list A) : select (repeat false z) l = [].
  Proof. unfold select. revert l. induction z as [|z IH]; intros [|x l]; cbn; auto. Qed.
  Lemma select_true {A} z (x : A) : select (repeat true z) (repeat x z) = repeat x z.
  Proof. unfold select. induction z as [|z IH]; cbn; [reflexivity|]. f_equal. exact IH. Qed.
  Lemma select_perm {A} (m : list bool) (l : list A) : List.length m = List.length l -> Permutation (select (map negb m) l ++ select m l) l.
  Proof.
    unfold select. revert l. induction m as [|b m IH]; intros [|x l] L; try discriminate L; cbn [map combine filter]; [apply perm_nil|].
    injection L as L. destruct b; cbn [negb fst map app]; [rewrite <- Permutation_middle|]; apply perm_skip, IH, L.
  Qed.
  Lemma select_length {A B} (m : list bool) (l : list A) (r : list B) : List.length l = List.length r -> List.length (select m l) = List.length (select m r).
  Proof.
    unfold select. revert l r. induction m as [|b m IH]; intros [|x l] [|y r] L; try discriminate L; cbn [combine filter map]; try reflexivity. injection L as L. destruct b; cbn [fst map List.length]; rewrite (IH l r L); reflexivity.
  Qed.
  Lemma select_in {A} (m : list bool) (l : list A) x : In x (select m l) -> exists i, nth_error m i = Some true /\ nth_error l i = Some x.
  Proof.
    unfold select. revert l. induction m as [|b m IH]; intros [|y l]; cbn [combine filter map]; try (intros []; fail). destruct b; cbn [fst map snd].
    - intros [->|H]; [exists 0%nat; auto|]. destruct (IH l H) as (i & A1 & A2). exists (S i). auto.
    - intro H. destruct (IH l H) as (i & A1 & A2). exists (S i). auto.
  Qed.
  Lemma argmax_from_spec : forall l best bi i (pre : list R), List.length pre = i -> (bi < i)%nat -> nth bi pre 0 = best -> (forall j, (j < i)%nat -> nth j pre 0 <= best) ->
    let m := argmax_from best bi i l in forall j, (j < i + List.length l)%nat -> nth j (pre ++ l) 0 <= nth m (pre ++ l) 0.
  Proof.
    induction l as [|x l IH]; intros best bi i pre L B N M; cbn [argmax_from]; cbv zeta.
    - rewrite app_nil_r. cbn [List.length]. intros j J. rewrite N. apply M. lia.
    - replace (pre ++ x :: l) with ((pre ++ [x]) ++ l) by (rewrite <- app_assoc; reflexivity). cbn [List.length]. intros j J.
      assert (LL : List.length (pre ++ [x]) = S i) by (rewrite app_length; cbn; lia).
      assert (NX : nth i (pre ++ [x]) 0 = x) by (rewrite app_nth2 by lia; replace (i - List.length pre)%nat with 0%nat by lia; reflexivity).
      destruct (Rlt_dec best x) as [H|H].
      + apply (IH x i (S i) (pre ++ [x]) LL); [lia|exact NX| |lia]. intros j' J'. destruct (Nat.eq_dec j' i) as [->|NE]; [rewrite NX; lra|]. rewrite app_nth1 by lia. pose proof (M j' ltac:(lia)). lra.
      + apply (IH best bi (S i) (pre ++ [x]) LL); [lia|rewrite app_nth1 by lia; exact N| |lia]. intros j' J'. destruct (Nat.eq_dec j' i) as [->|NE]; [rewrite NX; lra|]. rewrite app_nth1 by lia. apply M. lia.
  Qed.
  Lemma argmax_spec (l : list R) j : (j < List.length l)%nat -> nth j l 0 <= nth (argmax l) l 0.
  Proof.
    destruct l as [|x l]; [cbn; lia|]. intro H. cbn [argmax]. apply (argmax_from_spec l x 0 1 [x]); try reflexivity; [lia| |exact H].
    intros j' J'. replace j' with 0%nat by lia. cbn. lra.
  Qed.
  Lemma thr_pos : 0 < thr.
  Proof. unfold thr. lra. Qed.
  Lemma carved_sound mid st t : (mid < k)%nat -> shape k st -> carved k mid (sD st) t = Ok true -> sound st t (one_hot k mid).
  Proof.
    intros MK [SL SW] H. unfold carved in H. bind_step H. pose proof (rows_spec _ _ _ E) as F. exists mid. split; [exact MK|]. split; [reflexivity|]. intros v j I J.
    assert (K : exists d, In d a /\ nth v (sD st) [] = d /\ List.length d = k).
    { clear H E. induction F as [|i x t' a' H F IH]; [destruct I|]. destruct I as [->|I].
      - exists x. split; [left; reflexivity|]. split; [apply nth_error_nth, H|]. rewrite Forall_forall in SW. apply SW. eapply nth_error_In, H.
      - destruct (IH I) as (d & D1 & D2). exists d. split; [right; exact D1|exact D2]. }
    destruct K as (d & ID & ND & LD). unfold at_st, attr_of. cbn [Nat.add]. rewrite ND. pose proof thr_pos as TP.
    destruct (forallb (Nat.eqb mid) (map argmax a)) eqn:FB.
    - rewrite forallb_forall in FB. specialize (FB (argmax d) (in_map argmax _ _ ID)). apply Nat.eqb_eq in FB. pose proof (argmax_spec d j ltac:(lia)) as AM. rewrite <- FB in AM. lra.
    - injection H as H. rewrite forallb_forall in H. specialize (H j ltac:(apply in_seq; lia)). apply orb_prop in H. destruct H as [H|H]; [apply Nat.eqb_eq in H; subst; lra|].
      rewrite forallb_forall in H. specialize (H d ID). destruct (Rle_dec _ 0) as [L|L]; [lra|]. destruct (Rlt_dec _ thr) as [L2|L2]; [|discriminate]. pose proof (Rle_abs (nth j d 0 - nth mid d 0)). lra.
  Qed.
  Lemma sound_ext st st' t l : shape k st -> extends st st' -> fine st t -> sound st t l -> sound st' t l.
  Proof.
    intros S E (_ & _ & B) (m & M & L & H). exists m. split; [exact M|]. split; [exact L|]. intros v j I J. unfold below in B. rewrite Forall_forall in B.
    rewrite !(extends_attr k st st') by (auto). apply H; assumption.
  Qed.
  Lemma first_zero_none st l i : Forall (fine st) l -> first_zero l i = None.
  Proof.
    intro F. revert i. induction F as [|t l (Q & V & _) F IH]; intro i; cbn [first_zero]; [reflexivity|].
    destruct (forallb (fun v => Nat.eqb v 0) t) eqn:Z; [|apply IH]. exfalso. destruct (quad4 t Q) as (a & b & c & d & ->). cbn [forallb] in Z. rewrite !andb_true_iff in Z.
    destruct Z as (Z1 & Z2 & Z3 & Z4 & _). apply Nat.eqb_eq in Z1, Z2, Z3, Z4. subst. cbn [vol3] in V. lra.
  Qed.
  Lemma first_zero_zeros st l z i : Forall (fine st) l -> first_zero (l ++ repeat zero_tet (S z)) i = Some (i + List.length l)%nat.
  Proof.
    intro F. revert i. induction F as [|t l (Q & V & _) F IH]; intro i; cbn [app first_zero repeat]; [rewrite Nat.add_0_r; reflexivity|].
    destruct (forallb (fun v => Nat.eqb v 0) t) eqn:Z.
    - exfalso. destruct (quad4 t Q) as (a & b & c & d & ->). cbn [forallb] in Z. rewrite !andb_true_iff in Z.
      destruct Z as (Z1 & Z2 & Z3 & Z4 & _). apply Nat.eqb_eq in Z1, Z2, Z3, Z4. subst. cbn [vol3] in V. lra.
    - rewrite IH. f_equal. cbn. lia.
  Qed.
  Lemma nth_error_repeat_false n i : nth_error (repeat false n) i <> Some true.
  Proof. intro H. apply nth_error_In in H. apply repeat_spec in H. discriminate. Qed.
  Lemma carve_ok cf mid st st' c fs z : (mid < k)%nat -> inv cf st fs z -> (idxF st = List.length fs \/ (z = 0%nat /\ (List.length fs <= idxF st)%nat)) -> carve k mid st = Ok (st', c) ->
    sV st' = sV st /\ sD st' = sD st /\ Forall (fun t => sound st' t (one_hot k mid)) c /\
    exists fs' z', inv (cf ++ c) st' fs' z' /\ (idxF st' = List.length fs' \/ (z' = 0%nat /\ (List.length fs' <= idxF st')%nat)).
  Proof.
    intros MK I XF H. pose proof I as [X1 S1 F1 L1 FN TL]. unfold carve in H. bind_step H. cbv zeta in H. rename a into ct0.
    set (ct := ct0 ++ repeat false (List.length (sF st) - (idxF st - 1))) in *. injection H as <- <-. cbn [sV sD sF sL idxF].
    pose proof (mapE_ok _ _ _ E) as ME. assert (L0 : List.length ct0 = (idxF st - 1)%nat) by (rewrite <- (F2_length ME), seq_length; reflexivity).
    (* every examined row exists *)
    assert (LE : (idxF st - 1 <= List.length fs)%nat).
    { destruct XF as [XF|[-> XF]]; [lia|]. cbn [repeat] in F1. rewrite app_nil_r in F1.
      destruct (Nat.le_gt_cases (idxF st - 1) (List.length fs)) as [G|G]; [exact G|exfalso].
      assert (IN : In (List.length fs) (seq 0 (idxF st - 1))) by (apply in_seq; lia).
      clear - ME IN F1. remember (seq 0 (idxF st - 1)) as l. clear Heql. induction ME as [|x y l r H F IH]; [destruct IN|]. destruct IN as [->|IN]; [|exact (IH IN)].
      unfold get in H. rewrite F1 in H. rewrite (proj2 (nth_error_None fs (List.length fs))) in H by lia. cbn in H. discriminate. }
    set (cm := ct0 ++ repeat false (List.length fs - (idxF st - 1))).
    assert (LC : List.length cm = List.length fs) by (unfold cm; rewrite app_length, repeat_length; lia).
    assert (CT : ct = cm ++ repeat false z).
    { unfold ct, cm. rewrite F1, app_length, repeat_length, <- app_assoc, <- repeat_app. f_equal. f_equal. lia. }
    assert (SC : select ct (sF st) = select cm fs) by (rewrite CT, F1, select_app, select_false, app_nil_r by exact LC; reflexivity).
    assert (NC : select (map negb ct) (sF st) = select (map negb cm) fs ++ repeat zero_tet z).
    { rewrite CT, F1, map_app, select_app by (rewrite map_length; exact LC). f_equal. replace (map negb (repeat false z)) with (repeat true z) by (clear; induction z; cbn; congruence). apply select_true. }
    pose proof (select_perm cm fs LC) as PM.
    assert (FP : Forall (fine st) (select (map negb cm) fs ++ (cf ++ select cm fs))).
    { rewrite Forall_forall in *. intros t IT. apply FN. apply in_or_app. rewrite !in_app_iff in IT. destruct IT as [IT|[IT|IT]]; [left|right; exact IT|left]; (eapply Permutation_in; [exact PM|apply in_or_app; tauto]). }
    split; [reflexivity|]. split; [reflexivity|]. split.
    { rewrite SC. rewrite Forall_forall. intros t IT. apply select_in in IT. destruct IT as (i & A & B).
      assert (IL : (i < idxF st - 1)%nat).
      { destruct (Nat.lt_ge_cases i (idxF st - 1)) as [G|G]; [exact G|exfalso]. unfold cm in A. rewrite nth_error_app2 in A by lia. exact (nth_error_repeat_false _ _ A). }
      unfold cm in A. rewrite nth_error_app1 in A by lia.
      assert (CV : carved k mid (sD st) t = Ok true).
      { assert (G : forall n (l : list nat) r, Forall2 (fun x y => bind (get (sF st) x) (fun t => carved k mid (sD st) t) = Ok y) l r -> forall x y, nth_error l n = Some x -> nth_error r n = Some y -> bind (get (sF st) x) (fun t => carved k mid (sD st) t) = Ok y).
        { induction n as [|n IH]; intros l r F x y HX HY; destruct F; try discriminate; cbn in HX, HY; [congruence|]. eapply IH; eassumption. }
        assert (NS : nth_error (seq 0 (idxF st - 1)) i = Some i) by (rewrite nth_error_nth' with (d := 0%nat) by (rewrite seq_length; lia); rewrite seq_nth by lia; reflexivity).
        pose proof (G i _ _ ME i true NS A) as Q. unfold get in Q. rewrite F1, nth_error_app1, B in Q by (apply nth_error_Some; congruence). exact Q. }
      destruct (carved_sound mid st t MK S1 CV) as (m & Q1 & Q2 & Q3). exists m. auto. }
    exists (select (map negb cm) fs), z. split.
    - split; cbn [sV sD sF sL idxF].
      + exact X1.
      + exact S1.
      + exact NC.
      + apply select_length, L1.
      + rewrite SC. exact FP.
      + rewrite SC. eapply tiling_perm; [|exact TL]. rewrite (Permutation_app_comm cf). rewrite app_assoc. apply Permutation_app_tail, Permutation_sym, PM.
    - rewrite NC. rewrite Forall_app in FP. destruct FP as [FP _]. destruct z as [|z].
      + right. split; [reflexivity|]. cbn [repeat]. rewrite app_nil_r, (first_zero_none st _ _ FP).
        assert (LP : (List.length (select (map negb cm) fs) <= List.length fs)%nat) by (rewrite <- (Permutation_length PM), app_length; lia). destruct XF as [XF|[_ XF]]; lia.
      + left. rewrite (first_zero_zeros st _ _ _ FP). reflexivity.
  Qed.
End Inv.
Lemma materials_ok T k st0 nV nF : shape k st0 -> Forall (fine st0) T -> forall mids st cf cl st' cf' cl' fs z, Forall (fun m => (m < k)%nat) mids -> inv T k st0 cf st fs z ->
  (idxF st = List.length fs \/ (z = 0%nat /\ (List.length fs <= idxF st)%nat)) -> Forall2 (sound k st) cf cl ->
  materials nV nF k mids st (zero_tet :: cf) (repeat false k :: cl) = Ok (st', cf', cl') ->
  exists c l fs' z', cf' = zero_tet :: c /\ cl' = repeat false k :: l /\ inv T k st0 c st' fs' z' /\ Forall2 (sound k st') c l.
Proof.
  intros SH0 T0. induction mids as [|mid mids IH]; intros st cf cl st' cf' cl' fs z FM I XF SD H; cbn [materials] in H.
  - injection H as <- <- <-. exists cf, cl, fs, z. auto.
  - inversion FM; subst. bind_step H. rename a into st1. bind_step H. destruct a as [st2 c].
    destruct (pair_passes_ok T k st0 T0 cf nV nF mid _ _ _ _ _ _ I XF E) as (fs1 & z1 & I1 & XF1).
    destruct (carve_ok T k st0 SH0 cf mid st1 st2 c fs1 z1 ltac:(assumption) I1 XF1 E0) as (EV & ED & SC & fs2 & z2 & I2 & XF2).
    assert (X : extends st st1).
    { assert (T1 : Forall (fine st) T) by (eapply Forall_impl; [|exact T0]; intros t FT; exact (fine_ext k st0 st t SH0 (i_ext _ _ _ _ _ _ _ I) FT)).
      assert (J : inv T k st cf st fs z) by (destruct I; split; try assumption; apply extends_refl).
      destruct (pair_passes_ok T k st T1 cf nV nF mid _ _ _ _ _ _ J XF E) as (fs3 & z3 & I3 & _). exact (i_ext _ _ _ _ _ _ _ I3). }
    assert (X2 : extends st st2) by (destruct X as (A & B & EA & EB); exists A, B; rewrite EV, ED; auto).
    cbn [app] in H. eapply IH; [eassumption|exact I2|exact XF2| |exact H].
    apply Forall2_app.
    + pose proof (i_fine _ _ _ _ _ _ _ I) as FN. rewrite Forall_app in FN. destruct FN as [_ FN]. pose proof (i_shape _ _ _ _ _ _ _ I) as SH. clear - SD FN X2 SH.
      induction SD as [|t l cf cl H F IH]; constructor; inversion FN; subst; [|apply IH; assumption]. eapply sound_ext; eassumption.
    + clear - SC. induction SC as [|t c H F IH]; cbn; constructor; assumption.
Qed.
