From Coq Require Import List Arith ZArith Reals Bool Lia Lra.
From Verif Require Import PyExn LoopsModel LoopsProofs QuadModel QuadSpec QuadProofs Quad2Proofs Quad3Proofs.
Import ListNotations.
Open Scope Z_scope.

(** what a subdivision leaves in place *)
Record ext (dim : nat) (T T' : qtree) : Prop := {
  e_n : (qn T <= qn T')%nat;
  e_d : forall i, (i < qn T)%nat -> depth T' i = depth T i;
  e_w : forall i, (i < qn T)%nat -> width T' i = width T i;
  e_c : forall i, (i < qn T)%nat -> nth i (qC T') [] = nth i (qC T) [];
  e_p : forall i, (i < qn T)%nat -> parent T' i = parent T i;
  e_a : forall i j, (i < qn T)%nat -> (j < qn T)%nat -> qA T' i j = qA T i j;
  e_row : forall i, (i < qn T)%nat -> rowof T' i = rowof T i \/ rowof T i = lrow dim }.
Lemma ext_refl dim T : ext dim T T.
Proof. constructor; auto. Qed.
Lemma ext_trans dim T1 T2 T3 : ext dim T1 T2 -> ext dim T2 T3 -> ext dim T1 T3.
Proof.
  intros A B. pose proof (e_n _ _ _ A). pose proof (e_n _ _ _ B). constructor; [lia|..]; intros.
  - rewrite (e_d _ _ _ B), (e_d _ _ _ A); auto; lia.
  - rewrite (e_w _ _ _ B), (e_w _ _ _ A); auto; lia.
  - rewrite (e_c _ _ _ B), (e_c _ _ _ A); auto; lia.
  - rewrite (e_p _ _ _ B), (e_p _ _ _ A); auto; lia.
  - rewrite (e_a _ _ _ B), (e_a _ _ _ A); auto; lia.
  - destruct (e_row _ _ _ A i H1) as [E|E]; [|auto]. destruct (e_row _ _ _ B i) as [F|F]; [lia| |]; [left|right]; congruence.
Qed.

Lemma nth_app_l {A} (l r : list A) i d : (i < length l)%nat -> nth i (l ++ r) d = nth i l d.
Proof. apply app_nth1. Qed.
Lemma nth_app_rep {A} (l : list A) x m i d : (length l <= i < length l + m)%nat -> nth i (l ++ repeat x m) d = x.
Proof. intro H. rewrite app_nth2 by lia. rewrite nth_indep with (d' := x) by (rewrite repeat_length; lia). apply nth_repeat. Qed.
Lemma nth_set {A} (l : list A) k x j d : (k < length l)%nat -> nth j (set_nth l k x) d = if Nat.eqb j k then x else nth j l d.
Proof.
  intro H. destruct (Nat.ltb_spec j (length l)) as [Hj|Hj].
  - apply nth_error_nth. rewrite nth_error_set_nth. destruct (Nat.eqb_spec j k).
    + rewrite (nth_error_some l j d) by auto. reflexivity.
    + apply nth_error_nth', Hj.
  - destruct (Nat.eqb_spec j k); [lia|]. rewrite !nth_overflow; auto. rewrite set_nth_length. auto.
Qed.
Lemma offsets_length dim : (dim = 2 \/ dim = 3)%nat -> length (offsets dim) = (2 ^ dim)%nat.
Proof. intros [-> | ->]; reflexivity. Qed.
Lemma offsets_nth dim q k : (dim = 2 \/ dim = 3)%nat -> (q < 2 ^ dim)%nat -> (k < dim)%nat ->
  length (nth q (offsets dim) []) = dim /\ nth k (nth q (offsets dim) []) 0%R = (2 * IZR (bit k q) - 1)%R.
Proof.
  intros [-> | ->] Hq Hk; cbn in Hq.
  - destruct q as [|[|[|[|]]]], k as [|[|]]; try lia; (split; [reflexivity|]); unfold bit; cbn; lra.
  - destruct q as [|[|[|[|[|[|[|[|]]]]]]]], k as [|[|[|]]]; try lia; (split; [reflexivity|]); unfold bit; cbn; lra.
Qed.
Lemma move_nth c w o k : length o = length c -> (k < length c)%nat -> nth k (move c w o) 0%R = (nth k c 0 + 0.25 * w * nth k o 0)%R.
Proof.
  unfold move. revert o k. induction c as [|x c IH]; intros [|y o] k E Hk; cbn in *; try lia. destruct k; [reflexivity|]. apply IH; lia.
Qed.

Section split.
Context (dim : nat) (lo : nat -> R) (w0 : R) (T : qtree) (X : nat -> nat -> Z) (ind : nat).
Hypothesis I : inv dim lo w0 T X.
Hypothesis Hind : (ind < qn T)%nat.
Hypothesis L : rowof T ind = lrow dim.
Notation T2 := (splitT dim T ind).
Notation X2 := (X' T X ind).
Notation n := (qn T).

Lemma s_n : qn T2 = (n + 2 ^ dim)%nat.
Proof using I Hind L. unfold qn, splitT. cbn [qC]. rewrite app_length, map_length, offsets_length by apply (i_dim _ _ _ _ _ I). reflexivity. Qed.
Lemma s_depth i : (i < n + 2 ^ dim)%nat -> depth T2 i = if Nat.ltb i n then depth T i else S (depth T ind).
Proof using I Hind L.
  intro H. unfold depth at 1, splitT. cbn [qD]. destruct (Nat.ltb_spec i n).
  - apply nth_app_l. rewrite (i_lD _ _ _ _ _ I). auto.
  - rewrite nth_app_rep by (rewrite (i_lD _ _ _ _ _ I); lia). lia.
Qed.
Lemma s_width i : (i < n + 2 ^ dim)%nat -> width T2 i = if Nat.ltb i n then width T i else (0.5 * width T ind)%R.
Proof using I Hind L.
  intro H. unfold width at 1, splitT. cbn [qW]. destruct (Nat.ltb_spec i n).
  - apply nth_app_l. rewrite (i_lW _ _ _ _ _ I). auto.
  - rewrite nth_app_rep by (rewrite (i_lW _ _ _ _ _ I); lia). reflexivity.
Qed.
Lemma s_par i : (i < n + 2 ^ dim)%nat -> parent T2 i = if Nat.ltb i n then parent T i else Z.of_nat ind.
Proof using I Hind L.
  intro H. unfold parent at 1, splitT. cbn [qPAR]. destruct (Nat.ltb_spec i n).
  - apply nth_app_l. rewrite (i_lP _ _ _ _ _ I). auto.
  - rewrite nth_app_rep by (rewrite (i_lP _ _ _ _ _ I); lia). reflexivity.
Qed.
Lemma s_row i : (i < n + 2 ^ dim)%nat -> rowof T2 i = if Nat.eqb i ind then krow dim n else if Nat.ltb i n then rowof T i else lrow dim.
Proof using I Hind L.
  intro H. unfold rowof at 1, splitT. cbn [qCH]. destruct (Nat.ltb_spec i n).
  - rewrite nth_app_l by (rewrite set_nth_length, (i_lCH _ _ _ _ _ I); auto). rewrite nth_set by (rewrite (i_lCH _ _ _ _ _ I); auto). reflexivity.
  - rewrite nth_app_rep by (rewrite set_nth_length, (i_lCH _ _ _ _ _ I); lia). destruct (Nat.eqb_spec i ind); [lia|reflexivity].
Qed.
Lemma s_C_old i : (i < n)%nat -> nth i (qC T2) [] = nth i (qC T) [].
Proof using I Hind L. intro H. unfold splitT. cbn [qC]. apply nth_app_l. exact H. Qed.
Lemma s_C_new q : (q < 2 ^ dim)%nat -> nth (n + q) (qC T2) [] = move (nth ind (qC T) []) (width T ind) (nth q (offsets dim) []).
Proof using I Hind L.
  intro H. unfold splitT. cbn [qC]. rewrite app_nth2 by (unfold qn; lia). replace (n + q - length (qC T))%nat with q by (unfold qn; lia).
  rewrite (nth_indep _ [] (move (nth ind (qC T) []) (width T ind) [])) by (rewrite map_length, offsets_length; auto; apply (i_dim _ _ _ _ _ I)).
  rewrite (map_nth (move (nth ind (qC T) []) (width T ind))). reflexivity.
Qed.
Lemma s_x_new q k : X2 (n + q)%nat k = kid (X ind) q k.
Proof using I Hind L. unfold X'. destruct (Nat.ltb_spec (n + q) n); [lia|]. f_equal. lia. Qed.
Lemma s_x_old i k : (i < n)%nat -> X2 i k = X i k.
Proof using I Hind L. intro H. unfold X'. rewrite (proj2 (Nat.ltb_lt _ _) H). reflexivity. Qed.

Lemma kids_old p n0 : (p < n)%nat -> kids dim T X p n0 -> kids dim T2 X2 p n0.
Proof using I Hind L.
  intros Hp K. pose proof (k_lt _ _ _ _ _ K). pose proof (k_in _ _ _ _ _ K).
  constructor; auto.
  - rewrite s_n. lia.
  - rewrite s_row by lia. destruct (Nat.eqb_spec p ind) as [->|N].
    + exfalso. apply (krow_not_leaf dim n0). rewrite <- (k_row _ _ _ _ _ K). exact L.
    + rewrite (proj2 (Nat.ltb_lt _ _) Hp). apply (k_row _ _ _ _ _ K).
  - intros q Hq. rewrite s_par by lia. replace (n0 + q <? n)%nat with true by (symmetry; apply Nat.ltb_lt; lia). apply (k_par _ _ _ _ _ K q Hq).
  - intros q Hq. rewrite !s_depth by lia. replace (n0 + q <? n)%nat with true by (symmetry; apply Nat.ltb_lt; lia). rewrite (proj2 (Nat.ltb_lt _ _) Hp). apply (k_dep _ _ _ _ _ K q Hq).
  - intros q k Hq Hk. rewrite s_x_old by lia. rewrite (k_x _ _ _ _ _ K q k Hq Hk). unfold kid. rewrite s_x_old by auto. reflexivity.
Qed.
Lemma kids_new : kids dim T2 X2 ind n.
Proof using I Hind L.
  constructor; auto.
  - rewrite s_n. lia.
  - rewrite s_row by lia. rewrite Nat.eqb_refl. reflexivity.
  - intros q Hq. rewrite s_par by lia. replace (n + q <? n)%nat with false by (symmetry; apply Nat.ltb_ge; lia). reflexivity.
  - intros q Hq. rewrite !s_depth by lia. replace (n + q <? n)%nat with false by (symmetry; apply Nat.ltb_ge; lia). rewrite (proj2 (Nat.ltb_lt _ _) Hind). reflexivity.
  - intros q k Hq Hk. rewrite s_x_new. unfold kid. rewrite s_x_old by auto. reflexivity.
Qed.
Lemma dirg_ext s d x y d' x' y' k : (forall l, (l < dim)%nat -> x l = y l) -> (forall l, (l < dim)%nat -> x' l = y' l) -> (k < dim)%nat ->
  dirg dim s d x d' x' k <-> dirg dim s d y d' y' k.
Proof using.
  intros E E' Hk. unfold dirg, touchg. destruct s; rewrite (E k Hk), (E' k Hk); split; intros [A B]; (split; [exact A|]); intros l Hl N; specialize (B l Hl N);
    rewrite ?(E l Hl), ?(E' l Hl) in *; auto.
Qed.
Lemma split_inv : inv dim lo w0 T2 X2.
Proof using I Hind L.
  pose proof (i_dim _ _ _ _ _ I) as Hd. pose proof s_n as En. pose proof (pow2_pos dim) as P2.
  assert (forall i, (i < n)%nat -> (i <? n)%nat = true) as Lt by (intros; apply Nat.ltb_lt; auto).
  assert (forall i, (n <= i)%nat -> (i <? n)%nat = false) as Ge by (intros; apply Nat.ltb_ge; auto).
  assert (forall i, (i < n + 2 ^ dim)%nat -> (i < n)%nat \/ exists q, (q < 2 ^ dim)%nat /\ i = (n + q)%nat) as Cases.
  { intros i Hi. destruct (Nat.ltb_spec i n); [auto|right]. exists (i - n)%nat. lia. }
  pose proof (i_n _ _ _ _ _ I) as N1.
  constructor.
  - exact Hd.
  - lia.
  - unfold splitT at 1. cbn [qW]. rewrite app_length, repeat_length, En, (i_lW _ _ _ _ _ I). reflexivity.
  - unfold splitT at 1. cbn [qCH]. rewrite app_length, repeat_length, set_nth_length, En, (i_lCH _ _ _ _ _ I). reflexivity.
  - unfold splitT at 1. cbn [qPAR]. rewrite app_length, repeat_length, En, (i_lP _ _ _ _ _ I). reflexivity.
  - unfold splitT at 1. cbn [qD]. rewrite app_length, repeat_length, En, (i_lD _ _ _ _ _ I). reflexivity.
  - rewrite s_depth, Lt by lia. apply (i_d0 _ _ _ _ _ I).
  - rewrite s_par, Lt by lia. apply (i_p0 _ _ _ _ _ I).
  - intros i Hi. rewrite En in Hi. destruct (Cases i Hi) as [Ho|(q & Hq & ->)].
    + rewrite s_depth, Lt by lia. destruct (i_rng _ _ _ _ _ I i Ho) as [A B]. split; [exact A|]. intros k Hk. rewrite s_x_old by auto. apply B, Hk.
    + rewrite s_depth, Ge by lia. split; [lia|]. intros k Hk. rewrite s_x_new. unfold kid. destruct (i_rng _ _ _ _ _ I ind Hind) as [A B]. specialize (B k Hk). pose proof (bit_range k q).
      replace (depth T ind) with (S (depth T ind - 1)) in * by lia. rewrite !pw_S in *. lia.
  - intros i Hi. rewrite En in Hi. destruct (Cases i Hi) as [Ho|(q & Hq & ->)].
    + rewrite s_width, s_depth, !Lt by lia. apply (i_w _ _ _ _ _ I i Ho).
    + rewrite s_width, s_depth, !Ge by lia. rewrite <- (i_w _ _ _ _ _ I ind Hind). rewrite pw_S, mult_IZR. replace 0.5%R with (/ 2)%R by lra. field.
  - intros i Hi. rewrite En in Hi. destruct (Cases i Hi) as [Ho|(q & Hq & ->)].
    + rewrite s_C_old by auto. apply (i_lc _ _ _ _ _ I i Ho).
    + rewrite s_C_new by auto. unfold move. rewrite map_length, combine_length, (i_lc _ _ _ _ _ I ind Hind).
      destruct (offsets_nth dim q 0 Hd Hq) as [E _]; [lia|]. rewrite E. lia.
  - intros i k Hi Hk. rewrite En in Hi. destruct (Cases i Hi) as [Ho|(q & Hq & ->)].
    + unfold centre. rewrite s_C_old, s_width, Lt, s_x_old by lia. apply (i_c _ _ _ _ _ I i k Ho Hk).
    + unfold centre. rewrite s_C_new, s_width, Ge, s_x_new by lia. destruct (offsets_nth dim q k Hd Hq Hk) as [E1 E2].
      rewrite move_nth by (rewrite (i_lc _ _ _ _ _ I ind Hind); auto). rewrite E2. fold (centre T ind k). rewrite (i_c _ _ _ _ _ I ind k Hind Hk).
      unfold kid. rewrite plus_IZR, mult_IZR. replace 0.5%R with (/ 2)%R by lra. replace 0.25%R with (/ 4)%R by lra. field.
  - intros i Hi. rewrite En in Hi. destruct (Cases i Hi) as [Ho|(q & Hq & ->)].
    + destruct (Nat.eq_dec i ind) as [->|Ni]; [right; exists n; apply kids_new|].
      rewrite s_row, Lt by lia. rewrite (proj2 (Nat.eqb_neq _ _) Ni). destruct (i_row _ _ _ _ _ I i Ho) as [E|[n0 K]]; [auto|right].
      exists n0. apply kids_old; auto.
    + left. rewrite s_row, Ge by lia. destruct (Nat.eqb_spec (n + q) ind); [lia|reflexivity].
  - intros i Hi. rewrite En in Hi. destruct (Cases i) as [Ho|(q & Hq & ->)]; [lia| |].
    + destruct (i_par _ _ _ _ _ I i) as (p & n0 & q & K & Hq & E); [lia|]. exists p, n0, q. split; [|auto]. apply kids_old; auto.
      pose proof (k_lt _ _ _ _ _ K). lia.
    + exists ind, n, q. split; [apply kids_new|auto].
  - intros i j k s Hi Hj Hk. rewrite En in Hi, Hj. unfold splitT at 3. cbn [qA].
    destruct (Cases i Hi) as [Ho|(q & Hq & ->)]; destruct (Cases j Hj) as [Hjo|(q' & Hq' & ->)]; rewrite ?(Lt i), ?(Lt j), ?(Ge (n + q)%nat), ?(Ge (n + q')%nat) by lia; rewrite !s_depth by lia;
      rewrite ?(Lt i), ?(Lt j), ?(Ge (n + q)%nat), ?(Ge (n + q')%nat) by lia.
    + rewrite <- (i_adj _ _ _ _ _ I i j k s Ho Hjo Hk). apply dirg_ext; auto; intros; apply s_x_old; auto.
    + replace (n + q' - n)%nat with q' by lia. rewrite <- (rect_val _ _ _ _ _ _ I Hind L i q' k s Ho Hq' Hk).
      apply dirg_ext; auto; intros; [apply s_x_old; auto|apply s_x_new].
    + replace (n + q - n)%nat with q by lia. rewrite dirg_sym.
      rewrite (dirg_ext (negb s) _ _ (X j) _ _ (kid (X ind) q) k); auto; [|intros; apply s_x_old; auto|intros; apply s_x_new].
      rewrite (rect_val _ _ _ _ _ _ I Hind L j q k (negb s) Hjo Hq Hk).
      destruct (rect_codes _ _ _ _ _ _ I Hind L j q Hjo Hq) as [E|(k' & s' & Hk' & E)]; rewrite E.
      * change (flip_dir 0) with 0. split; intro H; symmetry in H; destruct (code_pos _ _ H).
      * rewrite (flip_code dim) by auto. split; intro H; apply code_inj in H as [-> H]; rewrite ?H, <- ?H; f_equal; destruct s, s'; auto; discriminate.
    + replace (n + q - n)%nat with q by lia. replace (n + q' - n)%nat with q' by lia.
      rewrite <- (sib_touch _ _ _ _ _ _ I Hind (X ind) (S (depth T ind)) q q' k s Hq Hq' Hk).
      apply dirg_ext; auto; intros; apply s_x_new.
  - intros i j Hi Hj. rewrite En in Hi, Hj. unfold splitT. cbn [qA].
    destruct (Cases i Hi) as [Ho|(q & Hq & ->)]; destruct (Cases j Hj) as [Hjo|(q' & Hq' & ->)]; rewrite ?(Lt i), ?(Lt j), ?(Ge (n + q)%nat), ?(Ge (n + q')%nat) by lia.
    + apply (i_codes _ _ _ _ _ I i j Ho Hjo).
    + replace (n + q' - n)%nat with q' by lia. apply (rect_codes _ _ _ _ _ _ I Hind L i q' Ho Hq').
    + replace (n + q - n)%nat with q by lia. destruct (rect_codes _ _ _ _ _ _ I Hind L j q Hjo Hq) as [E|(k' & s' & Hk' & E)]; rewrite E; [left; reflexivity|right].
      exists k', (negb s'). split; [auto|apply (flip_code dim); auto].
    + replace (n + q - n)%nat with q by lia. replace (n + q' - n)%nat with q' by lia. apply table_sq_codes; auto.
Qed.
Lemma split_ext : ext dim T T2.
Proof using I Hind L.
  pose proof s_n as En. pose proof (pow2_pos dim) as P2. constructor; [lia|..]; intros.
  - rewrite s_depth by lia. rewrite (proj2 (Nat.ltb_lt _ _) H). reflexivity.
  - rewrite s_width by lia. rewrite (proj2 (Nat.ltb_lt _ _) H). reflexivity.
  - apply s_C_old, H.
  - rewrite s_par by lia. rewrite (proj2 (Nat.ltb_lt _ _) H). reflexivity.
  - unfold splitT. cbn [qA]. rewrite (proj2 (Nat.ltb_lt _ _) H), (proj2 (Nat.ltb_lt _ _) H0). reflexivity.
  - rewrite s_row by lia. rewrite (proj2 (Nat.ltb_lt _ _) H). destruct (Nat.eqb_spec i ind); [subst; auto|auto].
Qed.
End split.
