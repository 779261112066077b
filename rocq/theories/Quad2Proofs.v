From Coq Require Import List Arith ZArith Reals Bool Lia Lra.
From Verif Require Import PyExn LoopsModel LoopsProofs QuadModel QuadSpec QuadProofs.
Import ListNotations.
Open Scope Z_scope.

(** ** touching of cells given by depth and integer coordinates *)
Definition touchg (dim d : nat) (x : nat -> Z) (d' : nat) (x' : nat -> Z) (k : nat) : Prop :=
  abut d (x k) d' (x' k) /\ forall l, (l < dim)%nat -> l <> k -> overlap d (x l) d' (x' l).
Definition dirg (dim : nat) (s : bool) (d : nat) (x : nat -> Z) (d' : nat) (x' : nat -> Z) (k : nat) : Prop :=
  if s then touchg dim d x d' x' k else touchg dim d' x' d x k.
Lemma dirg_sym dim s d x d' x' k : dirg dim s d x d' x' k <-> dirg dim (negb s) d' x' d x k.
Proof. destruct s; reflexivity. Qed.
Definition kid (x : nat -> Z) (q k : nat) : Z := 2 * x k + bit k q.

Lemma coarse_child dim s d e x y q k :
  dirg dim s d x (S (d + e)) (kid y q) k <-> dirg dim s d x (d + e) y k /\ bit k q = (if s then 0 else 1).
Proof.
  pose proof (fun k => bit_range k q) as B. unfold dirg, touchg, kid.
  assert (forall l, overlap d (x l) (S (d + e)) (2 * y l + bit l q) <-> overlap d (x l) (d + e) (y l)) as O.
  { intro l. apply overlap_cf_child, B. }
  assert (forall l, overlap (S (d + e)) (2 * y l + bit l q) d (x l) <-> overlap (d + e) (y l) d (x l)) as O'.
  { intro l. rewrite (overlap_sym (S (d + e))), (overlap_sym (d + e)). apply O. }
  destruct s; [rewrite abut_cf_child by apply B|rewrite abut_fc_child by apply B].
  - split; [intros [[E E'] F]|intros [[E F] E']]; (split; [split|]); auto; intros l Hl N; apply O; auto.
  - split; [intros [[E E'] F]|intros [[E F] E']]; (split; [split|]); auto; intros l Hl N; apply O'; auto.
Qed.

(** a fine cell z below the child c of the cell y of depth d, against the cell x of depth d and its child q *)
Lemma fine_child dim s d e x y z c q k : (k < dim)%nat ->
  (forall l, (l < dim)%nat -> kid y c l * pw e <= z l < (kid y c l + 1) * pw e) ->
  ~ (forall l, (l < dim)%nat -> x l = y l) ->
  dirg dim s (S d + e) z (S d) (kid x q) k <->
  dirg dim s (S d + e) z d x k /\ bit k c = (if s then 1 else 0) /\ bit k q = (if s then 0 else 1) /\ forall l, (l < dim)%nat -> l <> k -> bit l q = bit l c.
Proof.
  intros Hk Hz Hne. unfold kid in *.
  pose proof (fun l => bit_range l q) as Bq. pose proof (fun l => bit_range l c) as Bc.
  assert (forall l, (l < dim)%nat -> overlap d (x l) (S d + e) (z l) <-> x l = y l) as O.
  { intros l Hl. apply (fine_overlap d e (x l) (y l) (bit l c) 0 (z l)); auto; lia. }
  assert (forall l, (l < dim)%nat -> overlap (S d) (2 * x l + bit l q) (S d + e) (z l) <-> 2 * x l + bit l q = 2 * y l + bit l c) as O'.
  { intros l Hl. apply (fine_overlap_child d e (x l) (y l) (bit l c) (bit l q) (z l)); auto; lia. }
  specialize (Bq k) as Bqk. specialize (Bc k) as Bck.
  unfold dirg, touchg. destruct s.
  - rewrite (fine_abut_l d e (x k) (y k) (bit k c) (bit k q) (z k)), (fine_abut_l_child d e (x k) (y k) (bit k c) (bit k q) (z k)) by auto.
    split.
    + intros [[E F] G].
      assert (forall l, (l < dim)%nat -> l <> k -> x l = y l /\ bit l q = bit l c) as G'.
      { intros l Hl N. specialize (G l Hl N). apply overlap_sym, O' in G; auto. specialize (Bq l). specialize (Bc l). lia. }
      assert (bit k q = 0 /\ bit k c = 1) as [E1 E2].
      { assert (bit k q = 1 /\ bit k c = 0 \/ bit k q = 0 /\ bit k c = 1) as [[E1 E2]|?] by lia; auto. exfalso. apply Hne. intros l Hl.
        destruct (Nat.eq_dec l k) as [->|N]; [lia|apply G'; auto]. }
      split; [split; [repeat split; auto; lia|]|split; [exact E2|split; [exact E1|]]]; intros l Hl N.
      { apply overlap_sym, O; auto. apply G'; auto. }
      { apply G'; auto. }
    + intros [[(E & E' & F) G] (_ & Eq & Gq)]. split; [split; [lia|auto]|].
      intros l Hl N. apply overlap_sym, O'; auto. specialize (G l Hl N). apply overlap_sym, O in G; auto. rewrite G, Gq by auto. lia.
  - rewrite (fine_abut_r d e (x k) (y k) (bit k c) (bit k q) (z k)), (fine_abut_r_child d e (x k) (y k) (bit k c) (bit k q) (z k)) by auto.
    split.
    + intros [[E F] G].
      assert (forall l, (l < dim)%nat -> l <> k -> x l = y l /\ bit l q = bit l c) as G'.
      { intros l Hl N. specialize (G l Hl N). apply O' in G; auto. specialize (Bq l). specialize (Bc l). lia. }
      assert (bit k q = 1 /\ bit k c = 0) as [E1 E2].
      { assert (bit k q = 0 /\ bit k c = 1 \/ bit k q = 1 /\ bit k c = 0) as [[E1 E2]|?] by lia; auto. exfalso. apply Hne. intros l Hl.
        destruct (Nat.eq_dec l k) as [->|N]; [lia|apply G'; auto]. }
      split; [split; [repeat split; auto; lia|]|split; [exact E2|split; [exact E1|]]]; intros l Hl N.
      { apply O; auto. apply G'; auto. }
      { apply G'; auto. }
    + intros [[(E & E' & F) G] (_ & Eq & Gq)]. split; [split; [lia|auto]|].
      intros l Hl N. apply O'; auto. specialize (G l Hl N). apply O in G; auto. rewrite G, Gq by auto. lia.
Qed.

(** ** the invariant *)
Definition krow (dim n0 : nat) : list Z := map (fun q => Z.of_nat (n0 + q)) (seq 0 (2 ^ dim)).
Definition lrow (dim : nat) : list Z := repeat (-1) (2 ^ dim).
Definition rowof (T : qtree) (i : nat) : list Z := nth i (qCH T) [].
Record kids (dim : nat) (T : qtree) (X : nat -> nat -> Z) (p n0 : nat) : Prop := {
  k_lt : (p < n0)%nat; k_in : (n0 + 2 ^ dim <= qn T)%nat; k_row : rowof T p = krow dim n0;
  k_par : forall q, (q < 2 ^ dim)%nat -> parent T (n0 + q) = Z.of_nat p;
  k_dep : forall q, (q < 2 ^ dim)%nat -> depth T (n0 + q) = S (depth T p);
  k_x : forall q k, (q < 2 ^ dim)%nat -> (k < dim)%nat -> X (n0 + q)%nat k = kid (X p) q k }.
Record inv (dim : nat) (lo : nat -> R) (w0 : R) (T : qtree) (X : nat -> nat -> Z) : Prop := {
  i_dim : (dim = 2 \/ dim = 3)%nat;
  i_n : (1 <= qn T)%nat;
  i_lW : length (qW T) = qn T; i_lCH : length (qCH T) = qn T; i_lP : length (qPAR T) = qn T; i_lD : length (qD T) = qn T;
  i_d0 : depth T 0 = 1%nat; i_p0 : parent T 0 = -1;
  i_rng : forall i, (i < qn T)%nat -> (1 <= depth T i)%nat /\ forall k, (k < dim)%nat -> 0 <= X i k /\ 2 * X i k < pw (depth T i);
  i_w : forall i, (i < qn T)%nat -> (width T i * IZR (pw (depth T i)) = 2 * w0)%R;
  i_lc : forall i, (i < qn T)%nat -> length (nth i (qC T) []) = dim;
  i_c : forall i k, (i < qn T)%nat -> (k < dim)%nat -> (centre T i k = lo k + (IZR (X i k) + 1 / 2) * width T i)%R;
  i_row : forall i, (i < qn T)%nat -> rowof T i = lrow dim \/ exists n0, kids dim T X i n0;
  i_par : forall i, (0 < i < qn T)%nat -> exists p n0 q, kids dim T X p n0 /\ (q < 2 ^ dim)%nat /\ i = (n0 + q)%nat;
  i_adj : forall i j k s, (i < qn T)%nat -> (j < qn T)%nat -> (k < dim)%nat ->
    dirg dim s (depth T i) (X i) (depth T j) (X j) k <-> qA T i j = code k s;
  i_codes : forall i j, (i < qn T)%nat -> (j < qn T)%nat -> qA T i j = 0 \/ exists k s, (k < dim)%nat /\ qA T i j = code k s }.

Lemma nth_error_some {A} (l : list A) i d : (i < length l)%nat -> nth_error l i = Some (nth i l d).
Proof. apply nth_error_nth'. Qed.
Lemma pow2_pos n : (0 < 2 ^ n)%nat.
Proof. apply Nat.neq_0_lt_0, Nat.pow_nonzero. lia. Qed.
Lemma krow_nth dim n0 q d : (q < 2 ^ dim)%nat -> nth q (krow dim n0) d = Z.of_nat (n0 + q).
Proof.
  intro H. unfold krow. rewrite (nth_indep _ d (Z.of_nat (n0 + 0))) by (rewrite map_length, seq_length; auto).
  rewrite (map_nth (fun q => Z.of_nat (n0 + q))), seq_nth by auto. reflexivity.
Qed.
Lemma krow_inj dim n0 n1 : krow dim n0 = krow dim n1 -> n0 = n1.
Proof. intro E. pose proof (krow_nth dim n0 0 0 (pow2_pos dim)) as H. rewrite E, krow_nth in H by apply pow2_pos. lia. Qed.
Lemma krow_not_leaf dim n0 : krow dim n0 <> lrow dim.
Proof.
  intro E. pose proof (krow_nth dim n0 0 0 (pow2_pos dim)) as H. rewrite E in H. unfold lrow in H. pose proof (pow2_pos dim).
  destruct (2 ^ dim)%nat; [lia|]. cbn in H. lia.
Qed.
Lemma krow_length dim n0 : length (krow dim n0) = (2 ^ dim)%nat.
Proof. unfold krow. rewrite map_length. apply seq_length. Qed.
Lemma lrow_nth dim q d : (q < 2 ^ dim)%nat -> nth q (lrow dim) d = -1.
Proof. intro H. unfold lrow. rewrite nth_indep with (d' := -1) by (rewrite repeat_length; auto). apply nth_repeat. Qed.

Section inv.
Context (dim : nat) (lo : nat -> R) (w0 : R) (T : qtree) (X : nat -> nat -> Z).
Hypothesis I : inv dim lo w0 T X.

Lemma kids_unique p n0 n1 : kids dim T X p n0 -> kids dim T X p n1 -> n0 = n1.
Proof using. intros A B. apply (krow_inj dim). rewrite <- (k_row _ _ _ _ _ A), <- (k_row _ _ _ _ _ B). reflexivity. Qed.
Lemma kids_of_par p n0 q p' n1 q' : kids dim T X p n0 -> kids dim T X p' n1 -> (q < 2 ^ dim)%nat -> (q' < 2 ^ dim)%nat ->
  (n0 + q = n1 + q')%nat -> p = p' /\ n0 = n1 /\ q = q'.
Proof using.
  intros A B Hq Hq' E. assert (p = p').
  { pose proof (k_par _ _ _ _ _ A q Hq) as P. rewrite E, (k_par _ _ _ _ _ B q' Hq') in P. lia. }
  subst p'. assert (n0 = n1) by (eapply kids_unique; eauto). lia.
Qed.
Lemma uniq : forall d i j, (i < qn T)%nat -> (j < qn T)%nat -> depth T i = d -> depth T j = d ->
  (forall k, (k < dim)%nat -> X i k = X j k) -> i = j.
Proof using I.
  induction d as [d IH] using lt_wf_ind. intros i j Hi Hj Di Dj E.
  assert (forall i, (0 < i < qn T)%nat -> (2 <= depth T i)%nat) as Two.
  { intros m Hm. destruct (i_par _ _ _ _ _ I m Hm) as (p & n0 & q & K & Hq & ->). rewrite (k_dep _ _ _ _ _ K q Hq).
    destruct (i_rng _ _ _ _ _ I p); [|lia]. pose proof (k_lt _ _ _ _ _ K). lia. }
  destruct (Nat.eq_dec i 0) as [->|Ni].
  - destruct (Nat.eq_dec j 0) as [->|Nj]; [reflexivity|]. rewrite (i_d0 _ _ _ _ _ I) in Di. specialize (Two j). lia.
  - destruct (Nat.eq_dec j 0) as [->|Nj]; [rewrite (i_d0 _ _ _ _ _ I) in Dj; specialize (Two i); lia|].
    destruct (i_par _ _ _ _ _ I i) as (p & n0 & q & K & Hq & Ei); [lia|].
    destruct (i_par _ _ _ _ _ I j) as (p' & n1 & q' & K' & Hq' & Ej); [lia|].
    pose proof (k_dep _ _ _ _ _ K q Hq) as Dq. pose proof (k_dep _ _ _ _ _ K' q' Hq') as Dq'. rewrite <- Ei in Dq. rewrite <- Ej in Dq'.
    pose proof (k_lt _ _ _ _ _ K). pose proof (k_lt _ _ _ _ _ K').
    assert (forall k, (k < dim)%nat -> X p k = X p' k /\ bit k q = bit k q') as E'.
    { intros k Hk. specialize (E k Hk). rewrite Ei, Ej, (k_x _ _ _ _ _ K q k Hq Hk), (k_x _ _ _ _ _ K' q' k Hq' Hk) in E. unfold kid in E.
      pose proof (bit_range k q). pose proof (bit_range k q'). lia. }
    assert (p = p').
    { apply (IH (depth T p)); try lia. intros k Hk. apply E', Hk. }
    subst p'. assert (n0 = n1) by (eapply kids_unique; eauto). subst n1.
    assert (q = q') by (apply (bits_inj dim); auto; [apply (i_dim _ _ _ _ _ I)|intros k Hk; apply E', Hk]). lia.
Qed.

(** climbing *)
Lemma climb_ok d : forall m nb, (nb < qn T)%nat -> (1 <= d)%nat -> depth T nb = m -> (d < m)%nat ->
  exists p n0 q, climb (qPAR T) (qD T) d (Z.of_nat nb) m (parent T nb) = Ok (Z.of_nat (n0 + q), Z.of_nat p) /\
    kids dim T X p n0 /\ (q < 2 ^ dim)%nat /\ depth T p = d /\
    forall k, (k < dim)%nat -> X (n0 + q)%nat k * pw (m - S d) <= X nb k < (X (n0 + q)%nat k + 1) * pw (m - S d).
Proof using I.
  induction m as [|m IH]; intros nb Hnb Hd Em Hm; [lia|].
  destruct (i_par _ _ _ _ _ I nb) as (p & n0 & q & K & Hq & E).
  { split; [|auto]. destruct nb; [|lia]. rewrite (i_d0 _ _ _ _ _ I) in Em. lia. }
  pose proof (k_dep _ _ _ _ _ K q Hq) as Dq. rewrite <- E in Dq.
  pose proof (k_par _ _ _ _ _ K q Hq) as Pq. rewrite <- E in Pq. pose proof (k_lt _ _ _ _ _ K) as Lt.
  destruct (Nat.ltb_spec (d + 1) (S m)) as [L|L].
  - cbn [climb]. rewrite (proj2 (Nat.ltb_lt _ _) L). rewrite Pq, Nat2Z.id.
    rewrite (nth_error_some (qD T) p 0%nat) by (rewrite (i_lD _ _ _ _ _ I); lia). cbn [lift bind]. fold (depth T p).
    replace (S m =? depth T p + 1)%nat with true by (symmetry; apply Nat.eqb_eq; lia).
    rewrite (nth_error_some (qPAR T) p 0) by (rewrite (i_lP _ _ _ _ _ I); lia). cbn [lift bind]. fold (parent T p).
    destruct (IH p) as (p' & n1 & q' & E' & K' & Hq' & D' & B); try lia.
    exists p', n1, q'. split; [exact E'|]. split; [exact K'|]. split; [exact Hq'|]. split; [exact D'|]. intros k Hk. specialize (B k Hk).
    rewrite E, (k_x _ _ _ _ _ K q k Hq Hk). unfold kid. pose proof (bit_range k q).
    replace (S m - S d)%nat with (S (m - S d)) by lia. rewrite pw_S. nia.
  - cbn [climb]. replace (d + 1 <? S m)%nat with false by (symmetry; apply Nat.ltb_ge; lia).
    exists p, n0, q. rewrite Pq, E. split; [reflexivity|]. split; [exact K|]. split; [exact Hq|]. split; [lia|]. intros k Hk.
    replace (S m - S d)%nat with 0%nat by lia. change (pw 0) with 1. lia.
Qed.

Lemma positions_krow n0 q : (q < 2 ^ dim)%nat -> positions (Z.of_nat (n0 + q)) (krow dim n0) = [q].
Proof using.
  intro Hq. unfold positions. rewrite krow_length.
  assert (forall m a, filter (fun j => nth j (krow dim n0) (Z.of_nat (n0 + q) - 1) =? Z.of_nat (n0 + q)) (seq a m) = filter (fun j => Nat.eqb j q && (q <? 2 ^ dim)%nat) (seq a m)) as E.
  { intros m a. apply filter_ext. intro j. destruct (Nat.ltb_spec j (2 ^ dim)).
    - rewrite krow_nth by auto. rewrite (proj2 (Nat.ltb_lt _ _) Hq), andb_true_r. destruct (Nat.eqb_spec j q); [subst; apply Z.eqb_refl|apply Z.eqb_neq; lia].
    - rewrite nth_overflow by (rewrite krow_length; auto). destruct (Nat.eqb_spec j q); [lia|]. apply Z.eqb_neq. lia. }
  rewrite E. rewrite (proj2 (Nat.ltb_lt _ _) Hq).
  assert (forall m a, (a <= q < a + m)%nat -> filter (fun j => Nat.eqb j q && true) (seq a m) = [q]) as G.
  { induction m as [|m IH]; intros a Ha; [lia|]. cbn [seq filter]. destruct (Nat.eqb_spec a q) as [->|N]; cbn [andb].
    - f_equal. assert (forall m b, (q < b)%nat -> filter (fun j => Nat.eqb j q && true) (seq b m) = []) as Z.
      { clear. induction m as [|m IH]; intros b Hb; [reflexivity|]. cbn [seq filter]. destruct (Nat.eqb_spec b q); [lia|]. apply IH. lia. }
      apply Z. lia.
    - apply IH. lia. }
  apply G. lia.
Qed.

(** leaves *)
Lemma leaf_iff i : (i < qn T)%nat -> leaf dim T i <-> rowof T i = lrow dim.
Proof using I.
  intro Hi. split.
  - intros [_ L]. destruct (i_row _ _ _ _ _ I i Hi) as [E|[n0 K]]; [exact E|exfalso].
    specialize (L 0%nat (pow2_pos dim)). unfold child in L. fold (rowof T i) in L. rewrite (k_row _ _ _ _ _ K), krow_nth in L by apply pow2_pos. lia.
  - intro E. split; [exact Hi|]. intros q Hq. unfold child. fold (rowof T i). rewrite E. apply lrow_nth, Hq.
Qed.
Lemma is_leaf_iff i : is_leaf T i = true <-> leaf dim T i.
Proof using I.
  assert (1 < 2 ^ dim)%nat as P by (destruct (i_dim _ _ _ _ _ I) as [-> | ->]; cbn; lia).
  unfold is_leaf. destruct (Nat.ltb_spec i (qn T)) as [Hi|Hi].
  - rewrite (nth_error_some (qCH T) i []) by (rewrite (i_lCH _ _ _ _ _ I); auto). fold (rowof T i). rewrite leaf_iff by auto.
    destruct (i_row _ _ _ _ _ I i Hi) as [E|[n0 K]].
    + rewrite E. unfold lrow. destruct (2 ^ dim)%nat as [|[|m]]; [lia|lia|]. cbn. tauto.
    + rewrite (k_row _ _ _ _ _ K). split; intro H; [exfalso|exfalso; apply (krow_not_leaf dim n0 H)].
      pose proof (krow_nth dim n0 1 0 P) as E. destruct (krow dim n0) as [|a [|b r]]; try discriminate. cbn in E. apply Z.eqb_eq in H. lia.
  - assert (nth_error (qCH T) i = None) as -> by (apply nth_error_None; rewrite (i_lCH _ _ _ _ _ I); auto). split; [discriminate|intros [H _]; lia].
Qed.
End inv.
