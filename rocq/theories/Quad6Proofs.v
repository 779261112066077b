From Coq Require Import List Arith ZArith Reals Bool Lia Lra.
From Verif Require Import PyExn LoopsModel LoopsProofs QuadModel QuadSpec QuadProofs Quad2Proofs Quad3Proofs Quad4Proofs Quad5Proofs.
Import ListNotations.
Open Scope Z_scope.

Lemma find_q dim (f : nat -> bool) : (dim = 2 \/ dim = 3)%nat -> exists q, (q < 2 ^ dim)%nat /\ forall k, (k < dim)%nat -> bit k q = Z.b2z (f k).
Proof.
  intros [-> | ->].
  - exists ((if f 0%nat then 1 else 0) + (if f 1%nat then 2 else 0))%nat. split; [destruct (f 0%nat), (f 1%nat); cbn; lia|].
    intros k Hk. destruct k as [|[|]]; [| |lia]; destruct (f 0%nat), (f 1%nat); reflexivity.
  - exists ((if f 0%nat then 1 else 0) + (if f 1%nat then 2 else 0) + (if f 2%nat then 4 else 0))%nat. split; [destruct (f 0%nat), (f 1%nat), (f 2%nat); cbn; lia|].
    intros k Hk. destruct k as [|[|[|]]]; [| | |lia]; destruct (f 0%nat), (f 1%nat), (f 2%nat); reflexivity.
Qed.

Section geom.
Context (dim : nat) (lo : nat -> R) (w0 : R) (T : qtree) (X : nat -> nat -> Z).
Hypothesis I : inv dim lo w0 T X.

Lemma width_eq i : (i < qn T)%nat -> width T i = (2 * w0 / IZR (pw (depth T i)))%R.
Proof using I. intro Hi. rewrite <- (i_w _ _ _ _ _ I i Hi). field. apply not_0_IZR. pose proof (pw_pos (depth T i)). lia. Qed.
Lemma low_eq i k : (i < qn T)%nat -> (k < dim)%nat -> low T i k = (lo k + IZR (X i k) * width T i)%R.
Proof using I. intros Hi Hk. unfold low. rewrite (i_c _ _ _ _ _ I i k Hi Hk). field. Qed.
Lemma high_eq i k : (i < qn T)%nat -> (k < dim)%nat -> high T i k = (lo k + (IZR (X i k) + 1) * width T i)%R.
Proof using I. intros Hi Hk. unfold high. rewrite (i_c _ _ _ _ _ I i k Hi Hk). field. Qed.
Lemma scale_lt i j (a b : Z) : (0 < w0)%R -> (i < qn T)%nat -> (j < qn T)%nat -> (IZR a * width T i < IZR b * width T j)%R <-> a * pw (depth T j) < b * pw (depth T i).
Proof using I.
  intros Hw Hi Hj. rewrite (width_eq i Hi), (width_eq j Hj). pose proof (pw_pos (depth T i)) as P. pose proof (pw_pos (depth T j)) as Q.
  set (p := pw (depth T i)) in *. set (q := pw (depth T j)) in *. clearbody p q. apply IZR_lt in P, Q.
  assert (IZR b * (2 * w0 / IZR q) - IZR a * (2 * w0 / IZR p) = (IZR (b * p) - IZR (a * q)) * (2 * w0 / (IZR p * IZR q)))%R as E.
  { rewrite !mult_IZR. field. lra. }
  assert (0 < 2 * w0 / (IZR p * IZR q))%R as F.
  { apply Rdiv_lt_0_compat; [lra|apply Rmult_lt_0_compat; auto]. }
  split; intro H.
  - apply lt_IZR. nra.
  - apply IZR_lt in H. nra.
Qed.
Lemma scale_eq i j (a b : Z) : (0 < w0)%R -> (i < qn T)%nat -> (j < qn T)%nat -> (IZR a * width T i = IZR b * width T j)%R <-> a * pw (depth T j) = b * pw (depth T i).
Proof using I.
  intros Hw Hi Hj. pose proof (scale_lt i j a b Hw Hi Hj) as A. pose proof (scale_lt j i b a Hw Hj Hi) as B.
  split; intro H.
  - destruct (Z.lt_trichotomy (a * pw (depth T j)) (b * pw (depth T i))) as [L|[L|L]]; [apply A in L; lra|exact L|apply B in L; lra].
  - destruct (Rtotal_order (IZR a * width T i) (IZR b * width T j)) as [L|[L|L]]; [apply A in L; lia|exact L|apply B in L; lia].
Qed.
Lemma touch_iff i j k : (0 < w0)%R -> (i < qn T)%nat -> (j < qn T)%nat -> (k < dim)%nat ->
  touches_high dim T i j k <-> touchg dim (depth T i) (X i) (depth T j) (X j) k.
Proof using I.
  intros Hw Hi Hj Hk. unfold touches_high, touchg. rewrite high_eq, low_eq by auto.
  assert ((lo k + (IZR (X i k) + 1) * width T i = lo k + IZR (X j k) * width T j)%R <-> abut (depth T i) (X i k) (depth T j) (X j k)) as ->.
  { unfold abut. rewrite <- (scale_eq i j (X i k + 1) (X j k) Hw Hi Hj), plus_IZR. split; intro; lra. }
  assert (forall l, (l < dim)%nat -> (low T i l < high T j l /\ low T j l < high T i l)%R <-> overlap (depth T i) (X i l) (depth T j) (X j l)) as O.
  { intros l Hl. rewrite !high_eq, !low_eq by auto. unfold overlap. rewrite <- (scale_lt i j (X i l) (X j l + 1) Hw Hi Hj), <- (scale_lt j i (X j l) (X i l + 1) Hw Hj Hi), !plus_IZR.
    split; intros [A B]; split; lra. }
  split; intros [A B]; (split; [exact A|]); intros l Hl N; apply O; auto.
Qed.
Lemma adj_iff i j a : (0 < w0)%R -> (i < qn T)%nat -> (j < qn T)%nat -> a <> 0 -> qA T i j = a <-> in_direction dim T i j a.
Proof using I.
  intros Hw Hi Hj Ha. split.
  - intro E. destruct (i_codes _ _ _ _ _ I i j Hi Hj) as [?|(k & s & Hk & C)]; [congruence|]. exists k. split; [exact Hk|].
    pose proof (proj2 (i_adj _ _ _ _ _ I i j k s Hi Hj Hk) C) as G. rewrite <- E, C. unfold code. destruct s; [left|right]; (split; [lia|]); apply touch_iff; auto.
  - intros (k & Hk & [[-> G]|[-> G]]); apply touch_iff in G; auto.
    + apply (proj1 (i_adj _ _ _ _ _ I i j k true Hi Hj Hk) G).
    + apply (proj1 (i_adj _ _ _ _ _ I i j k false Hi Hj Hk) G).
Qed.

(** children *)
Lemma kids_width p n0 q : kids dim T X p n0 -> (q < 2 ^ dim)%nat -> (width T p = 2 * width T (n0 + q))%R.
Proof using I.
  intros K Hq. pose proof (k_lt _ _ _ _ _ K). pose proof (k_in _ _ _ _ _ K). rewrite !width_eq by lia. rewrite (k_dep _ _ _ _ _ K q Hq), pw_S, mult_IZR. field.
  apply not_0_IZR. pose proof (pw_pos (depth T p)). lia.
Qed.
Lemma kids_low p n0 q k : kids dim T X p n0 -> (q < 2 ^ dim)%nat -> (k < dim)%nat ->
  low T (n0 + q) k = (low T p k + IZR (bit k q) * (width T p / 2))%R /\ high T (n0 + q) k = (low T p k + (IZR (bit k q) + 1) * (width T p / 2))%R /\ high T p k = (low T p k + width T p)%R.
Proof using I.
  intros K Hq Hk. pose proof (k_lt _ _ _ _ _ K). pose proof (k_in _ _ _ _ _ K). rewrite !low_eq, !high_eq by lia. rewrite (k_x _ _ _ _ _ K q k Hq Hk).
  rewrite (kids_width p n0 q K Hq). unfold kid. rewrite plus_IZR, mult_IZR. repeat split; field.
Qed.
Lemma kids_sub p n0 q x : (0 <= w0)%R -> kids dim T X p n0 -> (q < 2 ^ dim)%nat -> in_closed dim T (n0 + q) x -> in_closed dim T p x.
Proof using I.
  intros Hw K Hq H k Hk. destruct (kids_low p n0 q k K Hq Hk) as (A & B & C). specialize (H k Hk). rewrite A, B in H. rewrite C.
  assert (0 <= width T p)%R.
  { pose proof (k_lt _ _ _ _ _ K). pose proof (k_in _ _ _ _ _ K). rewrite width_eq by lia. unfold Rdiv. apply Rmult_le_pos; [lra|].
    left. apply Rinv_0_lt_compat. apply IZR_lt, pw_pos. }
  destruct (bit_range k q) as [L1 L2]. apply IZR_le in L1, L2. nra.
Qed.
Lemma kids_cover p n0 x : kids dim T X p n0 -> in_closed dim T p x -> exists q, (q < 2 ^ dim)%nat /\ in_closed dim T (n0 + q) x.
Proof using I.
  intros K H. destruct (find_q dim (fun k => if Rle_dec (x k) (low T p k + width T p / 2)%R then false else true) (i_dim _ _ _ _ _ I)) as (q & Hq & B).
  exists q. split; [exact Hq|]. intros k Hk. specialize (B k Hk). specialize (H k Hk). destruct (kids_low p n0 q k K Hq Hk) as (E1 & E2 & E3). rewrite E1, E2. rewrite E3 in H.
  destruct (Rle_dec (x k) (low T p k + width T p / 2)) as [L|L]; cbn in B; rewrite B; lra.
Qed.
Lemma kids_disjoint p n0 q q' x : kids dim T X p n0 -> (q < 2 ^ dim)%nat -> (q' < 2 ^ dim)%nat -> in_open dim T (n0 + q) x -> in_open dim T (n0 + q') x -> q = q'.
Proof using I.
  intros K Hq Hq' H H'. apply (bits_inj dim); auto; [apply (i_dim _ _ _ _ _ I)|]. intros k Hk. specialize (H k Hk). specialize (H' k Hk).
  destruct (kids_low p n0 q k K Hq Hk) as (E1 & E2 & _). destruct (kids_low p n0 q' k K Hq' Hk) as (E1' & E2' & _). rewrite E1, E2 in H. rewrite E1', E2' in H'.
  unfold bit in *. destruct (Nat.testbit q k), (Nat.testbit q' k); cbn in *; auto; lra.
Qed.
Lemma leaf_cover : forall m i x, (qn T - i <= m)%nat -> (i < qn T)%nat -> in_closed dim T i x -> exists j, (i <= j < qn T)%nat /\ rowof T j = lrow dim /\ in_closed dim T j x.
Proof using I.
  induction m as [|m IH]; intros i x Hm Hi H; [lia|].
  destruct (i_row _ _ _ _ _ I i Hi) as [E|[n0 K]]; [exists i; auto|].
  destruct (kids_cover i n0 x K H) as (q & Hq & Hc). pose proof (k_lt _ _ _ _ _ K). pose proof (k_in _ _ _ _ _ K).
  destruct (IH (n0 + q)%nat x) as (j & Hj & A & B); [lia|lia|exact Hc|]. exists j. split; [lia|auto].
Qed.
Lemma in_root : forall i x, (0 <= w0)%R -> (i < qn T)%nat -> in_closed dim T i x -> in_closed dim T 0 x.
Proof using I.
  intros i x Hw. induction i as [i IH] using lt_wf_ind. intros Hi H. destruct (Nat.eq_dec i 0) as [->|N]; [exact H|].
  destruct (i_par _ _ _ _ _ I i) as (p & n0 & q & K & Hq & ->); [lia|]. pose proof (k_lt _ _ _ _ _ K). apply (IH p); [lia|lia|]. eapply kids_sub; eauto.
Qed.
(** the ancestor of a deeper node *)
Lemma leaf_disjoint i j x : (0 < w0)%R -> (i < qn T)%nat -> (j < qn T)%nat -> rowof T i = lrow dim -> (depth T i <= depth T j)%nat ->
  in_open dim T i x -> in_open dim T j x -> i = j.
Proof using I.
  intros Hw Hi Hj L D Oi Oj.
  assert (forall k, (k < dim)%nat -> overlap (depth T i) (X i k) (depth T j) (X j k)) as O.
  { intros k Hk. specialize (Oi k Hk). specialize (Oj k Hk). rewrite low_eq, high_eq in Oi, Oj by auto. unfold overlap.
    rewrite <- (scale_lt i j (X i k) (X j k + 1) Hw Hi Hj), <- (scale_lt j i (X j k) (X i k + 1) Hw Hj Hi), !plus_IZR. lra. }
  destruct (Nat.eq_dec (depth T i) (depth T j)) as [E|N].
  - apply (uniq _ _ _ _ _ I (depth T i)); auto. intros k Hk. specialize (O k Hk). rewrite <- E in O. unfold overlap in O. pose proof (pw_pos (depth T i)). nia.
  - exfalso. destruct (i_rng _ _ _ _ _ I i Hi) as [D1 _].
    destruct (climb_ok _ _ _ _ _ I (depth T i) (depth T j) j Hj D1 eq_refl ltac:(lia)) as (p & n0 & c & _ & K & Hc & Dp & B).
    pose proof (k_lt _ _ _ _ _ K). pose proof (k_in _ _ _ _ _ K).
    assert (i = p).
    { apply (uniq _ _ _ _ _ I (depth T i)); auto; [lia|]. intros k Hk. specialize (O k Hk). specialize (B k Hk). rewrite (k_x _ _ _ _ _ K c k Hc Hk) in B. unfold kid in B.
      pose proof (fine_overlap (depth T i) (depth T j - S (depth T i)) (X i k) (X p k) (bit k c) 0 (X j k) ltac:(lia) (bit_range k c) B) as F.
      replace (S (depth T i) + (depth T j - S (depth T i)))%nat with (depth T j) in F by lia. apply F, O. }
    subst p. apply (krow_not_leaf dim n0). rewrite <- (k_row _ _ _ _ _ K). exact L.
Qed.

(** descending to integer coordinates *)
Lemma descend : forall d Y, (1 <= d)%nat -> (forall k, (k < dim)%nat -> 0 <= Y k /\ 2 * Y k < pw d) ->
  exists i, (i < qn T)%nat /\ (depth T i <= d)%nat /\ (depth T i = d \/ rowof T i = lrow dim) /\
    forall k, (k < dim)%nat -> X i k * pw (d - depth T i) <= Y k < (X i k + 1) * pw (d - depth T i).
Proof using I.
  induction d as [|d IH]; intros Y Hd HY; [lia|]. destruct (Nat.eq_dec d 0) as [->|N].
  - exists 0%nat. pose proof (i_n _ _ _ _ _ I). pose proof (i_d0 _ _ _ _ _ I) as D0. split; [lia|]. rewrite D0. split; [lia|]. split; [auto|]. intros k Hk.
    specialize (HY k Hk). change (pw 1) with 2 in HY. destruct (i_rng _ _ _ _ _ I 0%nat ltac:(lia)) as [_ R0]. specialize (R0 k Hk). rewrite D0 in R0. change (pw 1) with 2 in R0.
    replace (1 - 1)%nat with 0%nat by lia. change (pw 0) with 1. lia.
  - destruct (IH (fun k => Y k / 2)) as (i & Hi & Di & C & B); [lia| |].
    { intros k Hk. specialize (HY k Hk). rewrite pw_S in HY. pose proof (Z.div_mod (Y k) 2 ltac:(lia)). pose proof (Z.mod_pos_bound (Y k) 2 ltac:(lia)).
      assert (exists h, pw d = 2 * h) as [h Hh] by (exists (pw (d - 1)); rewrite <- pw_S; f_equal; lia). lia. }
    destruct (i_row _ _ _ _ _ I i Hi) as [E|[n0 K]].
    + exists i. split; [auto|]. split; [lia|]. split; [auto|]. intros k Hk. specialize (B k Hk). replace (S d - depth T i)%nat with (S (d - depth T i)) by lia. rewrite pw_S.
      cbn beta in B. pose proof (Z.div_mod (Y k) 2 ltac:(lia)). pose proof (Z.mod_pos_bound (Y k) 2 ltac:(lia)). nia.
    + destruct C as [C|C]; [|exfalso; apply (krow_not_leaf dim n0); rewrite <- (k_row _ _ _ _ _ K); exact C].
      destruct (find_q dim (fun k => Z.odd (Y k)) (i_dim _ _ _ _ _ I)) as (q & Hq & Bq). pose proof (k_in _ _ _ _ _ K).
      exists (n0 + q)%nat. rewrite (k_dep _ _ _ _ _ K q Hq), C. split; [lia|]. split; [lia|]. split; [auto|]. intros k Hk. rewrite (k_x _ _ _ _ _ K q k Hq Hk). unfold kid.
      rewrite (Bq k Hk). assert (Z.b2z (Z.odd (Y k)) = Y k mod 2) as -> by (rewrite Zmod_odd; destruct (Z.odd (Y k)); reflexivity). specialize (B k Hk). cbn beta in B. rewrite C in B. replace (d - d)%nat with 0%nat in B by lia. replace (S d - S d)%nat with 0%nat by lia.
      change (pw 0) with 1 in *. pose proof (Z.div_mod (Y k) 2 ltac:(lia)). lia.
Qed.
(** a node has a neighbour in a direction unless it is at the end of the box *)
Lemma neighbour_exists i k (s : bool) : (i < qn T)%nat -> (k < dim)%nat ->
  (if s then 2 * (X i k + 1) < pw (depth T i) else 0 < X i k) -> exists j, (j < qn T)%nat /\ (depth T j <= depth T i)%nat /\ (depth T j = depth T i \/ rowof T j = lrow dim) /\ qA T i j = code k s.
Proof using I.
  intros Hi Hk H. destruct (i_rng _ _ _ _ _ I i Hi) as [D1 R1].
  destruct (descend (depth T i) (fun l => if Nat.eqb l k then (if s then X i k + 1 else X i k - 1) else X i l) D1) as (j & Hj & Dj & C & B).
  - intros l Hl. specialize (R1 l Hl). destruct (Nat.eqb_spec l k) as [->|N]; [|auto]. destruct s; lia.
  - exists j. split; [auto|]. split; [auto|]. split; [auto|]. set (e := (depth T i - depth T j)%nat) in *.
    assert (exists m, (m < qn T)%nat) by eauto.
    assert (forall l, (l < dim)%nat -> l <> k -> overlap (depth T j) (X j l) (depth T i) (X i l)) as O.
    { intros l Hl N. specialize (B l Hl). cbn beta in B. rewrite (proj2 (Nat.eqb_neq l k) N) in B. replace (depth T i) with (depth T j + e)%nat by lia. apply overlap_cf. lia. }
    pose proof (B k Hk) as Bk. cbn beta in Bk. rewrite Nat.eqb_refl in Bk. pose proof (pw_pos e) as P.
    (* the neighbour cannot contain i: otherwise it is an ancestor-or-self, hence internal at the depth of i *)
    assert (depth T j = depth T i \/ ~ (X j k * pw e <= X i k < (X j k + 1) * pw e)) as Out.
    { destruct C as [C|C]; [auto|]. destruct (Nat.eq_dec (depth T j) (depth T i)) as [|Ne]; [auto|right]. intro W.
      destruct (i_rng _ _ _ _ _ I j Hj) as [Dj1 _].
      destruct (climb_ok _ _ _ _ _ I (depth T j) (depth T i) i Hi Dj1 eq_refl ltac:(lia)) as (p & n0 & c & _ & K & Hc & Dp & Bc).
      pose proof (k_lt _ _ _ _ _ K). pose proof (k_in _ _ _ _ _ K).
      assert (j = p).
      { apply (uniq _ _ _ _ _ I (depth T j)); auto; [lia|]. intros l Hl. specialize (Bc l Hl). rewrite (k_x _ _ _ _ _ K c l Hc Hl) in Bc. unfold kid in Bc. pose proof (bit_range l c) as Bl.
        assert (overlap (depth T j) (X j l) (depth T i) (X i l)) as Ol.
        { destruct (Nat.eq_dec l k) as [->|Nl]; [|apply O; auto]. replace (depth T i) with (depth T j + e)%nat by lia. apply overlap_cf. lia. }
        pose proof (fine_overlap (depth T j) (depth T i - S (depth T j)) (X j l) (X p l) (bit l c) 0 (X i l) ltac:(lia) Bl Bc) as F.
        replace (S (depth T j) + (depth T i - S (depth T j)))%nat with (depth T i) in F by lia. apply F, Ol. }
      subst p. apply (krow_not_leaf dim n0). rewrite <- (k_row _ _ _ _ _ K). exact C. }
    assert (depth T j = depth T i -> pw e = 1) as P1 by (intro Q; unfold e; rewrite Q, Nat.sub_diag; reflexivity).
    apply (i_adj _ _ _ _ _ I i j k s Hi Hj Hk). unfold dirg, touchg. destruct s.
    + split.
      * replace (depth T i) with (depth T j + e)%nat by lia. apply abut_fc. destruct Out as [Q|Q]; [rewrite (P1 Q) in *; lia|nia].
      * intros l Hl N. apply overlap_sym, O; auto.
    + split; [|intros l Hl N; apply O; auto]. replace (depth T i) with (depth T j + e)%nat by lia. apply abut_cf. destruct Out as [Q|Q]; [rewrite (P1 Q) in *; lia|nia].
Qed.
Lemma no_neighbour i j k (s : bool) : (i < qn T)%nat -> (j < qn T)%nat -> (k < dim)%nat -> qA T i j = code k s ->
  if s then 2 * (X i k + 1) < pw (depth T i) else 0 < X i k.
Proof using I.
  intros Hi Hj Hk C. apply (i_adj _ _ _ _ _ I i j k s Hi Hj Hk) in C. destruct (i_rng _ _ _ _ _ I i Hi) as [D1 R1]. destruct (i_rng _ _ _ _ _ I j Hj) as [D2 R2].
  specialize (R1 k Hk). specialize (R2 k Hk). unfold dirg, touchg, abut in C. pose proof (pw_pos (depth T i)). pose proof (pw_pos (depth T j)). destruct s; destruct C as [C _]; nia.
Qed.
End geom.
