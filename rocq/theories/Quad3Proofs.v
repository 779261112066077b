From Coq Require Import List Arith ZArith Reals Bool Lia Lra.
From Verif Require Import PyExn LoopsModel LoopsProofs QuadModel QuadSpec QuadProofs Quad2Proofs.
Import ListNotations.
Open Scope Z_scope.

(** ** sums of triplets *)
Lemma rect_app a b r q : rect_at (a ++ b) r q = rect_at a r q + rect_at b r q.
Proof. unfold rect_at. induction a as [|x a IH]; [reflexivity|]. cbn [app fold_right]. rewrite IH. lia. Qed.
Lemma rect_other nb (cols : list Z) v r q : nb <> r -> rect_at (map (fun c => (nb, c, v)) cols) r q = 0.
Proof. intro N. unfold rect_at. induction cols as [|c l IH]; [reflexivity|]. cbn [map fold_right fst snd]. rewrite IH. rewrite (proj2 (Nat.eqb_neq nb r) N). reflexivity. Qed.
Lemma rect_same nb (cols : list Z) v q : NoDup cols -> rect_at (map (fun c => (nb, c, v)) cols) nb q = if in_cols cols q then v else 0.
Proof.
  unfold rect_at, in_cols. induction 1 as [|c l N ND IH]; [reflexivity|]. cbn [map fold_right fst snd existsb]. rewrite IH, Nat.eqb_refl.
  destruct (Z.eqb_spec c (Z.of_nat q)) as [->|E]; cbn [andb orb]; [|lia].
  destruct (existsb (fun x => x =? Z.of_nat q) l) eqn:F; [|lia]. apply existsb_exists in F as (x & Hx & F). apply Z.eqb_eq in F. subst. contradiction.
Qed.
Lemma rect_concat (f : nat -> list Z) (v : nat -> Z) l r q : NoDup l -> (forall nb, In nb l -> NoDup (f nb)) ->
  rect_at (concat (map (fun nb => map (fun c => (nb, c, v nb)) (f nb)) l)) r q = if existsb (Nat.eqb r) l then (if in_cols (f r) q then v r else 0) else 0.
Proof.
  induction 1 as [|x l N ND IH]; intro F; [reflexivity|]. cbn [map concat existsb]. rewrite rect_app, IH by (intros; apply F; right; auto).
  destruct (Nat.eqb_spec r x) as [->|Ne]; cbn [orb].
  - rewrite rect_same by (apply F; left; auto). replace (existsb (Nat.eqb x) l) with false; [lia|]. symmetry. apply not_true_iff_false. intro H.
    apply existsb_exists in H as (y & Hy & H). apply Nat.eqb_eq in H. subst. contradiction.
  - rewrite rect_other by auto. lia.
Qed.
Lemma mapE_ok {A B} (f : A -> res B) (g : A -> B) l : (forall x, In x l -> f x = Ok (g x)) -> mapE f l = Ok (map g l).
Proof. induction l as [|x l IH]; intro H; [reflexivity|]. cbn [mapE map]. rewrite H by (left; auto). cbn [bind]. rewrite IH by (intros; apply H; right; auto). reflexivity. Qed.
Lemma In_col T ind r : In r (col_nonzero T ind) <-> (r < qn T)%nat /\ qA T r ind <> 0.
Proof. unfold col_nonzero. rewrite filter_In, in_seq, negb_true_iff, Z.eqb_neq. split; intros [A B]; split; auto; lia. Qed.
Lemma NoDup_col T ind : NoDup (col_nonzero T ind).
Proof. apply NoDup_filter, seq_NoDup. Qed.

Section split.
Context (dim : nat) (lo : nat -> R) (w0 : R) (T : qtree) (X : nat -> nat -> Z) (ind : nat).
Hypothesis I : inv dim lo w0 T X.
Hypothesis Hind : (ind < qn T)%nat.
Hypothesis L : rowof T ind = lrow dim.
Let d := depth T ind.
Let n := qn T.

(** a node touching the child touches the parent, on the same side *)
Lemma child_touch nb q k s : (nb < n)%nat -> (k < dim)%nat ->
  dirg dim s (depth T nb) (X nb) (S d) (kid (X ind) q) k -> dirg dim s (depth T nb) (X nb) d (X ind) k.
Proof using I Hind L.
  intros Hnb Hk H. destruct (le_lt_dec (depth T nb) d) as [Le|Lt].
  - pose proof (coarse_child dim s (depth T nb) (d - depth T nb) (X nb) (X ind) q k) as E.
    replace (depth T nb + (d - depth T nb))%nat with d in E by lia. apply E, H.
  - destruct (i_rng _ _ _ _ _ I ind Hind) as [D1 _]. fold d in D1.
    destruct (climb_ok _ _ _ _ _ I d (depth T nb) nb Hnb D1 eq_refl Lt) as (p & n0 & c & _ & K & Hc & Dp & B).
    pose proof (fine_child dim s d (depth T nb - S d) (X ind) (X p) (X nb) c q k Hk) as E.
    replace (S d + (depth T nb - S d))%nat with (depth T nb) in E by lia. apply E; [| |exact H].
    + intros l Hl. rewrite <- (k_x _ _ _ _ _ K c l Hc Hl). apply B, Hl.
    + intro Eq. assert (ind = p).
      { apply (uniq _ _ _ _ _ I d); auto. pose proof (k_lt _ _ _ _ _ K). pose proof (k_in _ _ _ _ _ K). unfold n in *. lia. }
      subst p. apply (krow_not_leaf dim n0). rewrite <- (k_row _ _ _ _ _ K). exact L.
Qed.
Lemma nn_ok nb k s : (nb < n)%nat -> (k < dim)%nat -> qA T nb ind = code k s ->
  exists cols, new_neighbors dim T d nb (qA T nb ind) = Ok cols /\ NoDup cols /\
    forall q, (q < 2 ^ dim)%nat -> in_cols cols q = true <-> dirg dim s (depth T nb) (X nb) (S d) (kid (X ind) q) k.
Proof using I Hind L.
  intros Hnb Hk HA. pose proof (proj2 (i_adj _ _ _ _ _ I nb ind k s Hnb Hind Hk) HA) as Tch. fold d in Tch.
  pose proof (i_dim _ _ _ _ _ I) as Hd. rewrite HA. unfold new_neighbors.
  rewrite (nth_error_some (qD T) nb 0%nat) by (rewrite (i_lD _ _ _ _ _ I); auto). cbn [lift bind]. fold (depth T nb).
  destruct (Nat.leb_spec (depth T nb) d) as [Le|Lt].
  - destruct (table_a dim k s Hd Hk) as ((r & E) & ND & Q). unfold lookup_a_cols in ND, Q. rewrite E in *.
    eexists. split; [reflexivity|]. split; [exact ND|]. intros q Hq. rewrite Q by auto. rewrite Z.eqb_eq.
    pose proof (coarse_child dim s (depth T nb) (d - depth T nb) (X nb) (X ind) q k) as E'.
    replace (depth T nb + (d - depth T nb))%nat with d in E' by lia. rewrite E'. tauto.
  - destruct (i_rng _ _ _ _ _ I ind Hind) as [D1 _]. fold d in D1.
    destruct (climb_ok _ _ _ _ _ I d (depth T nb) nb Hnb D1 eq_refl Lt) as (p & n0 & c & Ec & K & Hc & Dp & B).
    rewrite (nth_error_some (qPAR T) nb 0) by (rewrite (i_lP _ _ _ _ _ I); auto). cbn [lift bind]. fold (parent T nb). rewrite Ec. cbn [bind].
    rewrite Nat2Z.id. pose proof (k_lt _ _ _ _ _ K) as Klt. pose proof (k_in _ _ _ _ _ K) as Kin.
    assert (p < qn T)%nat as Hp by lia.
    rewrite (nth_error_some (qCH T) p []) by (rewrite (i_lCH _ _ _ _ _ I); auto). cbn [lift bind]. fold (rowof T p).
    rewrite (nth_error_some (qD T) p 0%nat) by (rewrite (i_lD _ _ _ _ _ I); auto). cbn [lift bind]. fold (depth T p). rewrite Dp, Nat.eqb_refl.
    rewrite (k_row _ _ _ _ _ K), positions_krow by auto.
    destruct (table_b dim k s c Hd Hk Hc) as [ND Q]. exists (lookup_b_cols (code k s) c). split; [unfold lookup_b_cols; reflexivity|]. split; [exact ND|]. intros q Hq. rewrite Q by auto.
    pose proof (fine_child dim s d (depth T nb - S d) (X ind) (X p) (X nb) c q k Hk) as E.
    replace (S d + (depth T nb - S d))%nat with (depth T nb) in E by lia. rewrite E.
    + rewrite !andb_true_iff, !Z.eqb_eq, forallb_forall. split.
      * intros [[E1 E2] E3]. repeat split; auto. intros l Hl N. specialize (E3 l ltac:(apply in_seq; lia)). apply orb_prop in E3 as [E3|E3]; [apply Nat.eqb_eq in E3; lia|apply Z.eqb_eq, E3].
      * intros (_ & E1 & E2 & E3). repeat split; auto. intros l Hl. apply in_seq in Hl. destruct (Nat.eqb_spec l k); [reflexivity|]. apply Z.eqb_eq, E3; auto; lia.
    + intros l Hl. rewrite <- (k_x _ _ _ _ _ K c l Hc Hl). apply B, Hl.
    + intro Eq. assert (ind = p) by (apply (uniq _ _ _ _ _ I d); auto).
      subst p. apply (krow_not_leaf dim n0). rewrite <- (k_row _ _ _ _ _ K). exact L.
Qed.

(** siblings touch *)
Lemma sib_touch x dd q q' k s : (q < 2 ^ dim)%nat -> (q' < 2 ^ dim)%nat -> (k < dim)%nat ->
  dirg dim s dd (kid x q) dd (kid x q') k <-> square_mat dim q q' = code k s.
Proof using I Hind.
  intros Hq Hq' Hk. rewrite <- Z.eqb_eq, (table_sq dim q q' k s (i_dim _ _ _ _ _ I) Hq Hq' Hk), !andb_true_iff, !Z.eqb_eq, forallb_forall.
  assert (forall x y, abut dd x dd y <-> x + 1 = y) as Ab by (intros; unfold abut; pose proof (pw_pos dd); nia).
  assert (forall x y, overlap dd x dd y <-> x = y) as Ov by (intros; unfold overlap; pose proof (pw_pos dd); split; intros; nia).
  pose proof (bit_range k q). pose proof (bit_range k q').
  unfold dirg, touchg, kid. destruct s; rewrite Ab.
  - split.
    + intros [E F]. repeat split; [lia|lia|]. intros l Hl. apply in_seq in Hl. destruct (Nat.eqb_spec l k); [reflexivity|]. specialize (F l ltac:(lia) n0). apply Ov in F. apply Z.eqb_eq. lia.
    + intros [[E1 E2] F]. split; [lia|]. intros l Hl N. apply Ov. specialize (F l ltac:(apply in_seq; lia)). apply orb_prop in F as [F|F]; [apply Nat.eqb_eq in F; lia|apply Z.eqb_eq in F; lia].
  - split.
    + intros [E F]. repeat split; [lia|lia|]. intros l Hl. apply in_seq in Hl. destruct (Nat.eqb_spec l k); [reflexivity|]. specialize (F l ltac:(lia) n0). apply Ov in F. apply Z.eqb_eq. lia.
    + intros [[E1 E2] F]. split; [lia|]. intros l Hl N. apply Ov. specialize (F l ltac:(apply in_seq; lia)). apply orb_prop in F as [F|F]; [apply Nat.eqb_eq in F; lia|apply Z.eqb_eq in F; lia].
Qed.
Lemma two_nbs : length (col_nonzero T ind) <> 1%nat.
Proof using I Hind L.
  intro E. destruct (Nat.eq_dec ind 0) as [E0|N].
  - assert (exists r, In r (col_nonzero T ind)) as (r & Hr). { destruct (col_nonzero T ind) as [|r l]; [discriminate|exists r; left; auto]. }
    apply In_col in Hr as [Hr A]. destruct (i_codes _ _ _ _ _ I r ind Hr Hind) as [?|(k & s & Hk & C)]; [contradiction|].
    apply (i_adj _ _ _ _ _ I r ind k s Hr Hind Hk) in C. rewrite E0, (i_d0 _ _ _ _ _ I) in C.
    destruct (i_rng _ _ _ _ _ I ind Hind) as [_ R0]. destruct (i_rng _ _ _ _ _ I r Hr) as [_ R1].
    specialize (R0 k Hk). specialize (R1 k Hk). rewrite E0, (i_d0 _ _ _ _ _ I) in R0. change (pw 1) with 2 in *.
    unfold dirg, touchg, abut in C. change (pw 1) with 2 in C. pose proof (pw_pos (depth T r)). destruct s; destruct C as [C _]; nia.
  - destruct (i_par _ _ _ _ _ I ind) as (p & n0 & q & K & Hq & Ei); [lia|].
    pose proof (k_in _ _ _ _ _ K) as Kin.
    assert (forall q', (q' < 2 ^ dim)%nat -> square_mat dim q' q <> 0 -> In (n0 + q')%nat (col_nonzero T ind)) as Sib.
    { intros q' Hq' N0. apply In_col. split; [lia|].
      destruct (table_sq_codes dim q' q (i_dim _ _ _ _ _ I) Hq' Hq) as [?|(k & s & Hk & C)]; [contradiction|].
      assert (qA T (n0 + q') ind = code k s) as ->; [|apply code_pos].
      apply (i_adj _ _ _ _ _ I); [lia|auto|auto|]. rewrite (k_dep _ _ _ _ _ K q' Hq'). rewrite Ei at 1. rewrite (k_dep _ _ _ _ _ K q Hq).
      apply sib_touch with (dd := S (depth T p)) (x := X p) in C; auto.
      unfold dirg, touchg in *. rewrite Ei. destruct s.
      - rewrite !(k_x _ _ _ _ _ K) by auto. destruct C as [C1 C2]. split; [exact C1|]. intros l Hl Nl. rewrite !(k_x _ _ _ _ _ K) by auto. apply C2; auto.
      - rewrite !(k_x _ _ _ _ _ K) by auto. destruct C as [C1 C2]. split; [exact C1|]. intros l Hl Nl. rewrite !(k_x _ _ _ _ _ K) by auto. apply C2; auto. }
    assert (exists q1 q2, (q1 < 2 ^ dim)%nat /\ (q2 < 2 ^ dim)%nat /\ q1 <> q2 /\ square_mat dim q1 q <> 0 /\ square_mat dim q2 q <> 0) as (q1 & q2 & H1 & H2 & N12 & S1 & S2).
    { assert (forallb (fun q => existsb (fun q1 => existsb (fun q2 => negb (Nat.eqb q1 q2) && negb (square_mat dim q1 q =? 0) && negb (square_mat dim q2 q =? 0)) (seq 0 (2 ^ dim))) (seq 0 (2 ^ dim))) (seq 0 (2 ^ dim)) = true) as Tb.
      { destruct (i_dim _ _ _ _ _ I) as [-> | ->]; vm_compute; reflexivity. }
      rewrite forallb_forall in Tb. specialize (Tb q ltac:(apply in_seq; lia)). apply existsb_exists in Tb as (q1 & H1 & Tb). apply existsb_exists in Tb as (q2 & H2 & Tb).
      apply in_seq in H1, H2. rewrite !andb_true_iff, !negb_true_iff, Nat.eqb_neq, !Z.eqb_neq in Tb. exists q1, q2. repeat split; try lia; tauto. }
    specialize (Sib q1 H1 S1) as I1. specialize (Sib q2 H2 S2) as I2.
    destruct (col_nonzero T ind) as [|r [|? ?]]; try discriminate. destruct I1 as [I1|[]], I2 as [I2|[]]. lia.
Qed.

Definition colsf (nb : nat) : list Z := match new_neighbors dim T d nb (qA T nb ind) with Ok l => l | Err _ => [] end.
Definition split_tr : list (nat * Z * Z) := concat (map (fun nb => map (fun q => (nb, q, qA T nb ind)) (colsf nb)) (col_nonzero T ind)).
Definition splitT : qtree :=
  mkQ (qC T ++ map (move (nth ind (qC T) []) (width T ind)) (offsets dim))
      (qW T ++ repeat (0.5 * width T ind)%R (2 ^ dim))
      (set_nth (qCH T) ind (krow dim n) ++ repeat (lrow dim) (2 ^ dim))
      (qPAR T ++ repeat (Z.of_nat ind) (2 ^ dim))
      (qD T ++ repeat (d + 1)%nat (2 ^ dim))
      (fun i j => match Nat.ltb i n, Nat.ltb j n with
                  | true, true => qA T i j
                  | true, false => rect_at split_tr i (j - n)
                  | false, true => flip_dir (rect_at split_tr j (i - n))
                  | false, false => square_mat dim (i - n) (j - n) end).
Lemma colsf_ok nb : (nb < n)%nat -> qA T nb ind <> 0 -> new_neighbors dim T d nb (qA T nb ind) = Ok (colsf nb) /\ NoDup (colsf nb).
Proof using I Hind L.
  intros Hnb Ha. destruct (i_codes _ _ _ _ _ I nb ind Hnb Hind) as [?|(k & s & Hk & C)]; [contradiction|].
  destruct (nn_ok nb k s Hnb Hk C) as (cols & E & ND & _). unfold colsf. rewrite E. auto.
Qed.
Lemma split_eq : split_quad dim ind T = Ok splitT.
Proof using I Hind L.
  assert (1 < 2 ^ dim)%nat as P by (destruct (i_dim _ _ _ _ _ I) as [-> | ->]; cbn; lia).
  unfold split_quad. rewrite (nth_error_some (qCH T) ind []) by (rewrite (i_lCH _ _ _ _ _ I); auto). cbn [lift bind]. fold (rowof T ind). rewrite L.
  rewrite (nth_error_some (lrow dim) 1 0) by (unfold lrow; rewrite repeat_length; auto). cbn [lift bind]. rewrite lrow_nth by auto.
  change (-1 =? -1) with true. cbv iota.
  rewrite (nth_error_some (qW T) ind 0%R) by (rewrite (i_lW _ _ _ _ _ I); auto). cbn [lift bind].
  rewrite (nth_error_some (qC T) ind []) by auto. cbn [lift bind].
  rewrite (nth_error_some (qD T) ind 0%nat) by (rewrite (i_lD _ _ _ _ _ I); auto). cbn [lift bind]. fold (depth T ind). fold (width T ind).
  rewrite (proj2 (Nat.eqb_neq _ _) two_nbs).
  rewrite (mapE_ok _ (fun nb => map (fun q => (nb, q, qA T nb ind)) (colsf nb))).
  - reflexivity.
  - intros nb Hnb. apply In_col in Hnb as [Hnb Ha]. fold d. rewrite (proj1 (colsf_ok nb Hnb Ha)). reflexivity.
Qed.
Definition X' (i k : nat) : Z := if Nat.ltb i n then X i k else kid (X ind) (i - n) k.
Lemma rect_val nb q k s : (nb < n)%nat -> (q < 2 ^ dim)%nat -> (k < dim)%nat ->
  dirg dim s (depth T nb) (X nb) (S d) (kid (X ind) q) k <-> rect_at split_tr nb q = code k s.
Proof using I Hind L.
  intros Hnb Hq Hk. unfold split_tr. rewrite (rect_concat colsf (fun nb => qA T nb ind)).
  - destruct (existsb (Nat.eqb nb) (col_nonzero T ind)) eqn:E.
    + apply existsb_exists in E as (r & Hr & E). apply Nat.eqb_eq in E. subst r. apply In_col in Hr as [_ Ha].
      destruct (i_codes _ _ _ _ _ I nb ind Hnb Hind) as [?|(k' & s' & Hk' & C)]; [contradiction|].
      destruct (nn_ok nb k' s' Hnb Hk' C) as (cols & En & _ & Q). unfold colsf. rewrite En. specialize (Q q Hq). split.
      * intro H. pose proof (child_touch nb q k s Hnb Hk H) as H2. apply (i_adj _ _ _ _ _ I nb ind k s Hnb Hind Hk) in H2.
        rewrite C in H2. apply code_inj in H2 as [-> ->]. rewrite (proj2 Q H). exact C.
      * destruct (in_cols cols q); [|intro H; symmetry in H; destruct (code_pos k s H)]. rewrite C. intro H. apply code_inj in H as [-> ->]. apply Q. reflexivity.
    + split; [|intro H; symmetry in H; destruct (code_pos k s H)]. intro H. exfalso.
      pose proof (child_touch nb q k s Hnb Hk H) as H2. apply (i_adj _ _ _ _ _ I nb ind k s Hnb Hind Hk) in H2.
      assert (existsb (Nat.eqb nb) (col_nonzero T ind) = true); [|congruence]. apply existsb_exists. exists nb. split; [|apply Nat.eqb_refl].
      apply In_col. split; [exact Hnb|]. rewrite H2. apply code_pos.
  - apply NoDup_col.
  - intros r Hr. apply In_col in Hr as [Hr Ha]. apply colsf_ok; auto.
Qed.
Lemma rect_codes nb q : (nb < n)%nat -> (q < 2 ^ dim)%nat -> rect_at split_tr nb q = 0 \/ exists k s, (k < dim)%nat /\ rect_at split_tr nb q = code k s.
Proof using I Hind L.
  intros Hnb Hq. unfold split_tr. rewrite (rect_concat colsf (fun nb => qA T nb ind)).
  - destruct (existsb (Nat.eqb nb) (col_nonzero T ind)); [|auto]. destruct (in_cols (colsf nb) q); [|auto]. apply (i_codes _ _ _ _ _ I nb ind Hnb Hind).
  - apply NoDup_col.
  - intros r Hr. apply In_col in Hr as [Hr Ha]. apply colsf_ok; auto.
Qed.
End split.
