From Coq Require Import List Arith ZArith Reals Bool Lia Lra.
From Verif Require Import PyExn LoopsModel LoopsProofs QuadModel QuadSpec QuadProofs Quad2Proofs Quad3Proofs Quad4Proofs Quad5Proofs Quad6Proofs.
Import ListNotations.

Definition coords (p : list R) (k : nat) : R := nth k p 0%R.

(** ** is_in_quad *)
Lemma in_cell_gen : forall p c w, length p = length c -> in_cell p c w = true <-> forall k, (k < length p)%nat -> (nth k c 0 - w / 2 <= nth k p 0 <= nth k c 0 + w / 2)%R.
Proof.
  induction p as [|x p IH]; intros [|y c] w E; try discriminate; unfold in_cell in *; cbn [combine forallb].
  - split; [intros _ k Hk; cbn in Hk; lia|auto].
  - rewrite andb_true_iff, (IH c w) by (cbn in E; lia). cbn [fst snd]. destruct (Rle_dec (y - w * 0.5) x), (Rle_dec x (y + w * 0.5)); cbn [andb].
    + split.
      * intros [_ H] [|k] Hk; [cbn; lra|]. apply H. cbn in Hk. lia.
      * intro H. split; [reflexivity|]. intros k Hk. apply (H (S k)). cbn. lia.
    + split; [intros [A _]; discriminate|]. intro H. specialize (H 0%nat ltac:(cbn; lia)). cbn in H. lra.
    + split; [intros [A _]; discriminate|]. intro H. specialize (H 0%nat ltac:(cbn; lia)). cbn in H. lra.
    + split; [intros [A _]; discriminate|]. intro H. specialize (H 0%nat ltac:(cbn; lia)). cbn in H. lra.
Qed.

Section inv.
Context (dim : nat) (lo : nat -> R) (w0 : R) (T : qtree) (X : nat -> nat -> Z).
Hypothesis I : inv dim lo w0 T X.
Lemma in_cell_iff p q : length p = dim -> (q < qn T)%nat -> in_cell p (nth q (qC T) []) (nth q (qW T) 0%R) = true <-> in_closed dim T q (coords p).
Proof using I. intros Hp Hq. rewrite in_cell_gen by (rewrite (i_lc _ _ _ _ _ I q Hq); auto). rewrite Hp. reflexivity. Qed.

(** ** in_quadtree *)
Definition fuel_of (l : list nat) : nat := fold_right (fun q s => (9 ^ (qn T - q) + s)%nat) 0%nat l.
Lemma fuel_app a b : fuel_of (a ++ b) = (fuel_of a + fuel_of b)%nat.
Proof using. induction a as [|x a IH]; [reflexivity|]. cbn [app fuel_of fold_right]. unfold fuel_of in IH. rewrite IH. unfold fuel_of. lia. Qed.
Lemma fuel_le (l : list nat) b : (forall q, In q l -> (9 ^ (qn T - q) <= b)%nat) -> (fuel_of l <= length l * b)%nat.
Proof using.
  induction l as [|x l IH]; intro H; [cbn; lia|]. cbn [fuel_of fold_right length]. specialize (IH ltac:(intros; apply H; right; auto)). specialize (H x ltac:(left; auto)). unfold fuel_of in IH. lia.
Qed.
Definition anc_closed (others : list nat) (o : nat) : Prop := o = 0%nat \/ exists p, parent T o = Z.of_nat p /\ In p others.
Lemma in_loop_ok p : length p = dim -> forall fuel queue others, (fuel_of queue < fuel)%nat -> (forall q, In q queue -> (q < qn T)%nat /\ anc_closed others q) ->
  (forall o, In o others -> (o < qn T)%nat /\ in_closed dim T o (coords p) /\ anc_closed others o /\ ~ leaf dim T o) ->
  exists i visited, in_loop fuel dim p T queue others = Ok (i, visited) /\
    (forall o, In o visited -> (o < qn T)%nat /\ in_closed dim T o (coords p) /\ anc_closed visited o) /\
    (i = (-1)%Z /\ (forall q, In q queue -> ~ in_closed dim T q (coords p)) /\ (forall q, In q queue -> ~ in_closed dim T q (coords p)) /\ visited = others \/
     exists q, i = Z.of_nat q /\ leaf dim T q /\ (exists before, visited = before ++ [q] /\ forall o, In o before -> ~ leaf dim T o)).
Proof using I.
  intros Hp. induction fuel as [|fuel IH]; intros queue others Hf HQ HO; [lia|]. cbn [in_loop]. destruct queue as [|q queue].
  - exists (-1)%Z, others. split; [reflexivity|]. split; [intros o Ho; destruct (HO o Ho) as (A & B & C & _); auto|]. left. repeat split; auto.
  - destruct (HQ q ltac:(left; auto)) as [Hq Aq]. change (fuel_of (q :: queue)) with (9 ^ (qn T - q) + fuel_of queue)%nat in Hf.
    assert (0 < 9 ^ (qn T - q))%nat as P9 by (apply Nat.neq_0_lt_0, Nat.pow_nonzero; lia).
    destruct (in_cell p (nth q (qC T) []) (nth q (qW T) 0%R)) eqn:E.
    + apply in_cell_iff in E; auto.
      assert (forall others, (forall o, In o others -> anc_closed others o) -> anc_closed others q -> forall o, In o (others ++ [q]) -> anc_closed (others ++ [q]) o) as Cl.
      { intros os H1 H2 o Ho. apply in_app_or in Ho as [Ho|[<-|[]]].
        - destruct (H1 o Ho) as [?|(m & ? & ?)]; [left; auto|right]. exists m. split; auto. apply in_or_app; auto.
        - destruct H2 as [?|(m & ? & ?)]; [left; auto|right]. exists m. split; auto. apply in_or_app; auto. }
      destruct (is_leaf T q) eqn:Lf.
      * exists (Z.of_nat q), (others ++ [q]). split; [reflexivity|]. split.
        -- intros o Ho. assert ((o < qn T)%nat /\ in_closed dim T o (coords p)). { apply in_app_or in Ho as [Ho|[<-|[]]]; [destruct (HO o Ho) as (? & ? & _); auto|auto]. }
           split; [tauto|]. split; [tauto|]. apply Cl; auto. intros o' Ho'. destruct (HO o' Ho') as (_ & _ & ? & _); auto.
        -- right. exists q. split; [reflexivity|]. split; [apply (is_leaf_iff _ _ _ _ _ I), Lf|]. exists others. split; [reflexivity|]. intros o Ho. destruct (HO o Ho) as (_ & _ & _ & ?); auto.
      * assert (~ leaf dim T q) as NL. { intro W. apply (is_leaf_iff _ _ _ _ _ I) in W. congruence. }
        destruct (i_row _ _ _ _ _ I q Hq) as [R|[n0 K]]; [exfalso; apply NL, (leaf_iff _ _ _ _ _ I q Hq), R|].
        fold (rowof T q). rewrite (k_row _ _ _ _ _ K). pose proof (k_lt _ _ _ _ _ K). pose proof (k_in _ _ _ _ _ K).
        assert (map Z.to_nat (firstn (2 ^ dim) (krow dim n0)) = map (fun q => (n0 + q)%nat) (seq 0 (2 ^ dim))) as ->.
        { rewrite firstn_all2 by (rewrite krow_length; lia). unfold krow. rewrite map_map. apply map_ext. intro. apply Nat2Z.id. }
        set (cs := map (fun q => (n0 + q)%nat) (seq 0 (2 ^ dim))).
        assert (forall c, In c cs -> (q < c < qn T)%nat /\ parent T c = Z.of_nat q) as Hcs.
        { intros c Hc. apply in_map_iff in Hc as (j & <- & Hj). apply in_seq in Hj. split; [lia|]. apply (k_par _ _ _ _ _ K). lia. }
        destruct (IH (queue ++ cs) (others ++ [q])) as (i & vis & Ei & Hv & Hr).
        -- rewrite fuel_app.
           assert (fuel_of cs <= length cs * 9 ^ (qn T - S q))%nat as Fc.
           { apply fuel_le. intros c Hc. apply Nat.pow_le_mono_r; [lia|]. destruct (Hcs c Hc). lia. }
           assert (length cs <= 8)%nat as Lc. { unfold cs. rewrite map_length, seq_length. destruct (i_dim _ _ _ _ _ I) as [-> | ->]; cbn; lia. }
           replace (qn T - q)%nat with (S (qn T - S q)) in Hf by lia. cbn [Nat.pow] in Hf.
           assert (0 < 9 ^ (qn T - S q))%nat by (apply Nat.neq_0_lt_0, Nat.pow_nonzero; lia). nia.
        -- intros c Hc. apply in_app_or in Hc as [Hc|Hc].
           ++ destruct (HQ c ltac:(right; auto)) as [A [B|(m & B & C)]]; (split; [auto|]); [left; auto|right; exists m; split; auto; apply in_or_app; auto].
           ++ destruct (Hcs c Hc) as [A B]. split; [lia|]. right. exists q. split; auto. apply in_or_app. right. left. auto.
        -- intros o Ho. assert ((o < qn T)%nat /\ in_closed dim T o (coords p) /\ ~ leaf dim T o).
           { apply in_app_or in Ho as [Ho|[<-|[]]]; [destruct (HO o Ho) as (? & ? & _ & ?); auto|auto]. }
           split; [tauto|]. split; [tauto|]. split; [|tauto]. apply Cl; auto. intros o' Ho'. destruct (HO o' Ho') as (_ & _ & ? & _); auto.
        -- exists i, vis. split; [exact Ei|]. split; [exact Hv|]. destruct Hr as [(_ & N1 & _)|Hr]; [exfalso|right; exact Hr].
           destruct (kids_cover _ _ _ _ _ I q n0 (coords p) K E) as (c & Hc & Cc). apply (N1 (n0 + c)%nat); [|exact Cc]. apply in_or_app. right. unfold cs. apply in_map_iff. exists c. split; [auto|apply in_seq; lia].
    + destruct (IH queue others) as (i & vis & Ei & Hv & Hr); [lia|intros; apply HQ; right; auto|auto|].
      exists i, vis. split; [exact Ei|]. split; [exact Hv|]. destruct Hr as [(A & B & _ & C)|Hr]; [left|right; exact Hr].
      assert (~ in_closed dim T q (coords p)) as NC. { intro W. apply (proj2 (in_cell_iff p q Hp Hq)) in W. congruence. }
      assert (forall q0, In q0 (q :: queue) -> ~ in_closed dim T q0 (coords p)). { intros q0 [<-|H0]; auto. }
      repeat split; auto.
Qed.
End inv.

(** ** the measure of the refinement *)
Fixpoint full (B m : nat) : nat := match m with O => O | S m' => (1 + B * full B m')%nat end.
Fixpoint nsumf (f : nat -> nat) (n : nat) : nat := match n with O => O | S n' => (nsumf f n' + f n')%nat end.
Lemma nsumf_ext f g n : (forall i, (i < n)%nat -> f i = g i) -> nsumf f n = nsumf g n.
Proof. induction n; intro H; [reflexivity|]. cbn. rewrite IHn by auto. rewrite H by lia. reflexivity. Qed.
Lemma nsumf_add f n m : nsumf f (n + m) = (nsumf f n + nsumf (fun i => f (n + i)%nat) m)%nat.
Proof. induction m; [rewrite Nat.add_0_r; cbn; lia|]. rewrite Nat.add_succ_r. cbn. rewrite IHm. lia. Qed.
Lemma nsumf_const c n : nsumf (fun _ => c) n = (n * c)%nat.
Proof. induction n; [reflexivity|]. cbn. rewrite IHn. lia. Qed.
Lemma nsumf_change f g n k : (k < n)%nat -> (forall i, (i < n)%nat -> i <> k -> f i = g i) -> (nsumf f n + g k = nsumf g n + f k)%nat.
Proof.
  induction n; intros Hk H; [lia|]. cbn. destruct (Nat.eq_dec k n) as [->|N].
  - rewrite (nsumf_ext f g n) by (intros; apply H; lia). lia.
  - rewrite (H n) by lia. specialize (IHn ltac:(lia) ltac:(intros; apply H; lia)). lia.
Qed.
Definition todo (dim M : nat) (T : qtree) : nat := nsumf (fun i => if is_leaf T i then full (2 ^ dim) (M - depth T i) else 0)%nat (qn T).
Lemma todo_split dim lo w0 T X M ind : inv dim lo w0 T X -> (ind < qn T)%nat -> rowof T ind = lrow dim -> (depth T ind < M)%nat ->
  todo dim M T = S (todo dim M (splitT dim T ind)).
Proof.
  intros I Hi L HM. pose proof (split_inv _ _ _ _ _ _ I Hi L) as I2. pose proof (s_n _ _ _ _ _ _ I Hi L) as En. pose proof (split_ext _ _ _ _ _ _ I Hi L) as E.
  unfold todo.
  set (f2 := fun i => (if is_leaf (splitT dim T ind) i then full (2 ^ dim) (M - depth (splitT dim T ind) i) else 0)%nat).
  set (f := fun i => (if is_leaf T i then full (2 ^ dim) (M - depth T i) else 0)%nat).
  rewrite En, nsumf_add.
  assert (forall i, (i < qn T + 2 ^ dim)%nat -> is_leaf (splitT dim T ind) i = true <-> rowof (splitT dim T ind) i = lrow dim) as LF.
  { intros i Hi'. rewrite (is_leaf_iff _ _ _ _ _ I2). apply (leaf_iff _ _ _ _ _ I2). lia. }
  rewrite (nsumf_ext (fun i => f2 (qn T + i)%nat) (fun _ => full (2 ^ dim) (M - S (depth T ind))) (2 ^ dim)).
  - rewrite nsumf_const. pose proof (nsumf_change f f2 (qn T) ind Hi) as C.
    assert (f ind = full (2 ^ dim) (M - depth T ind)) as F1. { unfold f. rewrite (proj2 (is_leaf_iff _ _ _ _ _ I ind)); [reflexivity|]. apply (leaf_iff _ _ _ _ _ I); auto. }
    assert (f2 ind = 0)%nat as F2.
    { unfold f2. destruct (is_leaf (splitT dim T ind) ind) eqn:Q; [|reflexivity]. apply LF in Q; [|lia]. rewrite (s_row _ _ _ _ _ _ I Hi L), Nat.eqb_refl in Q by lia. destruct (krow_not_leaf _ _ Q). }
    rewrite F1, F2 in C. replace (M - depth T ind)%nat with (S (M - S (depth T ind))) in C by lia. cbn [full] in C. rewrite Nat.add_0_r in C. rewrite C; [lia|].
    intros i Hi' Ni. unfold f, f2. rewrite (e_d _ _ _ E i Hi').
    assert (is_leaf T i = is_leaf (splitT dim T ind) i) as ->; [|reflexivity]. apply eq_true_iff_eq. rewrite LF by lia.
    rewrite (is_leaf_iff _ _ _ _ _ I), (leaf_iff _ _ _ _ _ I) by auto. rewrite (s_row _ _ _ _ _ _ I Hi L) by lia. rewrite (proj2 (Nat.eqb_neq _ _) Ni), (proj2 (Nat.ltb_lt _ _) Hi'). tauto.
  - intros i Hi'. unfold f2. rewrite (proj2 (LF (qn T + i)%nat ltac:(lia))).
    + rewrite (s_depth _ _ _ _ _ _ I Hi L) by lia. replace (qn T + i <? qn T)%nat with false by (symmetry; apply Nat.ltb_ge; lia). reflexivity.
    + rewrite (s_row _ _ _ _ _ _ I Hi L) by lia. replace (qn T + i <? qn T)%nat with false by (symmetry; apply Nat.ltb_ge; lia). destruct (Nat.eqb_spec (qn T + i) ind); [lia|reflexivity].
Qed.
Lemma splits_todo dim lo w0 m M T T' : splits dim m T T' -> forall X, inv dim lo w0 T X -> (m < M)%nat -> (forall i, (i < qn T)%nat -> (depth T i <= M)%nat) ->
  (qn T' + 2 ^ dim * todo dim M T' = qn T + 2 ^ dim * todo dim M T)%nat /\ forall i, (i < qn T')%nat -> (depth T' i <= M)%nat.
Proof.
  induction 1 as [T|T ind T' Hi L Hd S IH]; intros X I Hm HD; [auto|].
  pose proof (split_inv _ _ _ _ _ _ I Hi L) as I2. pose proof (s_n _ _ _ _ _ _ I Hi L) as En. pose proof (todo_split _ _ _ _ _ M _ I Hi L ltac:(lia)) as Et.
  destruct (IH _ I2 Hm) as [A B].
  - intros i Hi'. rewrite En in Hi'. rewrite (s_depth _ _ _ _ _ _ I Hi L) by auto. destruct (Nat.ltb_spec i (qn T)); [auto|lia].
  - split; [|exact B]. rewrite A, En, Et. lia.
Qed.
