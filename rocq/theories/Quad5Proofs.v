From Coq Require Import List Arith ZArith Reals Bool Lia Lra.
From Verif Require Import PyExn LoopsModel LoopsProofs QuadModel QuadSpec QuadProofs Quad2Proofs Quad3Proofs Quad4Proofs.
Import ListNotations.
Open Scope Z_scope.

(** sequences of splittings of leaves of depth at most dmax *)
Inductive splits (dim dmax : nat) : qtree -> qtree -> Prop :=
| sp_refl T : splits dim dmax T T
| sp_step T ind T' : (ind < qn T)%nat -> rowof T ind = lrow dim -> (depth T ind <= dmax)%nat -> splits dim dmax (splitT dim T ind) T' -> splits dim dmax T T'.
Lemma splits_trans dim m T1 T2 T3 : splits dim m T1 T2 -> splits dim m T2 T3 -> splits dim m T1 T3.
Proof. induction 1; [auto|]. intro. econstructor; eauto. Qed.
Lemma splits_mono dim m m' T T' : (m <= m')%nat -> splits dim m T T' -> splits dim m' T T'.
Proof. intro H. induction 1; [constructor|]. econstructor; eauto. lia. Qed.
Lemma splits_inv dim m T T' lo w0 X : splits dim m T T' -> inv dim lo w0 T X ->
  exists X'', inv dim lo w0 T' X'' /\ ext dim T T' /\ forall i k, (i < qn T)%nat -> X'' i k = X i k.
Proof.
  intro S. revert X. induction S as [T|T ind T' Hi L Hd S IH]; intros X I.
  - exists X. split; [auto|]. split; [apply ext_refl|auto].
  - pose proof (split_ext _ _ _ _ _ _ I Hi L) as E. destruct (IH _ (split_inv _ _ _ _ _ _ I Hi L)) as (X2 & I2 & E2 & Q).
    exists X2. split; [exact I2|]. split; [eapply ext_trans; eauto|]. intros i k Hik. rewrite Q; [apply s_x_old with (1 := I); auto|]. pose proof (e_n _ _ _ E). lia.
Qed.
Lemma ext_internal dim T T' i : ext dim T T' -> (i < qn T)%nat -> rowof T i <> lrow dim -> rowof T' i <> lrow dim.
Proof. intros E Hi N. destruct (e_row _ _ _ E i Hi) as [F|F]; congruence. Qed.

Definition viol (dim : nat) (T : qtree) (i j : nat) : Prop :=
  (i < qn T)%nat /\ (j < qn T)%nat /\ rowof T i = lrow dim /\ rowof T j = lrow dim /\ qA T i j <> 0 /\ (depth T j + 2 <= depth T i)%nat.
Definition mild (dim : nat) (T : qtree) (ind : nat) : Prop :=
  forall i j, viol dim T i j -> depth T i = (depth T j + 2)%nat /\ (depth T ind <= depth T j)%nat.

Section inv.
Context (dim : nat) (lo : nat -> R) (w0 : R).

Lemma A_sym T X i j : inv dim lo w0 T X -> (i < qn T)%nat -> (j < qn T)%nat -> qA T i j <> 0 -> qA T j i <> 0.
Proof.
  intros I Hi Hj Ha. destruct (i_codes _ _ _ _ _ I i j Hi Hj) as [?|(k & s & Hk & C)]; [contradiction|].
  apply (i_adj _ _ _ _ _ I i j k s Hi Hj Hk) in C. rewrite dirg_sym in C. apply (i_adj _ _ _ _ _ I j i k _ Hj Hi Hk) in C. rewrite C. apply code_pos.
Qed.
Lemma A_child T X ind nb q : inv dim lo w0 T X -> (ind < qn T)%nat -> rowof T ind = lrow dim -> (nb < qn T)%nat -> (q < 2 ^ dim)%nat ->
  qA (splitT dim T ind) nb (qn T + q) <> 0 -> qA T nb ind <> 0.
Proof.
  intros I Hi L Hnb Hq Ha. pose proof (split_inv _ _ _ _ _ _ I Hi L) as I2. pose proof (s_n _ _ _ _ _ _ I Hi L) as En.
  destruct (i_codes _ _ _ _ _ I2 nb (qn T + q)) as [?|(k & s & Hk & C)]; [lia|lia|contradiction|].
  apply (i_adj _ _ _ _ _ I2 nb (qn T + q) k s) in C; [|lia|lia|auto]. rewrite !(s_depth _ _ _ _ _ _ I Hi L) in C by lia.
  rewrite (proj2 (Nat.ltb_lt _ _) Hnb) in C. replace (qn T + q <? qn T)%nat with false in C by (symmetry; apply Nat.ltb_ge; lia).
  rewrite (dirg_ext dim s _ _ (X nb) _ _ (kid (X ind) q) k) in C; auto; [|intros; apply s_x_old with (1 := I); auto|intros; apply s_x_new with (1 := I); auto].
  apply (child_touch _ _ _ _ _ _ I Hi L) in C; auto. apply (i_adj _ _ _ _ _ I nb ind k s Hnb Hi Hk) in C. rewrite C. apply code_pos.
Qed.

Lemma viol_split T X ind i j : inv dim lo w0 T X -> (ind < qn T)%nat -> rowof T ind = lrow dim -> mild dim T ind ->
  viol dim (splitT dim T ind) i j ->
  (viol dim T i j /\ j <> ind) \/
  (In j (col_nonzero (splitT dim T ind) ind) /\ depth (splitT dim T ind) i = (depth (splitT dim T ind) j + 2)%nat /\ (depth (splitT dim T ind) j + 1 = depth T ind)%nat /\ j <> ind).
Proof.
  intros I Hi L Mi (Hi2 & Hj2 & Li & Lj & Ha & Hdd).
  pose proof (split_inv _ _ _ _ _ _ I Hi L) as I2. pose proof (s_n _ _ _ _ _ _ I Hi L) as En. pose proof (split_ext _ _ _ _ _ _ I Hi L) as E.
  rewrite En in Hi2, Hj2.
  assert (forall m, (m < qn T + 2 ^ dim)%nat -> (m < qn T)%nat \/ exists q, (q < 2 ^ dim)%nat /\ m = (qn T + q)%nat) as Cases.
  { intros m Hm. destruct (Nat.ltb_spec m (qn T)); [auto|right]. exists (m - qn T)%nat. lia. }
  assert (forall m, (m < qn T)%nat -> rowof (splitT dim T ind) m = lrow dim -> m <> ind /\ rowof T m = lrow dim) as Old.
  { intros m Hm R. rewrite (s_row _ _ _ _ _ _ I Hi L) in R by lia. destruct (Nat.eqb_spec m ind) as [->|N]; [destruct (krow_not_leaf _ _ R)|].
    rewrite (proj2 (Nat.ltb_lt _ _) Hm) in R. auto. }
  destruct (Cases i Hi2) as [Hio|(q & Hq & ->)]; destruct (Cases j Hj2) as [Hjo|(q' & Hq' & ->)].
  - left. rewrite !(e_d _ _ _ E) in Hdd by auto. rewrite (e_a _ _ _ E) in Ha by auto. destruct (Old i Hio Li), (Old j Hjo Lj). repeat split; auto.
  - exfalso. apply A_child with (X := X) in Ha; auto. rewrite (e_d _ _ _ E i Hio) in Hdd. rewrite (s_depth _ _ _ _ _ _ I Hi L) in Hdd by lia.
    replace (qn T + q' <? qn T)%nat with false in Hdd by (symmetry; apply Nat.ltb_ge; lia).
    destruct (Mi i ind) as [M _]; [|lia]. destruct (Old i Hio Li). repeat split; auto. lia.
  - right. rewrite (e_d _ _ _ E j Hjo) in *. rewrite (s_depth _ _ _ _ _ _ I Hi L) in * by lia.
    replace (qn T + q <? qn T)%nat with false in * by (symmetry; apply Nat.ltb_ge; lia).
    destruct (Old j Hjo Lj) as [Nj Lj'].
    apply (A_sym _ _ _ _ I2) in Ha; [|lia|lia]. apply A_child with (X := X) in Ha; auto.
    assert (depth T j + 1 = depth T ind)%nat.
    { destruct (le_lt_dec (depth T j + 2) (depth T ind)); [|lia]. exfalso. destruct (Mi ind j) as [_ M]; [|lia]. repeat split; auto. apply (A_sym _ _ _ _ I); auto. }
    split; [|split; [lia|auto]]. apply In_col. split; [lia|]. rewrite (e_a _ _ _ E) by auto. exact Ha.
  - exfalso. rewrite !(s_depth _ _ _ _ _ _ I Hi L) in Hdd by lia.
    replace (qn T + q <? qn T)%nat with false in * by (symmetry; apply Nat.ltb_ge; lia). replace (qn T + q' <? qn T)%nat with false in * by (symmetry; apply Nat.ltb_ge; lia). lia.
Qed.

Lemma sub_ok graded : forall fuel T X ind, inv dim lo w0 T X -> (ind < qn T)%nat -> rowof T ind = lrow dim -> (depth T ind < fuel)%nat ->
  exists T', subdivide_fuel fuel dim graded ind T = Ok T' /\ splits dim (depth T ind) (splitT dim T ind) T' /\
    (graded = true -> mild dim T ind -> forall i j, viol dim T' i j -> viol dim T i j /\ j <> ind).
Proof.
  induction fuel as [|fuel IH]; intros T X ind I Hi L Hf; [lia|]. cbn [subdivide_fuel].
  rewrite (split_eq _ _ _ _ _ _ I Hi L). cbn [bind]. set (T2 := splitT dim T ind).
  destruct graded; [|exists T2; split; [reflexivity|]; split; [constructor|discriminate]].
  rewrite (nth_error_some (qD T) ind 0%nat) by (rewrite (i_lD _ _ _ _ _ I); auto). cbn [lift bind]. fold (depth T ind). set (d := depth T ind) in *.
  pose proof (split_inv _ _ _ _ _ _ I Hi L) as I2. fold T2 in I2.
  assert (forall l Tc, splits dim d T2 Tc -> (forall nb, In nb l -> (nb < qn T2)%nat) ->
    (mild dim T ind -> forall i j, viol dim Tc i j -> (viol dim T i j /\ j <> ind) \/ (In j l /\ depth Tc i = (depth Tc j + 2)%nat /\ (depth Tc j + 1 = d)%nat)) ->
    exists T', foldE (fun T nb => if is_leaf T nb && Nat.ltb (nth nb (qD T) 0%nat) d then subdivide_fuel fuel dim true nb T else Ok T) l Tc = Ok T' /\
      splits dim d T2 T' /\ (mild dim T ind -> forall i j, viol dim T' i j -> viol dim T i j /\ j <> ind)) as Loop.
  { induction l as [|nb l IHl]; intros Tc Sc Hl V.
    - exists Tc. split; [reflexivity|]. split; [exact Sc|]. intros M i j Hv. destruct (V M i j Hv) as [?|[[] _]]; auto.
    - cbn [foldE]. destruct (splits_inv _ _ _ _ _ _ _ Sc I2) as (Xc & Ic & Ec & _).
      assert (nb < qn Tc)%nat as Hnb. { pose proof (e_n _ _ _ Ec). specialize (Hl nb ltac:(left; auto)). lia. }
      fold (depth Tc nb). destruct (is_leaf Tc nb && (depth Tc nb <? d)%nat) eqn:B.
      + apply andb_prop in B as [B1 B2]. apply (is_leaf_iff _ _ _ _ _ Ic) in B1. apply (leaf_iff _ _ _ _ _ Ic nb Hnb) in B1. apply Nat.ltb_lt in B2.
        destruct (IH Tc Xc nb Ic Hnb B1 ltac:(lia)) as (Td & Ed & Sd & Vd). rewrite Ed. cbn [bind].
        apply IHl.
        * eapply splits_trans; [exact Sc|]. econstructor; [exact Hnb|exact B1|lia|]. eapply splits_mono; [|exact Sd]. lia.
        * intros; apply Hl; right; auto.
        * intros M i j Hv.
          destruct (splits_inv _ _ _ _ _ _ _ Sd (split_inv _ _ _ _ _ _ Ic Hnb B1)) as (Xd & Id & Ed' & _).
          assert (ext dim Tc Td) as Ecd. { eapply ext_trans; [apply (split_ext _ _ _ _ _ _ Ic Hnb B1)|exact Ed']. }
          destruct (Vd eq_refl) with (i := i) (j := j) as [Hv' Nj]; auto.
          -- intros i' j' Hv'. destruct (V M i' j' Hv') as [[Hv2 _]|(_ & E1 & E2)]; [|lia].
             destruct (M _ _ Hv2) as [E1 E2]. destruct Hv2 as (Hi' & Hj' & _).
             assert (ext dim T Tc) as ETc by (eapply ext_trans; [apply (split_ext _ _ _ _ _ _ I Hi L)|exact Ec]).
             rewrite !(e_d _ _ _ ETc) by auto. fold d in E2. lia.
          -- destruct (V M i j Hv') as [?|([->|Hin] & E1 & E2)]; [auto|contradiction|right].
             destruct Hv' as (Hi' & Hj' & _). rewrite !(e_d _ _ _ Ecd) by auto. auto.
      + cbn [bind]. apply IHl; [exact Sc|intros; apply Hl; right; auto|].
        intros M i j Hv. destruct (V M i j Hv) as [?|([->|Hin] & E1 & E2)]; [auto|exfalso|auto].
        destruct Hv as (_ & Hj & _ & Lj & _). rewrite (proj2 (Nat.ltb_lt (depth Tc j) d) ltac:(lia)), andb_true_r in B.
        apply (leaf_iff _ _ _ _ _ Ic j Hj) in Lj. apply (is_leaf_iff _ _ _ _ _ Ic) in Lj. congruence. }
  destruct (Loop (col_nonzero T2 ind) T2) as (T' & E & S' & V').
  - constructor.
  - intros nb H. apply In_col in H. tauto.
  - intros M i j Hv. destruct (viol_split T X ind i j I Hi L M Hv) as [?|(A & B & C & _)]; [auto|right; auto].
  - exists T'. split; [exact E|]. split; [exact S'|]. intros _. exact V'.
Qed.
Lemma sub_err graded fuel T X ind T' : inv dim lo w0 T X -> subdivide_fuel fuel dim graded ind T = Ok T' -> (ind < qn T)%nat /\ rowof T ind = lrow dim.
Proof.
  intros I H. destruct fuel; [discriminate|]. cbn [subdivide_fuel] in H.
  destruct (split_quad dim ind T) eqn:E; [|discriminate]. clear H. unfold split_quad in E.
  destruct (nth_error (qCH T) ind) as [row|] eqn:R; [|discriminate]. cbn [lift bind] in E.
  assert (ind < qn T)%nat as Hi. { rewrite <- (i_lCH _ _ _ _ _ I). apply nth_error_Some. congruence. }
  split; [exact Hi|]. apply (leaf_iff _ _ _ _ _ I ind Hi), (is_leaf_iff _ _ _ _ _ I). unfold is_leaf. rewrite R.
  destruct row as [|x [|y r]]; try discriminate. cbn [nth_error lift bind] in E. destruct (y =? -1); [reflexivity|discriminate].
Qed.
End inv.

(** ** histories *)
Lemma root_inv dim c0 w0 : (dim = 2 \/ dim = 3)%nat -> length c0 = dim -> inv dim (fun k => nth k c0 0%R - w0 / 2)%R w0 (fresh_root dim c0 w0) (fun _ _ => 0).
Proof.
  intros Hd Hl. assert (forall i, (i < qn (fresh_root dim c0 w0))%nat -> i = 0%nat) as Z0 by (unfold qn, fresh_root; cbn; lia).
  constructor; auto.
  - intros i Hi. rewrite (Z0 i Hi). cbn. split; [lia|]. intros. lia.
  - intros i Hi. rewrite (Z0 i Hi). unfold width, depth. cbn. lra.
  - intros i Hi. rewrite (Z0 i Hi). exact Hl.
  - intros i k Hi Hk. rewrite (Z0 i Hi). unfold centre, width. cbn. lra.
  - intros i Hi. rewrite (Z0 i Hi). left. reflexivity.
  - intros i Hi. specialize (Z0 i ltac:(lia)). lia.
  - intros i j k s Hi Hj Hk. rewrite (Z0 i Hi), (Z0 j Hj). cbn [fresh_root qA]. split; [|intro H; symmetry in H; destruct (code_pos _ _ H)].
    unfold dirg, touchg, abut, depth. cbn. destruct s; intros [A _]; lia.
Qed.
Lemma history_inv dim c0 w0 T : (dim = 2 \/ dim = 3)%nat -> length c0 = dim -> history dim c0 w0 T ->
  exists X, inv dim (fun k => nth k c0 0%R - w0 / 2)%R w0 T X.
Proof.
  intros Hd Hl. induction 1 as [|T graded ind T' H [X I] E]; [exists (fun _ _ => 0); apply root_inv; auto|].
  unfold subdivide_quad in E. destruct (sub_err _ _ _ _ _ _ _ _ _ I E) as [Hi L].
  destruct (sub_ok _ _ _ graded _ T X ind I Hi L (Nat.lt_succ_diag_r _)) as (T2 & E2 & S2 & _). unfold depth in E2. rewrite E2 in E. injection E as <-.
  destruct (splits_inv _ _ _ _ _ _ _ S2 (split_inv _ _ _ _ _ _ I Hi L)) as (X2 & I2 & _). exists X2. exact I2.
Qed.
