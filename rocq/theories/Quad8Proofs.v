From Coq Require Import List Arith ZArith Reals Bool Lia Lra.
From Verif Require Import PyExn LoopsModel LoopsProofs QuadModel QuadSpec QuadProofs Quad2Proofs Quad3Proofs Quad4Proofs Quad5Proofs Quad6Proofs Quad7Proofs.
Import ListNotations.

Lemma graded_iff dim lo w0 T X : inv dim lo w0 T X -> graded_tree dim T <-> forall i j, ~ viol dim T i j.
Proof.
  intro I. split.
  - intros G i j (Hi & Hj & Li & Lj & A & D). apply (leaf_iff _ _ _ _ _ I) in Li, Lj; auto. specialize (G i j Li Lj A). lia.
  - intros V i j Li Lj A. destruct Li as [Hi Li], Lj as [Hj Lj]. destruct (le_lt_dec (depth T i) (depth T j + 1)) as [|Gt]; [auto|exfalso]. apply (V i j).
    repeat split; auto; [| |lia]; apply (leaf_iff _ _ _ _ _ I); auto; split; auto.
Qed.
Lemma subdivide_ok dim lo w0 T X graded ind : inv dim lo w0 T X -> leaf dim T ind ->
  exists T', subdivide_quad dim graded ind T = Ok T' /\ splits dim (depth T ind) (splitT dim T ind) T' /\ (graded = true -> graded_tree dim T -> graded_tree dim T').
Proof.
  intros I Lf. pose proof (proj1 Lf) as Hi. pose proof (proj1 (leaf_iff _ _ _ _ _ I ind Hi) Lf) as L.
  destruct (sub_ok _ _ _ graded (S (depth T ind)) T X ind I Hi L (Nat.lt_succ_diag_r _)) as (T' & E & Sp & V). exists T'. split; [exact E|]. split; [exact Sp|].
  intros Hg G. destruct (splits_inv _ _ _ _ _ _ _ Sp (split_inv _ _ _ _ _ _ I Hi L)) as (X2 & I2 & _).
  apply (graded_iff _ _ _ _ _ I2). intros i j W. destruct (V Hg) with (i := i) (j := j) as [W' _]; auto.
  - intros i' j' W'. exfalso. apply (proj1 (graded_iff _ _ _ _ _ I) G i' j' W').
  - apply (proj1 (graded_iff _ _ _ _ _ I) G i j W').
Qed.

(** why a cell may stay a leaf *)
Definition settled (dim : nat) (P : list (list R)) (max_depth min_depth : Z) (T : qtree) (i : nat) : Prop :=
  (max_depth <= Z.of_nat (depth T i))%Z \/ (min_depth <= Z.of_nat (depth T i))%Z /\ forall p, In p P -> ~ in_closed dim T i (coords p).

Section init.
Context (dim : nat) (c0 : list R) (w0 : R) (P : list (list R)) (max_depth min_depth : Z) (graded : bool).
Hypothesis Hd : (dim = 2 \/ dim = 3)%nat.
Hypothesis Hc0 : length c0 = dim.
Hypothesis HP : forall p, In p P -> length p = dim.
Notation M := (Z.to_nat (Z.max max_depth 1)).
Lemma init_loop_ok : forall fuel T qi, history dim c0 w0 T -> (forall i, (i < qn T)%nat -> (depth T i <= M)%nat) ->
  (forall i, (i < qi)%nat -> leaf dim T i -> settled dim P max_depth min_depth T i) -> (graded = true -> graded_tree dim T) -> (qi <= qn T)%nat ->
  (qn T + 2 ^ dim * todo dim M T < fuel + qi)%nat ->
  exists T', init_loop fuel dim P max_depth min_depth graded qi T = Ok T' /\ history dim c0 w0 T' /\ (forall i, (i < qn T')%nat -> (depth T' i <= M)%nat) /\
    (forall i, leaf dim T' i -> settled dim P max_depth min_depth T' i) /\ (graded = true -> graded_tree dim T').
Proof using Hd Hc0 HP.
  induction fuel as [|fuel IH]; intros T qi Hh HD HS HG Hqi Hf; [nia|]. cbn [init_loop].
  destruct (history_inv _ _ _ _ Hd Hc0 Hh) as [X I].
  destruct (Nat.leb_spec (qn T) qi) as [Le|Lt].
  - exists T. split; [reflexivity|]. split; [exact Hh|]. split; [exact HD|]. split; [|exact HG]. intros i Hi. apply HS; [|exact Hi]. destruct Hi. lia.
  - fold (depth T qi).
    assert (existsb (fun p => in_cell p (nth qi (qC T) []) (nth qi (qW T) 0%R)) P = true <-> exists p, In p P /\ in_closed dim T qi (coords p)) as EX.
    { rewrite existsb_exists. split; intros (p & Hp & H); exists p; (split; [exact Hp|]); apply (in_cell_iff _ _ _ _ _ I); auto. }
    destruct (((Z.of_nat (depth T qi) <? min_depth)%Z || existsb (fun p => in_cell p (nth qi (qC T) []) (nth qi (qW T) 0%R)) P) && (Z.of_nat (depth T qi) <? max_depth)%Z && is_leaf T qi) eqn:B.
    + apply andb_prop in B as [B Bl]. apply andb_prop in B as [_ Bm]. apply Z.ltb_lt in Bm. apply (is_leaf_iff _ _ _ _ _ I) in Bl.
      destruct (subdivide_ok _ _ _ _ _ graded qi I Bl) as (T2 & E & Sp & G2). rewrite E. cbn [bind].
      pose proof (proj1 (leaf_iff _ _ _ _ _ I qi Lt) Bl) as L.
      pose proof (split_inv _ _ _ _ _ _ I Lt L) as I1.
      assert (splits dim (depth T qi) T T2) as Sp'. { econstructor; eauto. }
      destruct (splits_inv _ _ _ _ _ _ _ Sp' I) as (X2 & I2 & E2 & _).
      destruct (splits_todo _ _ _ _ M _ _ Sp' X I ltac:(lia) HD) as [Et HD2].
      assert (rowof T2 qi <> lrow dim) as Nq.
      { destruct (splits_inv _ _ _ _ _ _ _ Sp I1) as (_ & _ & E1 & _). apply (ext_internal _ _ _ _ E1).
        - rewrite (s_n _ _ _ _ _ _ I Lt L). lia.
        - rewrite (s_row _ _ _ _ _ _ I Lt L), Nat.eqb_refl by lia. apply krow_not_leaf. }
      apply IH; auto.
      * econstructor; eauto.
      * intros i Hi Li. assert (i < qn T)%nat as Hi' by lia. destruct (Nat.eq_dec i qi) as [->|Ni]; [destruct Nq; apply (leaf_iff _ _ _ _ _ I2); auto; destruct Li; auto|].
        assert (leaf dim T i) as Li0.
        { apply (leaf_iff _ _ _ _ _ I i Hi'). apply (leaf_iff _ _ _ _ _ I2) in Li; [|destruct Li; auto]. destruct (e_row _ _ _ E2 i Hi') as [F|F]; congruence. }
        destruct (HS i ltac:(lia) Li0) as [S1|[S1 S2]]; [left|right]; rewrite (e_d _ _ _ E2 i Hi'); [auto|]. split; [auto|]. intros p Hp W. apply (S2 p Hp).
        intros k Hk. specialize (W k Hk). unfold low, high, centre, width in *. rewrite (e_c _ _ _ E2 i Hi') in W. pose proof (e_w _ _ _ E2 i Hi') as Ew. unfold width in Ew. rewrite Ew in W. exact W.
      * pose proof (e_n _ _ _ E2). lia.
      * lia.
    + apply IH; auto; [|lia]. intros i Hi Li. destruct (Nat.eq_dec i qi) as [->|Ni]; [|apply HS; auto; lia].
      rewrite (proj2 (is_leaf_iff _ _ _ _ _ I qi) Li), andb_true_r in B. apply andb_false_iff in B as [B|B].
      * right. apply orb_false_iff in B as [B1 B2]. apply Z.ltb_ge in B1. split; [auto|]. intros p Hp W. assert (false = true); [rewrite <- B2; apply EX; eauto|discriminate].
      * left. apply Z.ltb_ge in B. exact B.
Qed.
End init.

(** ** bounding boxes *)
Lemma combine_map_length {A B C} (f : A * B -> C) a b n : length a = n -> length b = n -> length (map f (combine a b)) = n.
Proof. intros. rewrite map_length, combine_length. lia. Qed.
Lemma combine_map_nth (f : R * R -> R) a b k : length a = length b -> (k < length a)%nat -> nth k (map f (combine a b)) 0%R = f (nth k a 0%R, nth k b 0%R).
Proof.
  intros E Hk. rewrite (nth_indep _ 0%R (f (0%R, 0%R))) by (rewrite map_length, combine_length; lia). rewrite map_nth, combine_nth by auto. reflexivity.
Qed.
Definition lower (b x : R) := (b <= x)%R.
Lemma col_fold_ok (f : R -> R -> R) (le : R -> R -> Prop) dim P v : (forall x, le x x) -> (forall x y z, le x y -> le y z -> le x z) -> (forall x y, le (f x y) x /\ le (f x y) y) ->
  (forall p, In p P -> length p = dim) -> col_fold f P = Ok v -> length v = dim /\ forall p k, In p P -> (k < dim)%nat -> le (nth k v 0%R) (nth k p 0%R).
Proof.
  intros Hr Ht Hf HL E. destruct P as [|p0 P]; [discriminate|]. unfold col_fold in E. injection E as <-.
  assert (forall P a, length a = dim -> (forall p, In p P -> length p = dim) ->
    let v := fold_left (fun a b => map (fun x => f (fst x) (snd x)) (combine a b)) P a in
    length v = dim /\ forall k, (k < dim)%nat -> le (nth k v 0%R) (nth k a 0%R) /\ forall p, In p P -> le (nth k v 0%R) (nth k p 0%R)) as G.
  { clear p0 P HL. induction P as [|p P IH]; intros a Ha HL; cbn [fold_left].
    - split; [exact Ha|]. intros k Hk. split; [apply Hr|intros p []].
    - pose proof (HL p ltac:(left; auto)) as Hp.
      destruct (IH (map (fun x => f (fst x) (snd x)) (combine a p)) (combine_map_length _ _ _ _ Ha Hp) ltac:(intros; apply HL; right; auto)) as [L1 L2].
      split; [exact L1|]. intros k Hk. destruct (L2 k Hk) as [A B]. rewrite combine_map_nth in A by lia. cbn [fst snd] in A. destruct (Hf (nth k a 0%R) (nth k p 0%R)) as [F1 F2].
      split; [eapply Ht; eauto|]. intros q [<-|Hq]; [eapply Ht; eauto|apply B, Hq]. }
  destruct (G P p0 (HL p0 ltac:(left; auto)) ltac:(intros; apply HL; right; auto)) as [A B]. split; [exact A|]. intros p k [<-|Hp] Hk; [exact (proj1 (B k Hk))|exact (proj2 (B k Hk) p Hp)].
Qed.
Lemma col_fold_total (f : R -> R -> R) P : P <> [] -> exists v, col_fold f P = Ok v.
Proof. destruct P; [contradiction|]. intros _. eexists. reflexivity. Qed.
Lemma maxR_ge l x : In x l -> (x <= maxR l)%R.
Proof.
  destruct l as [|y l]; [contradiction|]. cbn [maxR].
  assert (forall l y, (y <= fold_left Rmax l y)%R /\ forall x, In x l -> (x <= fold_left Rmax l y)%R) as G.
  { clear. induction l as [|z l IH]; intro y; cbn [fold_left]; [split; [lra|intros x []]|]. destruct (IH (Rmax y z)) as [A B]. pose proof (Rmax_l y z). pose proof (Rmax_r y z).
    split; [lra|]. intros x [<-|Hx]; [lra|auto]. }
  intros [<-|H]; [exact (proj1 (G l y))|exact (proj2 (G l y) x H)].
Qed.
Lemma maxR_in l : l <> [] -> In (maxR l) l.
Proof.
  destruct l as [|y l]; [contradiction|]. intros _. cbn [maxR].
  assert (forall l y, fold_left Rmax l y = y \/ In (fold_left Rmax l y) l) as G.
  { clear. induction l as [|z l IH]; intro y; cbn [fold_left]; [auto|]. destruct (IH (Rmax y z)) as [E|E]; [|right; right; auto]. rewrite E. unfold Rmax. destruct (Rle_dec y z); [right; left; auto|left; auto]. }
  destruct (G l y) as [E|E]; [left; auto|right; auto].
Qed.
