From Coq Require Import Reals Lra ZArith List Bool Permutation Lia Arith.
From Verif Require Import NumpyModel PyExn Vec GeomModel LoopsModel SubdivModel Subdiv2Proofs AabbModel AabbSpec AabbProofs.
Import ListNotations.
Open Scope R_scope.

Section B.
  Variable argsort : list R -> list nat.
  Hypothesis AS : forall l, Permutation (argsort l) (seq 0 (length l)).
  Variables (dim m : nat) (vminB vmaxB : list vec).
  Hypothesis DP : (0 < dim)%nat.
  Hypothesis Lmin : length vminB = m.
  Hypothesis Lmax : length vmaxB = m.
  Hypothesis Fmin : Forall (fun x => length x = dim) vminB.
  Hypothesis Fmax : Forall (fun x => length x = dim) vmaxB.
  Notation lnode := (node * list nat)%type.
  Notation bx := (box_of dim vminB vmaxB).
  Variable root : node.

  Definition front (T : list lnode) : list nat := flat_map (fun x => if is_leafb (fst x) then snd x else []) T.
  Definition todo (T : list lnode) : nat := list_sum (map (fun x => (2 * length (snd x) - 1)%nat) T).

  Definition done_ok (T : list lnode) (j : nat) (x : lnode) : Prop :=
    (leaf (fst x) /\ nS (fst x) = (-1)%Z /\ exists e, snd x = [e] /\ nT (fst x) = Z.of_nat e) \/
    (nT (fst x) = (-1)%Z /\ (0 <= nS (fst x) < Z.of_nat dim)%Z /\ exists c x1 x2, nCH (fst x) = (Z.of_nat c, Z.of_nat (S c)) /\ (j < c)%nat /\
       nth_error T c = Some x1 /\ nth_error T (S c) = Some x2 /\ nPAR (fst x1) = Z.of_nat j /\ nPAR (fst x2) = Z.of_nat j /\
       nD (fst x1) = (nD (fst x) + 1)%Z /\ nD (fst x2) = (nD (fst x) + 1)%Z /\ Permutation (snd x1 ++ snd x2) (snd x)).
  Record inv (k : nat) (T : list lnode) : Prop := {
    i_len : (k <= length T)%nat;
    i_todo : forall j x, nth_error T j = Some x -> (k <= j)%nat -> leaf (fst x) /\ nT (fst x) = (-1)%Z /\ nS (fst x) = (-1)%Z /\ snd x <> [];
    i_done : forall j x, nth_error T j = Some x -> (j < k)%nat -> done_ok T j x;
    i_par : forall j x, nth_error T j = Some x -> (0 < j)%nat -> exists p y, nPAR (fst x) = Z.of_nat p /\ (p < k)%nat /\ (p < j)%nat /\ nth_error T p = Some y /\
              (fst (nCH (fst y)) = Z.of_nat j \/ snd (nCH (fst y)) = Z.of_nat j);
    i_root : exists x, nth_error T 0 = Some x /\ snd x = seq 0 m /\ nPAR (fst x) = nPAR root /\ nD (fst x) = nD root /\ nC (fst x) = nC root /\ nW (fst x) = nW root;
    i_box : forall j x, nth_error T j = Some x -> (0 < j)%nat -> bx (nC (fst x)) (nW (fst x)) (snd x);
    i_front : Permutation (front T) (seq 0 m);
    i_size : (k + todo (skipn k T) = 2 * m - 1)%nat }.

  Lemma set_nth_app {A} (L : list A) x B y : set_nth (L ++ x :: B) (length L) y = L ++ y :: B.
  Proof. induction L; cbn; auto. f_equal. auto. Qed.
  Lemma nth_error_mid {A} (L B : list A) x j : nth_error (L ++ x :: B) j = if Nat.eqb j (length L) then Some x else nth_error (L ++ x :: B) j.
  Proof. destruct (Nat.eqb_spec j (length L)); auto. subst. rewrite nth_error_app2, Nat.sub_diag by lia. reflexivity. Qed.
  Lemma nth_error_upd {A} (L B : list A) x y j : j <> length L -> nth_error (L ++ y :: B) j = nth_error (L ++ x :: B) j.
  Proof.
    intros N. destruct (lt_dec j (length L)); [rewrite !nth_error_app1 by lia; auto|]. rewrite !nth_error_app2 by lia.
    destruct (j - length L)%nat eqn:E; [lia|reflexivity].
  Qed.

  Lemma front_app A B : front (A ++ B) = front A ++ front B.
  Proof. apply flat_map_app. Qed.
  Lemma front_cons x B : front (x :: B) = (if is_leafb (fst x) then snd x else []) ++ front B.
  Proof. reflexivity. Qed.

  Lemma done_mono T T' j x : (forall c y, (j < c)%nat -> nth_error T c = Some y -> exists y', nth_error T' c = Some y' /\ snd y' = snd y /\ nPAR (fst y') = nPAR (fst y) /\ nD (fst y') = nD (fst y)) ->
    done_ok T j x -> done_ok T' j x.
  Proof.
    intros H [L|(A & B & c & x1 & x2 & C & JC & N1 & N2 & P1 & P2 & D1 & D2 & P)]; [left; exact L|right].
    destruct (H _ _ JC N1) as (y1 & M1 & S1 & Q1 & E1). destruct (H (S c) _ ltac:(lia) N2) as (y2 & M2 & S2 & Q2 & E2).
    split; auto. split; auto. exists c, y1, y2. repeat split; auto; congruence.
  Qed.

  Lemma build_int fuel k T nd tris bd cl wl tl cr wr tr : nth_error T k = Some (nd, tris) -> is_leafb nd = true -> (2 <= length tris)%nat ->
    split_box argsort vminB vmaxB tris = Ok (bd, (cl, wl, tl), (cr, wr, tr)) ->
    build argsort vminB vmaxB (S fuel) k T = build argsort vminB vmaxB fuel (S k)
      (let nb := Z.of_nat (length T) in
       let child c w := {| nC := c; nW := w; nCH := (-1, -1)%Z; nPAR := Z.of_nat k; nD := (nD nd + 1)%Z; nT := (-1)%Z; nS := (-1)%Z |} in
       set_nth T k ({| nC := nC nd; nW := nW nd; nCH := (nb, nb + 1)%Z; nPAR := nPAR nd; nD := nD nd; nT := nT nd; nS := bd |}, tris)
       ++ [(child cl wl, tl); (child cr wr, tr)]).
  Proof.
    intros N F L S. destruct tris as [|a [|b tris]]; cbn in L; try lia. cbn [build]. rewrite N.
    change (snd (nCH nd) =? -1)%Z with (is_leafb nd). rewrite F, S. reflexivity.
  Qed.

  Lemma step k T : inv k T -> (k < length T)%nat ->
    exists T', inv (S k) T' /\ forall fuel, build argsort vminB vmaxB (S fuel) k T = build argsort vminB vmaxB fuel (S k) T'.
  Proof.
    intros I KL. destruct (nth_error T k) as [x|] eqn:NK; [|apply nth_error_None in NK; lia].
    destruct (nth_error_split _ _ NK) as (A & B & ET & LA). subst k.
    destruct (i_todo _ _ I _ _ NK (Nat.le_refl _)) as (LF & NT & NS & NE). destruct x as [nd tris]. cbn [fst snd] in *.
    assert (SUF : skipn (length A) T = (nd, tris) :: B) by (rewrite ET, skipn_app, skipn_all, Nat.sub_diag; reflexivity).
    assert (FI : is_leafb nd = true) by (unfold is_leafb; rewrite LF; reflexivity).
    assert (FR : front T = front A ++ tris ++ front B) by (rewrite ET, front_app, front_cons; cbn [fst snd]; rewrite FI; reflexivity).
    assert (TV : forall e, In e tris -> (e < m)%nat).
    { intros e E. pose proof (Permutation_in e (i_front _ _ I)) as Q. rewrite FR in Q. specialize (Q ltac:(apply in_or_app; right; apply in_or_app; auto)). apply in_seq in Q. lia. }
    destruct tris as [|e [|e2 tr0]] eqn:ETR; [congruence| |].
    - (* leaf *)
      set (nd' := {| nC := nC nd; nW := nW nd; nCH := nCH nd; nPAR := nPAR nd; nD := nD nd; nT := Z.of_nat e; nS := nS nd |}).
      exists (A ++ (nd', [e]) :: B).
      assert (BU : forall fuel, build argsort vminB vmaxB (S fuel) (length A) T = build argsort vminB vmaxB fuel (S (length A)) (A ++ (nd', [e]) :: B)).
      { intros fuel. cbn [build]. rewrite NK. change (snd (nCH nd) =? -1)%Z with (is_leafb nd). rewrite FI. cbn [negb]. fold nd'. rewrite ET, set_nth_app. reflexivity. }
      split; [|exact BU]. subst T.
      assert (UP : forall j y, nth_error (A ++ (nd, [e]) :: B) j = Some y -> exists y', nth_error (A ++ (nd', [e]) :: B) j = Some y' /\ snd y' = snd y /\ nPAR (fst y') = nPAR (fst y) /\ nD (fst y') = nD (fst y) /\ nC (fst y') = nC (fst y) /\ nW (fst y') = nW (fst y) /\ nCH (fst y') = nCH (fst y)).
      { intros j y H. destruct (Nat.eq_dec j (length A)) as [ -> |NJ].
        - rewrite nth_error_mid, Nat.eqb_refl in H |- *. injection H as <-. exists (nd', [e]). repeat split; reflexivity.
        - rewrite (nth_error_upd _ _ (nd, [e])) by auto. exists y. repeat split; auto. }
      assert (DN : forall j y', nth_error (A ++ (nd', [e]) :: B) j = Some y' -> exists y, nth_error (A ++ (nd, [e]) :: B) j = Some y /\ snd y' = snd y /\ nPAR (fst y') = nPAR (fst y) /\ nC (fst y') = nC (fst y) /\ nW (fst y') = nW (fst y) /\ (j <> length A -> y' = y) /\ (j = length A -> y' = (nd', [e]))).
      { intros j y H. destruct (Nat.eq_dec j (length A)) as [ -> |NJ].
        - rewrite nth_error_mid, Nat.eqb_refl in H |- *. injection H as <-. exists (nd, [e]). repeat split; try reflexivity. congruence.
        - rewrite (nth_error_upd _ _ (nd, [e])) in H by auto. exists y. repeat split; auto. congruence. }
      destruct I. constructor.
      + rewrite app_length in *; cbn [length] in *; lia.
      + intros j y H J. destruct (DN _ _ H) as (z & Hz & _ & _ & _ & _ & Q & _). rewrite Q by lia. apply (i_todo0 j); auto. lia.
      + intros j y H J. destruct (DN _ _ H) as (z & Hz & _ & _ & _ & _ & Q & Q2).
        destruct (Nat.eq_dec j (length A)) as [EJ|NJ].
        * rewrite (Q2 EJ). left. split; [exact LF|]. split; [exact NS|]. exists e. split; reflexivity.
        * rewrite (Q NJ). eapply done_mono; [|apply i_done0; [exact Hz|lia]].
          intros c w _ W. destruct (UP _ _ W) as (w' & ? & ? & ? & ? & _). exists w'. auto.
      + intros j y H J. destruct (DN _ _ H) as (z & Hz & _ & EP & _). destruct (i_par0 _ _ Hz J) as (p & w & Q1 & Q2 & Q3 & Q4 & Q5).
        destruct (UP _ _ Q4) as (w' & W1 & _ & _ & _ & _ & _ & W2). exists p, w'. rewrite EP, W2. repeat split; auto.
      + destruct i_root0 as (x & X1 & X2 & X3 & X4 & X5 & X6). destruct (UP _ _ X1) as (x' & ? & ? & ? & ? & ? & ? & ?). exists x'. repeat split; congruence.
      + intros j y H J. destruct (DN _ _ H) as (z & Hz & E1 & _ & E2 & E3 & _). rewrite E1, E2, E3. eapply i_box0; eauto.
      + rewrite front_app, front_cons. change (is_leafb (fst (nd', [e]))) with (is_leafb nd). rewrite FI. cbn [fst snd]. rewrite <- FR. exact i_front0.
      + rewrite SUF in i_size0. change (A ++ (nd', [e]) :: B) with (A ++ [(nd', [e])] ++ B). rewrite app_assoc, skipn_app.
        assert (LA1 : length (A ++ [(nd', [e])]) = S (length A)) by (rewrite app_length; cbn; lia). rewrite <- LA1 at 2. rewrite skipn_all, LA1, Nat.sub_diag.
        unfold todo in *. cbn [map list_sum fold_right app skipn] in *. unfold list_sum in *. cbn [fold_right length snd] in i_size0. lia.
    - (* internal *)
      rewrite <- ETR in *. assert (L2 : (2 <= length tris)%nat) by (rewrite ETR; cbn; lia).
      destruct (split_ok argsort AS dim m vminB vmaxB DP Lmin Lmax Fmin Fmax tris L2 TV) as (bd & cl & wl & tl & cr & wr & tr & ES & BD & NL & NR & PM & BL & BR).
      set (nb := Z.of_nat (length T)).
      set (child := fun c w => {| nC := c; nW := w; nCH := (-1, -1)%Z; nPAR := Z.of_nat (length A); nD := (nD nd + 1)%Z; nT := (-1)%Z; nS := (-1)%Z |}).
      set (nd' := {| nC := nC nd; nW := nW nd; nCH := (nb, nb + 1)%Z; nPAR := nPAR nd; nD := nD nd; nT := nT nd; nS := bd |}).
      set (c1 := (child cl wl, tl)). set (c2 := (child cr wr, tr)). set (T' := (A ++ (nd', tris) :: B) ++ [c1; c2]).
      exists T'. 
      assert (BU : forall fuel, build argsort vminB vmaxB (S fuel) (length A) T = build argsort vminB vmaxB fuel (S (length A)) T').
      { intros fuel. rewrite (build_int _ _ _ _ _ _ _ _ _ _ _ _ NK FI L2 ES). unfold T'. rewrite <- (set_nth_app A (nd, tris) B). rewrite <- ET. reflexivity. }
      split; [|exact BU].
      assert (LT : length T = length (A ++ (nd', tris) :: B)) by (rewrite ET, !app_length; reflexivity).
      assert (KA : (length A < length T)%nat) by exact KL.
      assert (N1 : nth_error T' (length T) = Some c1) by (unfold T'; rewrite LT, nth_error_app2, Nat.sub_diag by lia; reflexivity).
      assert (N2 : nth_error T' (S (length T)) = Some c2) by (unfold T'; rewrite LT, nth_error_app2 by lia; replace (S _ - _)%nat with 1%nat by lia; reflexivity).
      assert (NA : nth_error T' (length A) = Some (nd', tris)) by (unfold T'; rewrite nth_error_app1 by (rewrite <- LT; lia); rewrite nth_error_app2, Nat.sub_diag by lia; reflexivity).
      assert (NO : forall j, (j < length T)%nat -> j <> length A -> nth_error T' j = nth_error T j).
      { intros j J NJ. unfold T'. rewrite nth_error_app1 by (rewrite <- LT; lia). rewrite ET. apply nth_error_upd; auto. }
      assert (CA : forall j y, nth_error T' j = Some y -> (j < length T /\ j <> length A /\ nth_error T j = Some y)%nat \/ (j = length A /\ y = (nd', tris)) \/ (j = length T /\ y = c1) \/ (j = S (length T) /\ y = c2)).
      { intros j y H. assert (JL : (j < length T')%nat) by (apply nth_error_Some; congruence). unfold T' in JL. rewrite app_length, <- LT in JL. cbn in JL.
        destruct (Nat.eq_dec j (length A)) as [ -> |NJ]; [right; left; split; auto; congruence|].
        destruct (lt_dec j (length T)); [left; repeat split; auto; rewrite <- NO; auto|right; right].
        destruct (Nat.eq_dec j (length T)) as [ -> |]; [left|right]; [split; auto; congruence|]. assert (j = S (length T)) by lia. subst j. split; auto; congruence. }
      assert (UP : forall j y, nth_error T j = Some y -> exists y', nth_error T' j = Some y' /\ snd y' = snd y /\ nPAR (fst y') = nPAR (fst y) /\ nD (fst y') = nD (fst y) /\ nC (fst y') = nC (fst y) /\ nW (fst y') = nW (fst y) /\ (j <> length A -> y' = y)).
      { intros j y H. assert (JL : (j < length T)%nat) by (apply nth_error_Some; congruence).
        destruct (Nat.eq_dec j (length A)) as [ -> |NJ].
        - rewrite NK in H. injection H as <-. exists (nd', tris). repeat split; auto. congruence.
        - rewrite NO by auto. exists y. repeat split; auto. }
      destruct I. constructor.
      + unfold T'. rewrite app_length, <- LT. cbn. lia.
      + intros j y H J. destruct (CA _ _ H) as [(J1 & J2 & H1)|[(J1 & _)|[(J1 & -> )|(J1 & -> )]]]; [apply (i_todo0 j); auto; lia|lia| |];
          (split; [reflexivity|]; split; [reflexivity|]; split; [reflexivity|auto]).
      + intros j y H J. destruct (CA _ _ H) as [(J1 & J2 & H1)|[(J1 & -> )|[(J1 & -> )|(J1 & -> )]]]; try lia.
        * eapply done_mono; [|apply i_done0; [exact H1|lia]]. intros c w _ W. destruct (UP _ _ W) as (w' & ? & ? & ? & ? & _). exists w'. auto.
        * subst j. right. cbn [fst snd]. split; [exact NT|]. split; [exact BD|]. exists (length T), c1, c2.
          split; [unfold nd', nb; cbn [nCH]; f_equal; lia|]. split; [lia|]. repeat split; auto.
      + intros j y H J. destruct (CA _ _ H) as [(J1 & J2 & H1)|[(J1 & -> )|[(J1 & -> )|(J1 & -> )]]].
        * destruct (i_par0 _ _ H1 J) as (p & w & Q1 & Q2 & Q3 & Q4 & Q5). exists p, w. rewrite NO by lia. repeat split; auto.
        * subst j. destruct (i_par0 _ _ NK J) as (p & w & Q1 & Q2 & Q3 & Q4 & Q5). exists p, w. rewrite NO by lia. repeat split; auto.
        * exists (length A), (nd', tris). repeat split; auto; try lia. left. subst j. reflexivity.
        * exists (length A), (nd', tris). repeat split; auto; try lia. right. subst j. unfold nd', nb; cbn [fst snd nCH]. lia.
      + destruct i_root0 as (x & X1 & X2 & X3 & X4 & X5 & X6). destruct (UP _ _ X1) as (x' & ? & ? & ? & ? & ? & ? & ?). exists x'. repeat split; congruence.
      + intros j y H J. destruct (CA _ _ H) as [(J1 & J2 & H1)|[(J1 & -> )|[(J1 & -> )|(J1 & -> )]]].
        * eapply i_box0; eauto.
        * subst j. exact (i_box0 _ _ NK J).
        * exact BL. * exact BR.
      + unfold T'. rewrite !front_app, front_cons. cbn [fst snd].
        assert (FI' : is_leafb nd' = false) by (unfold is_leafb, nd', nb; cbn [nCH snd]; apply Z.eqb_neq; lia). rewrite FI'. cbn [app].
        rewrite !front_cons. unfold c1, c2. cbn [fst snd]. change (is_leafb (child cl wl)) with true. change (is_leafb (child cr wr)) with true. cbv iota.
        change (front []) with (@nil nat). rewrite app_nil_r. rewrite <- i_front0, FR, <- PM, <- app_assoc.
        apply Permutation_app_head. apply Permutation_app_comm.
      + rewrite SUF in i_size0. unfold T'. change (A ++ (nd', tris) :: B) with (A ++ [(nd', tris)] ++ B). rewrite app_assoc, <- app_assoc, skipn_app.
        assert (LA1 : length (A ++ [(nd', tris)]) = S (length A)) by (rewrite app_length; cbn; lia). rewrite <- LA1 at 2. rewrite skipn_all, LA1, Nat.sub_diag.
        cbn [skipn app]. unfold todo in *. rewrite map_app, list_sum_app. cbn [map] in i_size0 |- *. unfold list_sum in *. cbn [fold_right snd c1 c2] in i_size0 |- *.
        pose proof (Permutation_length PM) as PL. rewrite app_length in PL.
        assert (length tl <> 0)%nat by (destruct tl; cbn; [congruence|lia]). assert (length tr <> 0)%nat by (destruct tr; cbn; [congruence|lia]). lia.
  Qed.

  Lemma build_ok k T : inv k T -> exists T', inv (length T') T' /\ length T' = (2 * m - 1)%nat /\
    forall fuel, (2 * m - 1 - k <= fuel)%nat -> build argsort vminB vmaxB fuel k T = Ok T'.
  Proof.
    remember (2 * m - 1 - k)%nat as r. revert k T Heqr. induction r as [r IH] using lt_wf_ind. intros k T ER I.
    destruct (lt_dec k (length T)) as [KL|KL].
    - destruct (step k T I KL) as (T1 & I1 & E1).
      assert (KM : (k < 2 * m - 1)%nat).
      { pose proof (i_size _ _ I1). lia. }
      destruct (IH (2 * m - 1 - S k)%nat ltac:(lia) (S k) T1 eq_refl I1) as (T' & I' & L' & E'). exists T'. split; auto. split; auto. intros fuel F.
      destruct fuel; [lia|]. rewrite E1. apply E'. lia.
    - assert (k = length T) by (pose proof (i_len _ _ I); lia). subst k. exists T. split; auto.
      pose proof (i_size _ _ I) as S. rewrite skipn_all in S. cbn in S. split; [lia|]. intros fuel _. destruct fuel; cbn [build].
      + rewrite (proj2 (nth_error_None T (length T))); auto.
      + rewrite (proj2 (nth_error_None T (length T))); auto.
  Qed.
End B.
