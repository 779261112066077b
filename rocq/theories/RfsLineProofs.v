(** Lemmas for P_RfsLine *)
From Coq Require Import Reals Lra ZArith List Bool Lia Permutation.
From Verif Require Import PyExn NumpyModel LoopsModel MatModel MatProofs RelabelModel RfsLineModel.
Import ListNotations.
Open Scope R_scope.

(** -- specification -- *)
Definition vrange (V : list pt2) (v : Z) : Prop := (0 <= v < Z.of_nat (List.length V))%Z.
Definition erange (V : list pt2) (F : list edge2) : Prop := forall e, In e F -> vrange V (fst e) /\ vrange V (snd e).
(** the point at parameter s of an edge *)
Definition along2 (p q : pt2) (s : R) : pt2 := ((1 - s) * fst p + s * fst q, (1 - s) * snd p + s * snd q).
(** p lies on the polyline (V,F) *)
Definition on_line (V : list pt2) (F : list edge2) (p : pt2) : Prop := exists e s, In e F /\ 0 <= s <= 1 /\ p = along2 (pv V (fst e)) (pv V (snd e)) s.
Definition outdeg (F : list edge2) (v : Z) : nat := count_occ Z.eq_dec (map fst F) v.
Definition indeg (F : list edge2) (v : Z) : nat := count_occ Z.eq_dec (map snd F) v.

(** -- proofs -- *)
Fixpoint pieces (V : list pt2) (high : R) (n : Z) (F : list edge2) : list edge2 :=
  match F with
  | [] => []
  | e :: r => if too_long V high e then (fst e, n) :: (n, snd e) :: pieces V high (n + 1)%Z r else e :: pieces V high n r
  end.
Lemma pieces_perm V high F : forall n, Permutation (relinked V high n F ++ second_halves V high n F) (pieces V high n F).
Proof.
  induction F as [|e F IH]; intros n; [constructor|]. cbn [relinked second_halves pieces]. destruct (too_long V high e).
  - cbn [app]. constructor. eapply perm_trans; [apply Permutation_sym, Permutation_middle|]. constructor. apply IH.
  - cbn [app]. constructor. apply IH.
Qed.
Lemma pv_app V W i : vrange V i -> pv (V ++ W) i = pv V i.
Proof. intros H. unfold pv. apply app_nth1. unfold vrange in H. lia. Qed.
(** the new vertices stored from position n on are the midpoints of the long edges *)
Definition stores (V' V : list pt2) high (n : Z) (F : list edge2) : Prop :=
  forall j e, nth_error (filter (too_long V high) F) j = Some e -> pv V' (n + Z.of_nat j)%Z = mid2 (pv V (fst e)) (pv V (snd e)).
Lemma stores_split V F high : stores (fst (split_line V F high)) V high (Z.of_nat (List.length V)) F.
Proof.
  intros j e E. cbn [split_line fst]. unfold pv at 1. rewrite app_nth2 by lia. replace (Z.to_nat (Z.of_nat (List.length V) + Z.of_nat j) - List.length V)%nat with j by lia.
  apply nth_error_nth. rewrite nth_error_map, E. reflexivity.
Qed.
Lemma stores_tl V' V high n e F : stores V' V high n (e :: F) -> stores V' V high (if too_long V high e then n + 1 else n)%Z F.
Proof.
  intros H j e' E. unfold stores in H. cbn [filter] in H. destruct (too_long V high e); [|apply (H j e' E)]. specialize (H (S j) e' E). rewrite <- H. f_equal. lia.
Qed.
Lemma stores_hd V' V high n e F : stores V' V high n (e :: F) -> too_long V high e = true -> pv V' n = mid2 (pv V (fst e)) (pv V (snd e)).
Proof. intros H T. unfold stores in H. cbn [filter] in H. rewrite T in H. specialize (H 0%nat e eq_refl). rewrite Z.add_0_r in H. exact H. Qed.

Lemma pt_eq (p q : pt2) : fst p = fst q -> snd p = snd q -> p = q.
Proof. destruct p, q; cbn; intros; subst; reflexivity. Qed.
Lemma mid_along p q : mid2 p q = along2 p q (/ 2).
Proof. apply pt_eq; cbn; field. Qed.
Lemma norm2_scal k p : norm2 (k * fst p, k * snd p) = Rabs k * norm2 p.
Proof. unfold norm2. cbn [fst snd]. rewrite <- sqrt_Rsqr_abs, <- sqrt_mult; [|apply Rle_0_sqr|pose proof (Rle_0_sqr (fst p)); pose proof (Rle_0_sqr (snd p)); unfold Rsqr in *; lra]. f_equal. unfold Rsqr. ring. Qed.
Lemma half_len p q : norm2 (sub2 (mid2 p q) p) = norm2 (sub2 q p) / 2 /\ norm2 (sub2 q (mid2 p q)) = norm2 (sub2 q p) / 2.
Proof.
  assert (K : norm2 (/ 2 * fst (sub2 q p), / 2 * snd (sub2 q p)) = norm2 (sub2 q p) / 2) by (rewrite norm2_scal, Rabs_right by lra; field).
  split; rewrite <- K; f_equal; apply pt_eq; cbn; field.
Qed.
Section split.
Variables (V V' : list pt2) (high : R).
Hypothesis PRE : forall v, vrange V v -> pv V' v = pv V v.
Lemma pieces_line F : forall n p, erange V F -> stores V' V high n F -> (on_line V' (pieces V high n F) p <-> on_line V F p).
Proof.
  induction F as [|e F IH]; intros n p R S; [split; intros (x & s & [] & _)|].
  assert (R' : erange V F) by (intros x I; apply R; right; auto). destruct (R e (or_introl eq_refl)) as (Ra & Rb).
  pose proof (stores_tl _ _ _ _ _ _ S) as ST. cbn [pieces]. destruct (too_long V high e) eqn:TL.
  - pose proof (stores_hd _ _ _ _ _ _ S TL) as MD. specialize (IH (n + 1)%Z p R' ST).
    split.
    + intros (x & s & [<-|[<-|I]] & Hs & ->).
      * cbn [fst snd]. rewrite MD, PRE by auto. exists e, (s / 2). split; [left; auto|]. split; [lra|]. apply pt_eq; cbn; field.
      * cbn [fst snd]. rewrite MD, PRE by auto. exists e, ((1 + s) / 2). split; [left; auto|]. split; [lra|]. apply pt_eq; cbn; field.
      * destruct (proj1 IH) as (x' & s' & I' & H'); [exists x, s; auto|]. exists x', s'. split; [right; auto|auto].
    + intros (x & s & [<-|I] & Hs & ->).
      * destruct (Rle_dec s (/ 2)).
        -- exists (fst e, n), (2 * s). split; [left; auto|]. split; [lra|]. cbn [fst snd]. rewrite MD, PRE by auto. apply pt_eq; cbn; field.
        -- exists (n, snd e), (2 * s - 1). split; [right; left; auto|]. split; [lra|]. cbn [fst snd]. rewrite MD, PRE by auto. apply pt_eq; cbn; field.
      * destruct (proj2 IH) as (x' & s' & I' & H'); [exists x, s; auto|]. exists x', s'. split; [right; right; auto|auto].
  - specialize (IH n p R' ST). split; intros (x & s & [<-|I] & Hs & ->).
    + exists e, s. split; [left; auto|]. split; [auto|]. rewrite !PRE by auto. reflexivity.
    + destruct (proj1 IH) as (x' & s' & I' & H'); [exists x, s; auto|]. exists x', s'. split; [right; auto|auto].
    + exists e, s. split; [left; auto|]. split; [auto|]. rewrite !PRE by auto. reflexivity.
    + destruct (proj2 IH) as (x' & s' & I' & H'); [exists x, s; auto|]. exists x', s'. split; [right; auto|auto].
Qed.
Lemma pieces_len F : forall n, erange V F -> stores V' V high n F ->
  (forall e', In e' (pieces V high n F) -> (elen V' e' <= high /\ In e' F /\ elen V' e' = elen V e') \/ exists e, In e F /\ high < elen V e /\ elen V' e' = elen V e / 2)
  /\ sumf (elen V') (pieces V high n F) = sumf (elen V) F.
Proof.
  induction F as [|e F IH]; intros n R S; [split; [intros e' []|reflexivity]|].
  assert (R' : erange V F) by (intros x I; apply R; right; auto). destruct (R e (or_introl eq_refl)) as (Ra & Rb).
  pose proof (stores_tl _ _ _ _ _ _ S) as ST. cbn [pieces]. destruct (too_long V high e) eqn:TL.
  - pose proof (stores_hd _ _ _ _ _ _ S TL) as MD. destruct (IH (n + 1)%Z R' ST) as (IH1 & IH2).
    destruct (half_len (pv V (fst e)) (pv V (snd e))) as (H1 & H2).
    assert (E1 : elen V' (fst e, n) = elen V e / 2) by (unfold elen; cbn [fst snd]; rewrite MD, PRE by auto; exact H1).
    assert (E2 : elen V' (n, snd e) = elen V e / 2) by (unfold elen; cbn [fst snd]; rewrite MD, PRE by auto; exact H2).
    assert (HL : high < elen V e) by (unfold too_long in TL; destruct (Rlt_dec high (elen V e)); [auto|discriminate]).
    split.
    + intros e' [<-|[<-|I]]; [right; exists e; split; [left; auto|auto]|right; exists e; split; [left; auto|auto]|].
      destruct (IH1 e' I) as [(A & B & C)|(x & A & B & C)]; [left; split; [auto|split; [right; auto|auto]]|right; exists x; split; [right; auto|auto]].
    + cbn [sumf]. rewrite E1, E2, IH2. field.
  - destruct (IH n R' ST) as (IH1 & IH2). assert (E : elen V' e = elen V e) by (unfold elen; rewrite !PRE by auto; reflexivity). split.
    + intros e' [<-|I]; [left; split; [|split; [left; auto|auto]]|].
      * rewrite E. unfold too_long in TL. destruct (Rlt_dec high (elen V e)); [discriminate|lra].
      * destruct (IH1 e' I) as [(A & B & C)|(x & A & B & C)]; [left; split; [auto|split; [right; auto|auto]]|right; exists x; split; [right; auto|auto]].
    + cbn [sumf]. rewrite E, IH2. reflexivity.
Qed.
End split.
Lemma pieces_deg V high F : forall n v, (Forall (fun e => fst e < n /\ snd e < n)%Z F) -> 
  let m := Z.of_nat (List.length (filter (too_long V high) F)) in
  ((v < n)%Z -> outdeg (pieces V high n F) v = outdeg F v /\ indeg (pieces V high n F) v = indeg F v)
  /\ ((n <= v < n + m)%Z -> outdeg (pieces V high n F) v = 1%nat /\ indeg (pieces V high n F) v = 1%nat)
  /\ ((n + m <= v)%Z -> outdeg (pieces V high n F) v = 0%nat /\ indeg (pieces V high n F) v = 0%nat).
Proof.
  induction F as [|e F IH]; intros n v R m; [cbn; split; [auto|split; [intros; subst m; cbn in *; lia|auto]]|].
  inversion R as [|? ? (R1 & R2) R']; subst. subst m. cbn [filter pieces]. destruct (too_long V high e) eqn:TL.
  - assert (R'' : Forall (fun e => fst e < n + 1 /\ snd e < n + 1)%Z F) by (eapply Forall_impl; [|exact R']; cbn; intros; lia).
    destruct (IH (n + 1)%Z v R'') as (A & B & C). unfold outdeg, indeg in *. cbn [map fst snd count_occ List.length]. split; [|split]; intros H.
    + destruct (A ltac:(lia)) as (A1 & A2). destruct (Z.eq_dec n v); [lia|]. rewrite A1, A2. destruct (Z.eq_dec (fst e) v), (Z.eq_dec (snd e) v); auto.
    + destruct (Z.eq_dec (fst e) v); [lia|]. destruct (Z.eq_dec (snd e) v); [lia|]. destruct (Z.eq_dec n v).
      * destruct (A ltac:(lia)) as (A1 & A2). rewrite A1, A2. assert (Z1 : count_occ Z.eq_dec (map fst F) v = 0%nat /\ count_occ Z.eq_dec (map snd F) v = 0%nat).
        { split; apply count_occ_not_In; intros I; apply in_map_iff in I; destruct I as (x & E & I); apply (proj1 (Forall_forall _ _) R') in I; lia. } destruct Z1 as (-> & ->). auto.
      * apply B. lia.
    + destruct (Z.eq_dec (fst e) v); [lia|]. destruct (Z.eq_dec (snd e) v); [lia|]. destruct (Z.eq_dec n v); [lia|]. apply C. lia.
  - destruct (IH n v R') as (A & B & C). unfold outdeg, indeg in *. cbn [map fst snd count_occ]. split; [|split]; intros H.
    + destruct (A H) as (-> & ->). auto.
    + destruct (Z.eq_dec (fst e) v); [lia|]. destruct (Z.eq_dec (snd e) v); [lia|]. auto.
    + destruct (Z.eq_dec (fst e) v); [lia|]. destruct (Z.eq_dec (snd e) v); [lia|]. auto.
Qed.
Lemma deg_perm F F' v : Permutation F F' -> outdeg F v = outdeg F' v /\ indeg F v = indeg F' v.
Proof. intros P. unfold outdeg, indeg. split; apply Permutation_count_occ; apply Permutation_map; auto. Qed.
Lemma line_perm V F F' p : Permutation F F' -> on_line V F p -> on_line V F' p.
Proof. intros P (e & s & I & H). exists e, s. split; [eapply Permutation_in; eauto|auto]. Qed.

Lemma split_ok V F high : erange V F -> let V' := fst (split_line V F high) in let F' := snd (split_line V F high) in
  (exists W, V' = V ++ W) /\ erange V' F'
  /\ (forall p, on_line V' F' p <-> on_line V F p)
  /\ (forall e', In e' F' -> elen V' e' <= high \/ exists e, In e F /\ high < elen V e /\ elen V' e' = elen V e / 2)
  /\ sumf (elen V') F' = sumf (elen V) F
  /\ (forall v, vrange V v -> outdeg F' v = outdeg F v /\ indeg F' v = indeg F v)
  /\ (forall v, (Z.of_nat (List.length V) <= v < Z.of_nat (List.length V'))%Z -> outdeg F' v = 1%nat /\ indeg F' v = 1%nat).
Proof.
  intros R V' F'. pose proof (stores_split V F high) as ST. fold V' in ST. set (n := Z.of_nat (List.length V)) in *.
  assert (PRE : forall v, vrange V v -> pv V' v = pv V v) by (intros v H; apply pv_app; auto).
  assert (PM : Permutation F' (pieces V high n F)) by apply pieces_perm.
  destruct (pieces_len V V' high PRE F n R ST) as (L1 & L2).
  assert (LV : Z.of_nat (List.length V') = (n + Z.of_nat (List.length (filter (too_long V high) F)))%Z) by (unfold V'; cbn [split_line fst]; rewrite app_length, map_length; lia).
  assert (FN : Forall (fun e => fst e < n /\ snd e < n)%Z F) by (apply Forall_forall; intros e I; destruct (R e I) as (A & B); unfold vrange in *; lia).
  assert (DG : forall v, _) by (intros v; exact (pieces_deg V high F n v FN)). cbv zeta in DG.
  split; [eexists; reflexivity|]. split; [|split; [|split; [|split; [|split]]]].
  - intros e I. assert (I' := Permutation_in _ PM I).
    assert (POS : forall F n e, (0 <= n)%Z -> erange V F -> In e (pieces V high n F) -> (0 <= fst e /\ 0 <= snd e)%Z).
    { clear. induction F as [|x F IH]; intros n e N R I; [destruct I|]. assert (R' : erange V F) by (intros y J; apply R; right; auto). destruct (R x (or_introl eq_refl)) as (A & B). unfold vrange in *. cbn [pieces] in I.
      destruct (too_long V high x); [destruct I as [<-|[<-|I]]; cbn; try lia; apply (IH (n + 1)%Z); auto; lia|destruct I as [<-|I]; [lia|eapply IH; eauto]]. }
    destruct (POS F n e ltac:(lia) R I') as (P1 & P2). unfold vrange. rewrite LV.
    assert (U1 : (fst e < n + Z.of_nat (List.length (filter (too_long V high) F)))%Z).
    { destruct (Z_lt_le_dec (fst e) (n + Z.of_nat (List.length (filter (too_long V high) F)))); auto. destruct (DG (fst e)) as (_ & _ & D). destruct (D ltac:(auto)) as (D1 & _).
      apply count_occ_not_In in D1. exfalso. apply D1. apply in_map. auto. }
    assert (U2 : (snd e < n + Z.of_nat (List.length (filter (too_long V high) F)))%Z).
    { destruct (Z_lt_le_dec (snd e) (n + Z.of_nat (List.length (filter (too_long V high) F)))); auto. destruct (DG (snd e)) as (_ & _ & D). destruct (D ltac:(auto)) as (_ & D1).
      apply count_occ_not_In in D1. exfalso. apply D1. apply in_map. auto. }
    lia.
  - intros p. rewrite <- (pieces_line V V' high PRE F n p R ST). split; apply line_perm; [auto|apply Permutation_sym; auto].
  - intros e' I. destruct (L1 e' (Permutation_in _ PM I)) as [(A & _)|A]; auto.
  - rewrite <- L2. apply sumf_perm. auto.
  - intros v Hv. destruct (deg_perm F' _ v PM) as (-> & ->). apply DG. unfold vrange in Hv. unfold n. lia.
  - intros v Hv. destruct (deg_perm F' _ v PM) as (-> & ->). apply DG. lia.
Qed.
