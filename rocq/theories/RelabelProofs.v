From Verif Require Import NumpyModel NumpyProofs PyExn LoopsModel LoopsProofs RelabelModel RelabelSpec.
From Coq Require Import Sorted Permutation Reals Lra.
Open Scope Z_scope.

Lemma reshape_map {A B} (g : A -> B) (F : list (list A)) : reshape_like F (map g (concat F)) = map (map g) F.
Proof.
  induction F as [|r F IH]; cbn; auto. rewrite map_app.
  rewrite firstn_app, map_length, Nat.sub_diag, firstn_O, app_nil_r.
  rewrite skipn_app, map_length, Nat.sub_diag. cbn [skipn].
  replace (firstn (length r) (map g r)) with (map g r) by (rewrite <- (map_length g r) at 1; rewrite firstn_all; auto).
  replace (skipn (length r) (map g r)) with (@nil B) by (rewrite <- (map_length g r) at 1; rewrite skipn_all; auto).
  cbn. rewrite IH; auto.
Qed.

Lemma scatter_len I J k : length (scatter_arange I J k) = length I.
Proof. revert I k; induction J as [|j J IH]; intros; cbn; auto. rewrite IH, set_nth_length; auto. Qed.

Lemma scatter_notin J : forall I k p, (forall j, In j J -> 0 <= j) -> ~ In (Z.of_nat p) J ->
  nth_error (scatter_arange I J k) p = nth_error I p.
Proof.
  induction J as [|j J IH]; intros I k p P N; cbn; auto.
  rewrite IH; [|intros; apply P; right; auto | intros Q; apply N; right; auto].
  rewrite nth_error_set_nth. destruct (Nat.eqb_spec p (Z.to_nat j)); auto.
  exfalso; apply N; left. specialize (P j (or_introl eq_refl)). lia.
Qed.
Lemma scatter_in J : forall I k i j, NoDup J -> (forall j, In j J -> 0 <= j < Z.of_nat (length I)) ->
  nth_error J i = Some j -> nth_error (scatter_arange I J k) (Z.to_nat j) = Some (k + Z.of_nat i).
Proof.
  induction J as [|x J IH]; intros I k i j N P Q; [destruct i; discriminate|].
  inversion N; subst. destruct i as [|i]; cbn in Q.
  - injection Q as ->. cbn. rewrite scatter_notin.
    + rewrite nth_error_set_nth, Nat.eqb_refl. specialize (P j (or_introl eq_refl)).
      destruct (nth_error I (Z.to_nat j)) eqn:E; [cbn; f_equal; lia|]. apply nth_error_None in E. lia.
    + intros; apply P; right; auto.
    + specialize (P j (or_introl eq_refl)). rewrite Z2Nat.id by lia. auto.
  - cbn. rewrite (IH _ _ i j); auto; [f_equal; lia|]. rewrite set_nth_length. intros; apply P; right; auto.
Qed.

Lemma np_max_ok l : l <> [] -> exists m, np_max l = Ok m /\ In m l /\ forall x, In x l -> x <= m.
Proof.
  destruct l as [|x l]; [congruence|]. intros _. cbn. eexists; split; eauto.
  revert x. induction l as [|y l IH]; intros x; cbn.
  - split; auto. intros z [<-|[]]; lia.
  - destruct (IH (Z.max x y)) as [A B]. split.
    + destruct A as [A|A]; auto. rewrite <- A. destruct (Z.max_spec x y) as [[_ ->]|[_ ->]]; cbn; auto.
    + intros z [<-|[<-|I]]; [specialize (B (Z.max x y) (or_introl eq_refl)); lia .. | apply B; right; auto].
Qed.

Lemma take_rows_ok {A} (V : list A) J : (forall j, In j J -> 0 <= j < Z.of_nat (length V)) ->
  exists r, take_rows V J = Ok r /\ Forall2 (fun x j => nth_error V (Z.to_nat j) = Some x) r J.
Proof.
  induction J as [|j J IH]; intros P; cbn; eauto.
  destruct (nth_error V (Z.to_nat j)) as [x|] eqn:E.
  - destruct IH as (r & -> & F); [intros; apply P; right; auto|]. cbn. eauto.
  - apply nth_error_None in E. specialize (P j (or_introl eq_refl)). lia.
Qed.

Definition newidx (J : list Z) (v : Z) : Z := if v =? -1 then -1 else Z.of_nat (first_index v J).

Lemma ru_core (flat : list Z) n : flat <> [] -> (forall v, In v flat -> -1 <= v < n) ->
  exists J0 Jr J1 I0, np_unique flat = J0 :: Jr
    /\ (if J0 =? -1
        then (Jr, map (fun x => x - 1) (map Z.of_nat (np_unique_inverse flat)), repeat (-1) (Z.to_nat (n + 1)))
        else (J0 :: Jr, map Z.of_nat (np_unique_inverse flat), repeat (-1) (Z.to_nat n))) = (J1, map (newidx J1) flat, I0)
    /\ StronglySorted Z.lt J1
    /\ (forall v, In v J1 <-> 0 <= v /\ In v flat)
    /\ ((In (-1) flat /\ I0 = repeat (-1) (Z.to_nat (n+1))) \/ (~ In (-1) flat /\ I0 = repeat (-1) (Z.to_nat n))).
Proof.
  intros NE R. pose proof (np_unique_sorted flat) as S.
  assert (IN := fun x => In_np_unique x flat).
  assert (INV : np_unique_inverse flat = map (fun x => first_index x (np_unique flat)) flat) by reflexivity.
  destruct (np_unique flat) as [|j0 Jr] eqn:E.
  { destruct flat as [|x flat]; [congruence|]. exfalso. apply (proj2 (IN x)). left; auto. }
  inversion S as [|? ? S' F]; subst. rewrite Forall_forall in F.
  assert (LT : forall x, In x Jr -> j0 < x) by (intros x I; specialize (F x I); apply Z.compare_lt_iff; exact F).
  assert (SS : forall l, StronglySorted Lto l -> StronglySorted Z.lt l).
  { clear. induction 1; constructor; auto. }
  assert (LB : -1 <= j0) by (apply R, IN; left; auto).
  destruct (Z.eqb_spec j0 (-1)) as [->|N].
  - exists (-1), Jr, Jr, (repeat (-1) (Z.to_nat (n+1))). split; auto. split; [|split; [|split]].
    + rewrite Z.eqb_refl. f_equal. f_equal. rewrite INV, !map_map. apply map_ext_in. intros v I. unfold newidx. cbn [first_index].
      destruct (Z.eqb_spec v (-1)) as [->|Nv]; [rewrite eqb_refl; reflexivity|].
      destruct (eqb_spec v (-1)); [congruence|]. lia.
    + auto.
    + intros v. split.
      * intros I. split; [specialize (LT v I); lia|]. apply IN; right; auto.
      * intros [P I]. apply IN in I as [<-|I]; [lia | auto].
    + left. split; auto. apply IN; left; auto.
  - exists j0, Jr, (j0 :: Jr), (repeat (-1) (Z.to_nat n)).
    assert (NM : ~ In (-1) flat).
    { intros I. apply IN in I as [I|I]; [congruence|]. specialize (LT _ I). lia. }
    split; auto. split; [|split; [|split]].
    + rewrite (proj2 (Z.eqb_neq _ _) N). f_equal. f_equal. rewrite INV, map_map. apply map_ext_in. intros v I. unfold newidx.
      destruct (Z.eqb_spec v (-1)) as [->|Nv]; [contradiction|]. auto.
    + auto.
    + intros v. rewrite <- IN. split; [|tauto]. intros I; split; auto. apply IN in I. specialize (R v I).
      destruct (Z.eq_dec v (-1)); [subst; contradiction | lia].
    + auto.
Qed.

Lemma concat_map_map {A B} (g : A -> B) F : concat (map (map g) F) = map g (concat F).
Proof. induction F; cbn; auto. rewrite map_app; congruence. Qed.

Lemma sorted_lt_NoDup (l : list Z) : StronglySorted Z.lt l -> NoDup l.
Proof. induction 1 as [|x l S IH F]; constructor; auto. intros I. rewrite Forall_forall in F. specialize (F _ I). lia. Qed.

Lemma relabel_spec F n J I0 : 0 <= n -> (forall v, In v (concat F) -> -1 <= v < n) ->
  StronglySorted Z.lt J -> (forall v, In v J <-> 0 <= v /\ In v (concat F)) ->
  ((In (-1) (concat F) /\ I0 = repeat (-1) (Z.to_nat (n+1))) \/ (~ In (-1) (concat F) /\ I0 = repeat (-1) (Z.to_nat n))) ->
  relabelled n F (reshape_like F (map (newidx J) (concat F))) (scatter_arange I0 J 0) J.
Proof.
  intros Hn R S IJ HI. rewrite reshape_map. pose proof (sorted_lt_NoDup _ S) as ND.
  assert (G : forall v, In v (concat F) -> (v = -1 /\ newidx J v = -1) \/ (0 <= v /\ 0 <= newidx J v /\ nth_error J (Z.to_nat (newidx J v)) = Some v)).
  { intros v I. unfold newidx. destruct (Z.eqb_spec v (-1)); auto. right. specialize (R v I).
    split; [lia|]. split; [lia|]. rewrite Nat2Z.id. apply first_index_In, IJ. split; auto; lia. }
  split; [auto|]. split; [auto|]. split; [|split; [|split; [|split]]].
  - clear -G. induction F as [|r F IH]; cbn; constructor.
    + assert (G' : forall v, In v r -> (v = -1 /\ newidx J v = -1) \/ (0 <= v /\ 0 <= newidx J v /\ nth_error J (Z.to_nat (newidx J v)) = Some v))
        by (intros; apply G; cbn; apply in_or_app; auto).
      clear -G'. induction r; cbn; constructor; [apply G'; left; auto | apply IHr; intros; apply G'; right; auto].
    + apply IH. intros; apply G; cbn; apply in_or_app; auto.
  - intros k Lk. destruct (nth_error J k) as [v|] eqn:E; [|apply nth_error_None in E; lia].
    rewrite concat_map_map. apply in_map_iff. exists v.
    pose proof (nth_error_In _ _ E) as Iv. apply IJ in Iv as [P Iv]. split; auto.
    unfold newidx. destruct (Z.eqb_spec v (-1)); [lia|]. f_equal. apply first_index_NoDup; auto.
  - rewrite scatter_len. destruct (existsb (Z.eqb (-1)) (concat F)) eqn:E.
    + apply existsb_exists in E as (x & Ix & Q). apply Z.eqb_eq in Q; subst x.
      destruct HI as [[_ ->]|[N _]]; [|contradiction]. rewrite repeat_length. lia.
    + destruct HI as [[I _]|[_ ->]].
      * rewrite <- not_true_iff_false, existsb_exists in E. exfalso; apply E. exists (-1). auto.
      * rewrite repeat_length. lia.
  - intros k j E. apply (scatter_in J I0 0 k j ND); auto.
    intros v Iv. apply IJ in Iv as [P Iv]. specialize (R v Iv).
    destruct HI as [[_ ->]|[_ ->]]; rewrite repeat_length; lia.
  - intros p Lp N. rewrite scatter_len in Lp. rewrite scatter_notin.
    + destruct (nth_error I0 p) as [v|] eqn:E; [|apply nth_error_None in E; lia].
      apply nth_error_In in E. destruct HI as [[_ ->]|[_ ->]]; apply repeat_spec in E; subst; auto.
    + intros j I. apply IJ in I; tauto.
    + rewrite IJ. tauto.
Qed.

Lemma forallb_ge F : (forall v, In v F -> -1 <= v) -> forallb (fun v => -1 <=? v) F = true.
Proof. intros Q. apply forallb_forall. intros v I. apply Z.leb_le; auto. Qed.

Lemma remove_unreferenced_V {A} (V : list A) (F : list (list Z)) : concat F <> [] ->
  (forall v, In v (concat F) -> -1 <= v < Z.of_nat (length V)) ->
  exists newV newF I J, remove_unreferenced (Some V) F = Ok (Some newV, newF, I, J)
    /\ relabelled (Z.of_nat (length V)) F newF I J
    /\ Forall2 (fun x j => nth_error V (Z.to_nat j) = Some x) newV J.
Proof.
  intros NE R. unfold remove_unreferenced. rewrite forallb_ge by (intros v I; apply R in I; lia).
  destruct (np_max_ok _ NE) as (m & Em & Im & _). rewrite Em. cbn [bind].
  destruct (Z.ltb_spec m (Z.of_nat (length V))); [|apply R in Im; lia]. cbn [bind].
  destruct (ru_core (concat F) _ NE R) as (J0 & Jr & J1 & I0 & -> & -> & S & IJ & HI).
  destruct (take_rows_ok V J1) as (r & -> & FA).
  { intros j I. apply IJ in I as [P I]. apply R in I. lia. }
  cbn [bind]. do 4 eexists. split; [reflexivity|]. split; auto. apply relabel_spec; auto. lia.
Qed.

Lemma remove_unreferenced_None (F : list (list Z)) : concat F <> [] ->
  (forall v, In v (concat F) -> -1 <= v) ->
  exists newF I J n, remove_unreferenced (A:=unit) None F = Ok (None, newF, I, J)
    /\ In (n - 1) (concat F) /\ (forall v, In v (concat F) -> v < n)
    /\ relabelled n F newF I J.
Proof.
  intros NE R. unfold remove_unreferenced. rewrite forallb_ge by (intros v I; apply R in I; lia).
  destruct (np_max_ok _ NE) as (m & Em & Im & Bm). rewrite Em. cbn [bind].
  destruct (ru_core (concat F) (m+1) NE) as (J0 & Jr & J1 & I0 & -> & -> & S & IJ & HI).
  { intros v I. specialize (R v I). specialize (Bm v I). lia. }
  cbn [bind]. do 3 eexists. exists (m+1). split; [reflexivity|].
  replace (m + 1 - 1) with m by lia. split; auto. split; [intros v I; specialize (Bm v I); lia|].
  apply relabel_spec; auto. { apply R in Im. lia. } intros v I; specialize (R v I); specialize (Bm v I); lia.
Qed.

Lemma Forall2_impl' {A B} (P Q : A -> B -> Prop) l l' : (forall a b, P a b -> Q a b) -> Forall2 P l l' -> Forall2 Q l l'.
Proof. intros I; induction 1; constructor; auto. Qed.

(** every corner keeps its position *)
Lemma relabel_corners {A} (V newV : list A) n F newF I J :
  relabelled n F newF I J -> Forall2 (fun x j => nth_error V (Z.to_nat j) = Some x) newV J ->
  Forall2 (Forall2 (fun v g => (v = -1 /\ g = -1) \/ (0 <= v /\ 0 <= g < Z.of_nat (length newV) /\ nth_error newV (Z.to_nat g) = nth_error V (Z.to_nat v)))) F newF.
Proof.
  intros (_ & _ & FA & _) FV. eapply Forall2_impl'; [|exact FA]. intros r r' Q. eapply Forall2_impl'; [|exact Q].
  intros v g [?|(P & P' & E)]; auto. right. split; auto.
  assert (G : forall newV J k v, Forall2 (fun x j => nth_error V (Z.to_nat j) = Some x) newV J ->
     nth_error J k = Some v -> exists x, nth_error newV k = Some x /\ nth_error V (Z.to_nat v) = Some x).
  { clear. intros newV J k v FA. revert k. induction FA; intros [|k] Q; cbn in *; try discriminate; eauto.
    injection Q as <-. eauto. }
  destruct (G _ _ _ _ FV E) as (x & E1 & E2). split; [|congruence].
  assert (Z.to_nat g < length newV)%nat by (apply nth_error_Some; congruence). lia.
Qed.

(** ** remove_duplicate_vertices *)
Section Dup.
  Context {A : Type} `{Ord A}.

  Lemma gather_inv (V : list A) (f : list nat) : Forall (fun i => (i < length V)%nat) f ->
    exists g, gather (np_unique_inverse V) f = Some g
      /\ Forall2 (fun i j => nth_error (np_unique V) j = nth_error V i /\ (j < length (np_unique V))%nat) f g.
  Proof.
    induction 1 as [|i f Hi Hf (g & E & FA)]; cbn; eauto.
    unfold np_unique_inverse at 1. rewrite nth_error_map.
    destruct (nth_error V i) as [x|] eqn:Ei; [|apply nth_error_None in Ei; lia]. cbn. rewrite E.
    eexists; split; eauto. constructor; auto.
    assert (I : In x (np_unique V)) by (apply In_np_unique; eapply nth_error_In; eauto).
    split; [rewrite Ei; apply first_index_In; auto | apply first_index_lt; auto].
  Qed.

  Lemma remove_duplicate_vertices0_ok (V : list A) (faces : list (list nat)) :
    Forall (Forall (fun i => (i < length V)%nat)) faces ->
    exists SV SVI SVJ G, remove_duplicate_vertices0 V faces = Some (SV, SVI, SVJ, G)
      /\ NoDup SV /\ StronglySorted (fun x y => cmp x y = Lt) SV
      /\ (forall x, In x SV <-> In x V)
      /\ Forall2 (fun x i => nth_error V i = Some x) SV SVI
      /\ (forall k i j, nth_error SVI k = Some i -> nth_error V j = nth_error V i -> (i <= j)%nat)
      /\ Forall2 (fun x j => nth_error SV j = Some x) V SVJ
      /\ Forall2 (Forall2 (fun i j => nth_error SV j = nth_error V i /\ (j < length SV)%nat)) faces G.
  Proof.
    intros HF. unfold remove_duplicate_vertices0.
    assert (E : exists G, gather2 (np_unique_inverse V) faces = Some G /\ Forall2 (Forall2 (fun i j => nth_error (np_unique V) j = nth_error V i /\ (j < length (np_unique V))%nat)) faces G).
    { induction HF as [|f fs Hf Hfs (G & EG & FG)]; [cbn; eauto|]. cbn. rewrite EG.
      destruct (gather_inv V f Hf) as (g & -> & FA). eauto. }
    destruct E as (G & -> & FG). do 4 eexists; split; [reflexivity|].
    split; [apply np_unique_NoDup|]. split; [apply np_unique_sorted|]. split; [intros; apply In_np_unique|].
    split; [|split; [|split; [|exact FG]]].
    - unfold np_unique_index.
      assert (Q : forall x, In x (np_unique V) -> In x V) by (intros; apply In_np_unique; auto).
      clear -Q. revert Q. generalize (np_unique V) as U. induction U as [|u U IH]; intros Q; cbn; constructor;
        [apply first_index_In, Q; left; auto | apply IH; intros; apply Q; right; auto].
    - intros k i j Q E. unfold np_unique_index in Q. rewrite nth_error_map in Q.
      destruct (nth_error (np_unique V) k) as [x|] eqn:Ek; cbn in Q; [|discriminate]. injection Q as <-.
      apply nth_error_In in Ek. apply (proj1 (In_np_unique _ _)) in Ek. apply first_index_min. rewrite E. apply first_index_In; auto.
    - unfold np_unique_inverse.
      assert (Q : forall x, In x V -> In x (np_unique V)) by (intros; apply In_np_unique; auto).
      clear -Q. revert Q. generalize (np_unique V) as U. intros U Q.
      induction V as [|y V IH]; cbn; constructor; [apply first_index_In, Q; left; auto | apply IH; intros; apply Q; right; auto].
  Qed.
End Dup.

(** rounding *)
Lemma Int_part_bounds x : (IZR (Int_part x) <= x < IZR (Int_part x) + 1)%R.
Proof. destruct (base_Int_part x). lra. Qed.

Lemma round_half_even_err x : (Rabs (x - IZR (round_half_even x)) <= /2)%R.
Proof.
  unfold round_half_even. pose proof (Int_part_bounds x).
  destruct (Rlt_dec _ _); [apply Rabs_le; lra|].
  destruct (Rlt_dec _ _); [rewrite plus_IZR; apply Rabs_le; lra|].
  destruct (Z.even _); [|rewrite plus_IZR]; apply Rabs_le; lra.
Qed.

Lemma round_eq_close x y : round_half_even x = round_half_even y -> (Rabs (x - y) <= 1)%R.
Proof.
  intros Q. pose proof (round_half_even_err x) as A. pose proof (round_half_even_err y) as B. rewrite Q in A.
  revert A B. unfold Rabs. repeat destruct (Rcase_abs _); lra.
Qed.

Lemma dup_key_close eps r s : (0 < eps)%R -> dup_key eps r = dup_key eps s -> rows_close eps r s.
Proof.
  intros P. revert s; induction r as [|a r IH]; intros [|b s] Q; cbn in Q; try discriminate; constructor.
  - injection Q as Q _. apply round_eq_close in Q.
    replace (a - b)%R with ((a / eps - b / eps) * eps)%R by (field; lra).
    rewrite Rabs_mult, (Rabs_right eps) by lra. nra.
  - apply IH. injection Q; auto.
Qed.

Lemma first_index_key {A B} `{Ord B} (f : A -> B) (l : list A) x : In x l ->
  exists y, nth_error l (first_index (f x) (map f l)) = Some y /\ f y = f x.
Proof.
  intros I. assert (Q : In (f x) (map f l)) by (apply in_map; auto).
  pose proof (first_index_In _ _ Q) as E. rewrite nth_error_map in E.
  destruct (nth_error l _) as [y|]; cbn in E; [|discriminate]. exists y. split; auto. congruence.
Qed.

Lemma gather2_ok idx faces : Forall (Forall (fun i => (i < length idx)%nat)) faces ->
  exists G, gather2 idx faces = Some G /\ Forall2 (Forall2 (fun i j => nth_error idx i = Some j)) faces G.
Proof.
  induction 1 as [|f fs Hf Hfs (G & EG & FG)]; [cbn; eauto|]. cbn. rewrite EG.
  assert (X : exists g, gather idx f = Some g /\ Forall2 (fun i j => nth_error idx i = Some j) f g).
  { clear -Hf. induction Hf as [|i f Hi Hf (g & E & F)]; cbn; eauto. rewrite E.
    destruct (nth_error idx i) eqn:Ei; [eauto | apply nth_error_None in Ei; lia]. }
  destruct X as (g & -> & F). eauto.
Qed.

Lemma remove_duplicate_vertices_eps_ok V eps faces : (0 < eps)%R -> Forall (Forall (fun i => (i < length V)%nat)) faces ->
  exists SV SVI SVJ G, remove_duplicate_vertices_eps V eps faces = Some (SV, SVI, SVJ, G)
    /\ length SVJ = length V
    /\ Forall2 (fun x i => nth_error V i = Some x) SV SVI
    /\ (forall a b x y, nth_error V a = Some x -> nth_error V b = Some y ->
          (nth_error SVJ a = nth_error SVJ b <-> dup_key eps x = dup_key eps y))
    /\ (forall a b x y, nth_error V a = Some x -> nth_error V b = Some y -> nth_error SVJ a = nth_error SVJ b -> rows_close eps x y)
    /\ (forall a x, nth_error V a = Some x -> exists j y, nth_error SVJ a = Some j /\ nth_error SV j = Some y /\ rows_close eps x y)
    /\ (forall i j x y, nth_error SV i = Some x -> nth_error SV j = Some y -> dup_key eps x = dup_key eps y -> i = j)
    /\ (forall j y, nth_error SV j = Some y -> exists a, nth_error V a = Some y /\ nth_error SVJ a = Some j)
    /\ Forall2 (Forall2 (fun i j => nth_error SVJ i = Some j)) faces G.
Proof.
  intros P HF. unfold remove_duplicate_vertices_eps. set (K := map (dup_key eps) V).
  assert (IN := fun x => In_np_unique x K).
  assert (GA : exists SV, gather V (np_unique_index K) = Some SV /\ Forall2 (fun x i => nth_error V i = Some x) SV (np_unique_index K)
     /\ map (dup_key eps) SV = np_unique K).
  { unfold np_unique_index.
    assert (Q : forall x, In x (np_unique K) -> In x K) by (intros; apply IN; auto).
    clear IN. revert Q. generalize (np_unique K) as U. induction U as [|u U IH]; intros Q.
    - exists []. cbn. auto.
    - destruct IH as (SV & E & FA & EM); [intros; apply Q; right; auto|].
      assert (Iu := Q u (or_introl eq_refl)). apply in_map_iff in Iu as (x & <- & Ix).
      destruct (first_index_key (dup_key eps) V x Ix) as (y & Ey & Ky). fold K in Ey.
      exists (y :: SV). cbn. rewrite Ey, E. split; auto. split; [constructor; auto|]. congruence. }
  destruct GA as (SV & -> & FA & EM).
  assert (GF : exists G, gather2 (np_unique_inverse K) faces = Some G /\ Forall2 (Forall2 (fun i j => nth_error (np_unique_inverse K) i = Some j)) faces G).
  { apply gather2_ok. unfold np_unique_inverse, K. rewrite !map_length. auto. }
  destruct GF as (G & -> & FG). do 4 eexists. split; [reflexivity|].
  split; [unfold np_unique_inverse, K; rewrite !map_length; auto|]. split; auto.
  assert (JV : forall a x, nth_error V a = Some x -> nth_error (np_unique_inverse K) a = Some (first_index (dup_key eps x) (np_unique K))).
  { intros a x E. unfold np_unique_inverse, K at 2. rewrite map_map, nth_error_map, E. auto. }
  assert (INK : forall a x, nth_error V a = Some x -> In (dup_key eps x) (np_unique K)).
  { intros a x E. apply IN. apply in_map. eapply nth_error_In; eauto. }
  assert (IFF : forall a b x y, nth_error V a = Some x -> nth_error V b = Some y ->
          (nth_error (np_unique_inverse K) a = nth_error (np_unique_inverse K) b <-> dup_key eps x = dup_key eps y)).
  { intros a b x y Ea Eb. rewrite (JV _ _ Ea), (JV _ _ Eb). split; [|congruence].
    intros Q; injection Q as Q. pose proof (first_index_In _ _ (INK _ _ Ea)) as A.
    pose proof (first_index_In _ _ (INK _ _ Eb)) as B. rewrite Q in A. congruence. }
  split; auto. split; [intros a b x y Ea Eb Q; apply dup_key_close; auto; eapply IFF; eauto|]. split.
  - intros a x E. rewrite (JV _ _ E). pose proof (first_index_In _ _ (INK _ _ E)) as A.
    rewrite <- EM in A at 1. rewrite nth_error_map in A.
    destruct (nth_error SV _) as [y|] eqn:Ey; cbn in A; [|discriminate].
    do 2 eexists. split; [reflexivity|]. split; [exact Ey|]. apply dup_key_close; auto. congruence.
  - assert (UNQ : forall i j x y, nth_error SV i = Some x -> nth_error SV j = Some y -> dup_key eps x = dup_key eps y -> i = j).
    { intros i j x y Ei Ej Q. assert (ND := np_unique_NoDup K). rewrite <- EM in ND.
      rewrite NoDup_nth_error in ND. apply ND.
      + rewrite map_length. apply nth_error_Some. congruence.
      + rewrite !nth_error_map, Ei, Ej. cbn. congruence. }
    split; [exact UNQ|]. split; [|exact FG]. intros j y Ej.
    assert (X : exists a, nth_error V a = Some y).
    { clear -FA Ej. revert j Ej. induction FA as [|x i SV SVI E FA IH]; intros [|j] Ej; cbn in Ej; try discriminate; eauto.
      injection Ej as ->. eauto. }
    destruct X as (a & Ea). exists a. split; auto. rewrite (JV _ _ Ea). f_equal.
    pose proof (first_index_In _ _ (INK _ _ Ea)) as A. rewrite <- EM in A at 1. rewrite nth_error_map in A.
    destruct (nth_error SV (first_index _ _)) as [z|] eqn:Ez; cbn in A; [|discriminate].
    eapply UNQ; [exact Ez|exact Ej|]. congruence.
Qed.

Lemma round_unique x z : (IZR z - /2 < x < IZR z + /2)%R -> round_half_even x = z.
Proof.
  intros Q. pose proof (round_half_even_err x) as A.
  assert (B : (-1 < IZR (round_half_even x) - IZR z < 1)%R).
  { revert A. unfold Rabs. destruct (Rcase_abs _); lra. }
  rewrite <- minus_IZR in B. assert (-1 < round_half_even x - z < 1) by (split; apply lt_IZR; tauto). lia.
Qed.

(** two vertices closer than eps need not be merged *)
Lemma dup_tolerance_refuted : exists V eps SV SVI SVJ G a b x y,
  (0 < eps)%R /\ remove_duplicate_vertices_eps V eps [] = Some (SV, SVI, SVJ, G)
  /\ nth_error V a = Some x /\ nth_error V b = Some y /\ rows_close (eps / 4) x y
  /\ nth_error SVJ a <> nth_error SVJ b.
Proof.
  destruct (remove_duplicate_vertices_eps_ok [[0.4%R]; [0.6%R]] 1 [] ltac:(lra) ltac:(constructor)) as (SV & SVI & SVJ & G & E & _ & _ & IFF & _).
  exists [[0.4%R]; [0.6%R]], 1%R, SV, SVI, SVJ, G, 0%nat, 1%nat, [0.4%R], [0.6%R].
  split; [lra|]. split; auto. split; auto. split; auto. split.
  - constructor; [|constructor]. apply Rabs_le. lra.
  - rewrite (IFF 0%nat 1%nat _ _ eq_refl eq_refl). cbn.
    rewrite (round_unique (0.4 / 1) 0) by lra. rewrite (round_unique (0.6 / 1) 1) by lra. discriminate.
Qed.

Lemma remove_unreferenced_V' {A} (V : list A) (F : list (list Z)) : concat F <> [] ->
  (forall v, In v (concat F) -> -1 <= v < Z.of_nat (length V)) ->
  exists newV newF I J, remove_unreferenced (Some V) F = Ok (Some newV, newF, I, J)
    /\ relabelled (Z.of_nat (length V)) F newF I J
    /\ Forall2 (fun x j => nth_error V (Z.to_nat j) = Some x) newV J
    /\ Forall2 (Forall2 (fun v g => (v = -1 /\ g = -1) \/
         (0 <= v /\ 0 <= g < Z.of_nat (length newV) /\ nth_error newV (Z.to_nat g) = nth_error V (Z.to_nat v)))) F newF.
Proof.
  intros NE R. destruct (remove_unreferenced_V V F NE R) as (newV & newF & I & J & E & S & FA).
  exists newV, newF, I, J. split; auto. split; auto. split; auto. eapply relabel_corners; eauto.
Qed.

Lemma remove_unreferenced_empty {A} (V : option (list A)) F : concat F = [] -> remove_unreferenced V F = Err ValueError.
Proof. intros E. unfold remove_unreferenced. rewrite E. cbn. destruct V; auto. Qed.

Lemma remove_unreferenced_rejects {A} (V : list A) F :
  (exists v, In v (concat F) /\ (v < -1 \/ Z.of_nat (length V) <= v)) ->
  remove_unreferenced (Some V) F = Err AssertionError.
Proof.
  intros (v & I & Q). unfold remove_unreferenced. destruct (forallb _ _) eqn:E; auto.
  rewrite forallb_forall in E. assert (L := E v I). apply Z.leb_le in L.
  assert (NE : concat F <> []) by (intros Q'; rewrite Q' in I; auto).
  destruct (np_max_ok _ NE) as (m & -> & _ & B). cbn [bind]. specialize (B v I).
  destruct (Z.ltb_spec m (Z.of_nat (length V))); auto. lia.
Qed.
