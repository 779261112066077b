(** Loop subdivision stencils (C18) *)
From Verif Require Import NumpyModel NumpyProofs PyExn TopoModel TopoSpec TopoProofs HemProofs MatModel MatProofs Vec DecProofs GeomSpec SubdivModel SubdivSpec SubdivProofs Subdiv2Proofs Subdiv3Proofs.
From Coq Require Import Permutation Psatz.
Open Scope Z_scope.


Lemma he_at_nth F f i t : nth_error F f = Some t -> (i < 3)%nat -> he_at F (Z.of_nat f, Z.of_nat i) = side_opp t i.
Proof.
  intros Hf Hi. unfold he_at. cbn [fst snd]. rewrite Nat2Z.id, Hf. destruct t as [[a b] c].
  destruct i as [|[|[|i]]]; try lia; reflexivity.
Qed.
Lemma corner_at_nth F f i t : nth_error F f = Some t -> (i < 3)%nat -> corner_at F (Z.of_nat f, Z.of_nat i) = corner t i.
Proof.
  intros Hf Hi. unfold corner_at. cbn [fst snd]. rewrite Nat2Z.id, Hf. destruct t as [[a b] c].
  destruct i as [|[|[|i]]]; try lia; reflexivity.
Qed.
Lemma cells_nth (F : list tri) h : In h (all_cells (length F)) -> exists f i t, h = (Z.of_nat f, Z.of_nat i) /\ nth_error F f = Some t /\ (i < 3)%nat.
Proof.
  destruct h as [r c]. intros I. apply in_all_cells in I as [A B].
  destruct (nth_error F (Z.to_nat r)) as [t|] eqn:E; [|apply nth_error_None in E; lia].
  exists (Z.to_nat r), (Z.to_nat c), t. rewrite !Z2Nat.id by lia. repeat split; auto; lia.
Qed.
Lemma cells_sides F : map (he_at F) (all_cells (length F)) = flat_map (fun t => [side_opp t 0; side_opp t 1; side_opp t 2]) F.
Proof.
  assert (G : forall F' s, (forall k t, nth_error F' k = Some t -> nth_error F (s + k) = Some t) ->
    map (he_at F) (flat_map (fun f => [(Z.of_nat f, 0); (Z.of_nat f, 1); (Z.of_nat f, 2)]) (seq s (length F'))) = flat_map (fun t => [side_opp t 0; side_opp t 1; side_opp t 2]) F').
  { induction F' as [|t F' IH]; intros s H; [reflexivity|]. cbn [length seq flat_map]. rewrite map_app. f_equal.
    - specialize (H 0%nat t eq_refl). rewrite Nat.add_0_r in H. cbn [map].
      rewrite <- (he_at_nth F s 0 t H), <- (he_at_nth F s 1 t H), <- (he_at_nth F s 2 t H) by lia. reflexivity.
    - apply IH. intros k u Hk. replace (S s + k)%nat with (s + S k)%nat by lia. apply H. auto. }
  apply (G F 0%nat). auto.
Qed.
Lemma cells_sides_sum F (g : edge -> R) : sumf (fun h => g (he_at F h)) (all_cells (length F)) = sumf g (all_sides F).
Proof.
  rewrite <- sumf_map, cells_sides. unfold all_sides. rewrite !sumf_flat_map. apply sumf_ext. intros [[a b] c] _.
  unfold side_opp, corner, sides. cbn. lra.
Qed.

Lemma sumf_unique {A} (p : A -> bool) (g : A -> R) l x0 : NoDup l -> In x0 l -> p x0 = true ->
  (forall x, In x l -> p x = true -> x = x0) -> sumf (fun x => if p x then g x else 0%R) l = g x0.
Proof.
  induction l as [|a l IH]; intros N I P U; [destruct I|]. cbn. inversion N; subst. destruct I as [->|I].
  - rewrite P. rewrite sumf_zero; [lra|]. intros x Ix. destruct (p x) eqn:E; auto. exfalso. assert (x = x0) by (apply U; auto; right; auto). subst; contradiction.
  - destruct (p a) eqn:Ea; [exfalso; assert (a = x0) by (apply U; auto; left; auto); subst; contradiction|]. rewrite IH; auto; [lra|]. intros; apply U; auto; right; auto.
Qed.

Lemma map_fst_combine {A B} (l : list A) (l' : list B) : (length l <= length l')%nat -> map fst (combine l l') = l.
Proof. revert l'. induction l as [|a l IH]; intros [|b l'] H; cbn in *; try lia; auto. rewrite IH; auto; lia. Qed.
Section Loop.
  Variables (F : list tri) (E : list edge) (h2e : table) (e2h : list ((Z*Z)*(Z*Z))) (n : Z).
  Hypothesis GM : good_mesh F.
  Hypothesis RG : in_range n F.
  Hypothesis HR : HemResult F E h2e e2h.
  Let OM : oriented_manifold F := proj1 GM.
  Let he := he_at F.

  Lemma cases k p : nth_error e2h k = Some p -> exists e f i t, nth_error E k = Some e
     /\ fst p = (Z.of_nat f, Z.of_nat i) /\ (i < 3)%nat /\ nth_error F f = Some t /\ side_opp t i = e
     /\ h2e (Z.of_nat f) (Z.of_nat i) = Z.of_nat k
     /\ ((snd p = (-1,-1) /\ incidence F e = 1%nat)
         \/ exists g j s, snd p = (Z.of_nat g, Z.of_nat j) /\ (j < 3)%nat /\ nth_error F g = Some s
              /\ side_opp s j = (snd e, fst e) /\ incidence F e = 2%nat /\ h2e (Z.of_nat g) (Z.of_nat j) = Z.of_nat k).
  Proof.
    intros Hk. destruct (e2h_cases F E h2e e2h OM HR k p Hk) as (e & f & i & t & Ek & P0 & Hi & Hf & Se & H & C).
    exists e, f, i, t. repeat split; auto. destruct HR as (_ & _ & _ & _ & H5). destruct (H5 k e Ek) as (f' & i' & t' & h1 & Q & _ & _ & _ & _ & C').
    rewrite Hk in Q. injection Q as ->. cbn [fst snd] in *. destruct C' as [[I ->]|[I (g & j & s & -> & Hj & Hg & Sg & H')]]; auto.
    right. exists g, j, s. repeat split; auto.
  Qed.
  Lemma bdry_iff k p e : nth_error e2h k = Some p -> nth_error E k = Some e -> is_bdry p = Nat.eqb (incidence F e) 1.
  Proof.
    intros Hk Ek. destruct (cases k p Hk) as (e' & f & i & t & Ek' & _ & _ & _ & _ & _ & C). rewrite Ek in Ek'. injection Ek' as <-.
    unfold is_bdry. destruct C as [[-> ->]|(g & j & s & -> & _ & _ & _ & -> & _)]; cbn [fst snd Nat.eqb]; auto.
    destruct (Z.eqb_spec (Z.of_nat g) (-1)); [lia|]. destruct (Z.eqb_spec (Z.of_nat j) (-1)); [lia|]. auto.
  Qed.
  Lemma range_side e : In e (all_sides F) -> 0 <= fst e < n /\ 0 <= snd e < n.
  Proof. apply sides_range; auto. Qed.
  Lemma proper_side e : In e (all_sides F) -> fst e <> snd e.
  Proof.
    unfold all_sides. rewrite in_flat_map. intros ([[a b] c] & I & S). apply GM in I. cbn in I. destruct I as (N1 & N2 & N3).
    cbn in S. destruct S as [<-|[<-|[<-|[]]]]; cbn; auto.
  Qed.
  Lemma side_cell f i t : nth_error F f = Some t -> (i < 3)%nat -> In (side_opp t i) (all_sides F).
  Proof. apply side_in_sides. Qed.

  Open Scope R_scope.
  (** summing over e2h with its position *)
  Lemma sumf_e2h (g : (Z*Z)*(Z*Z) -> R) : sumf g e2h = sumf (fun q => g (snd q)) (enum e2h).
  Proof. rewrite <- (enum_snd e2h) at 1. rewrite sumf_map. auto. Qed.
  Lemma B_edge (w : Z * Z -> R) k p : nth_error e2h k = Some p ->
    sumf (fun h => if (n + h2e (fst h) (snd h) =? n + Z.of_nat k)%Z then w h else 0) (bdry_he e2h) = if is_bdry p then w (fst p) else 0.
  Proof.
    intros Hk. unfold bdry_he. rewrite sumf_map, sumf_filter, sumf_e2h.
    rewrite (sumf_ext _ (fun q => if (n + fst q =? n + Z.of_nat k)%Z then (if is_bdry (snd q) then w (fst (snd q)) else 0) else 0)).
    - rewrite (sumf_enum_pick e2h n (fun q => if is_bdry (snd q) then w (fst (snd q)) else 0) k p Hk). auto.
    - intros q I. apply enum_nth in I as (k' & Q & Hq). destruct (cases k' _ Hq) as (e & f & i & t & _ & P0 & _ & _ & _ & H & _).
      rewrite P0. cbn [fst snd]. rewrite H, Q. destruct (is_bdry (snd q)); destruct (n + Z.of_nat k' =? n + Z.of_nat k)%Z; auto.
  Qed.
  Lemma I_edge (w : Z * Z -> R) k p : nth_error e2h k = Some p ->
    sumf (fun h => if (n + h2e (fst h) (snd h) =? n + Z.of_nat k)%Z then w h else 0) (int_he e2h) = if is_bdry p then 0 else w (fst p) + w (snd p).
  Proof.
    intros Hk. unfold int_he. rewrite sumf_app, !sumf_map, !sumf_filter, !sumf_e2h, <- sumf_plus.
    rewrite (sumf_ext _ (fun q => if (n + fst q =? n + Z.of_nat k)%Z then (if is_bdry (snd q) then 0 else w (fst (snd q)) + w (snd (snd q))) else 0)).
    - rewrite (sumf_enum_pick e2h n (fun q => if is_bdry (snd q) then 0 else w (fst (snd q)) + w (snd (snd q))) k p Hk). auto.
    - intros q I. apply enum_nth in I as (k' & Q & Hq). destruct (cases k' _ Hq) as (e & f & i & t & Ek & P0 & _ & _ & _ & H & C).
      pose proof (bdry_iff _ _ _ Hq Ek) as BI. destruct C as [[S0 I1]|(g & j & s & S0 & _ & _ & _ & I2 & H')].
      + rewrite BI, I1. cbn. destruct (_ =? _)%Z; lra.
      + rewrite BI, I2. cbn [Nat.eqb negb]. rewrite P0, S0. cbn [fst snd]. rewrite H, H', Q. destruct (n + Z.of_nat k' =? n + Z.of_nat k)%Z; lra.
  Qed.
  (** vertex rows of boundary half-edges, as a sum over boundary sides *)
  Lemma E_NoDup : NoDup E.
  Proof.
    apply NoDup_nth_error. intros i j Hi Q. destruct (nth_error E i) as [e|] eqn:Ei; [|apply nth_error_None in Ei; lia].
    destruct HR as (_ & U & _). eapply U; eauto. apply same_edge_refl.
  Qed.
  Lemma combine_nth (l : list edge) (l' : list ((Z*Z)*(Z*Z))) q : In q (combine l l') -> exists k, nth_error l k = Some (fst q) /\ nth_error l' k = Some (snd q).
  Proof.
    revert l'. induction l as [|a l IH]; intros [|b l'] I; cbn in I; try tauto. destruct I as [<-|I].
    - exists 0%nat. auto.
    - destruct (IH _ I) as (k & H). exists (S k). auto.
  Qed.
  Lemma same_edge_incidence e e' : same_edge e e' -> incidence F e = incidence F e'.
  Proof.
    intros S. unfold incidence. f_equal. apply filter_ext. intros s.
    destruct (same_edgeb e s) eqn:A; destruct (same_edgeb e' s) eqn:B; auto.
    - apply same_edgeb_iff in A. assert (same_edge e' s) as C by (eapply same_edge_trans; [apply same_edge_sym; eauto|eauto]). apply same_edgeb_iff in C. congruence.
    - apply same_edgeb_iff in B. assert (same_edge e s) as C by (eapply same_edge_trans; eauto). apply same_edgeb_iff in C. congruence.
  Qed.
  Lemma inc1_unique e s : In e (all_sides F) -> In s (all_sides F) -> incidence F e = 1%nat -> same_edge e s -> s = e.
  Proof.
    intros Ie Is H S. unfold incidence in H.
    assert (A : In e (filter (same_edgeb e) (all_sides F))) by (apply filter_In; split; auto; apply same_edgeb_iff, same_edge_refl).
    assert (B : In s (filter (same_edgeb e) (all_sides F))) by (apply filter_In; split; auto; apply same_edgeb_iff; auto).
    destruct (filter _ _) as [|x [|y l]]; cbn in H; try lia. destruct A as [<-|[]], B as [<-|[]]. auto.
  Qed.
  Lemma bdry_perm : Permutation (map he (bdry_he e2h)) (bdry_sides F).
  Proof.
    assert (MB : map he (bdry_he e2h) = map fst (filter (fun q => is_bdry (snd q)) (combine E e2h))).
    { destruct HR as (_ & _ & LEN & _). unfold bdry_he. rewrite map_map.
      assert (G : forall l l' , length l' = length l -> (forall q, In q (combine l l') -> he (fst (snd q)) = fst q) ->
         map (fun x => he (fst x)) (filter is_bdry l') = map fst (filter (fun q => is_bdry (snd q)) (combine l l'))).
      { clear. induction l as [|a l IH]; intros [|b l'] L H; cbn in *; try lia; auto. destruct (is_bdry b); cbn.
        - rewrite <- IH; auto. f_equal. apply (H (a,b)). left; auto.
        - apply IH; auto. }
      apply G; auto. intros q I. apply combine_nth in I as (k & Ek & Hk). destruct (cases k _ Hk) as (e & f & i & t & Ek' & P0 & Hi & Hf & Se & _).
      rewrite Ek in Ek'. injection Ek' as <-. rewrite P0. unfold he. rewrite (he_at_nth F f i t Hf Hi). auto. }
    rewrite MB. apply NoDup_Permutation.
    - assert (ND : NoDup (map fst (combine E e2h))).
      { rewrite map_fst_combine; [apply E_NoDup|]. destruct HR as (_ & _ & LEN & _). lia. }
      clear -ND. induction (combine E e2h) as [|q l IH]; cbn in *; [constructor|]. inversion ND; subst. destruct (is_bdry (snd q)); cbn; auto.
      constructor; auto. intros I. apply H1. apply in_map_iff in I as (z & Q & I). apply filter_In in I as [I _]. apply in_map_iff. eauto.
    - apply NoDup_filter, OM.
    - intros e. rewrite in_map_iff. unfold bdry_sides. rewrite filter_In, Nat.eqb_eq. split.
      + intros (q & <- & I). apply filter_In in I as [I B]. apply combine_nth in I as (k & Ek & Hk).
        rewrite (bdry_iff _ _ _ Hk Ek) in B. apply Nat.eqb_eq in B. split; auto. apply (E_sides F E h2e e2h HR). eapply nth_error_In; eauto.
      + intros [Is I1]. destruct (eidx_side F E h2e e2h HR e Is) as (e' & Ek & S). set (k := eidx E e) in *.
        assert (I1' : incidence F e' = 1%nat) by (rewrite <- (same_edge_incidence _ _ S); auto).
        assert (e' = e). { apply inc1_unique; auto. apply (E_sides F E h2e e2h HR). eapply nth_error_In; eauto. } subst e'.
        destruct (nth_error e2h k) as [p|] eqn:Hk.
        2:{ apply nth_error_None in Hk. destruct HR as (_ & _ & LEN & _). assert (k < length E)%nat by (apply nth_error_Some; congruence). lia. }
        exists (e, p). split; auto. apply filter_In. split.
        * clear -Ek Hk. clearbody k. revert e2h k Ek Hk. induction E as [|a l IH]; intros [|b l'] [|k] Ek Hk; cbn in *; try discriminate.
          -- left. congruence. -- right. eapply IH; eauto.
        * cbn. rewrite (bdry_iff _ _ _ Hk Ek), I1. auto.
  Qed.
  Lemma map_fst_combine_len : length e2h = length E. Proof. apply HR. Qed.

  Lemma iV_mask_spec v : iV_mask E e2h v = true <-> ~ on_boundary F v.
  Proof.
    unfold iV_mask. rewrite negb_true_iff, <- not_true_iff_false. apply not_iff_compat. rewrite existsb_exists. split.
    - intros (q & I & H). apply combine_nth in I as (k & Ek & Hk). rewrite andb_true_iff, orb_true_iff, !Z.eqb_eq in H. destruct H as [B H].
      rewrite (bdry_iff _ _ _ Hk Ek) in B. apply Nat.eqb_eq in B. exists (fst q). auto.
    - intros (e & I1 & Hv). assert (Is : exists e', In e' E /\ same_edge e e') by (apply HR; lia). destruct Is as (e' & Ie & S).
      apply In_nth_error in Ie as [k Ek]. destruct (nth_error e2h k) as [p|] eqn:Hk.
      2:{ apply nth_error_None in Hk. rewrite map_fst_combine_len in Hk. assert (k < length E)%nat by (apply nth_error_Some; congruence). lia. }
      exists (e', p). split.
      + clear -Ek Hk. revert e2h k Ek Hk. induction E as [|a l IH]; intros [|b l'] [|k] Ek Hk; cbn in *; try discriminate.
        -- left. congruence. -- right. eapply IH; eauto.
      + cbn. rewrite andb_true_iff, orb_true_iff, !Z.eqb_eq. rewrite (bdry_iff _ _ _ Hk Ek), Nat.eqb_eq, <- (same_edge_incidence _ _ S).
        split; auto. destruct S as [[A B]|[A B]]; rewrite A, B in Hv; tauto.
  Qed.

  (** number of edges at an interior vertex = number of sides leaving it *)
  Lemma filter_length_sum {A} (p : A -> bool) l : INR (length (filter p l)) = sumf (fun x => if p x then 1 else 0) l.
  Proof. induction l as [|x l IH]; cbn; auto. destruct (p x); cbn [length]; rewrite ?S_INR, IH; lra. Qed.
  Lemma n_adj_out v : ~ on_boundary F v -> n_adj E v = length (out_sides F v).
  Proof.
    intros NB. apply INR_eq. unfold n_adj, out_sides. rewrite plus_INR, !filter_length_sum.
    rewrite <- (cells_sides_sum F (fun s => if (fst s =? v)%Z then 1 else 0)).
    rewrite <- (slots_sum F E h2e e2h OM HR (fun h => if (fst (he_at F h) =? v)%Z then 1 else 0)).
    rewrite sumf_e2h, <- sumf_plus.
    assert (EN : sumf (fun x : edge => (if (fst x =? v)%Z then 1 else 0) + (if (snd x =? v)%Z then 1 else 0)) E
        = sumf (fun q => (if (fst (snd q) =? v)%Z then 1 else 0) + (if (snd (snd q) =? v)%Z then 1 else 0)) (enum E)).
    { rewrite <- (enum_snd E) at 1. rewrite sumf_map. auto. }
    rewrite EN. unfold enum. rewrite map_fst_combine_len. set (l := map Z.of_nat (seq 0 (length E))).
    assert (G : forall (ks : list Z) (l1 : list edge) (l2 : list ((Z*Z)*(Z*Z))) (g1 : edge -> R) (g2 : (Z*Z)*(Z*Z) -> R),
       (forall q, In q (combine l1 l2) -> g1 (fst q) = g2 (snd q)) -> length l1 = length l2 ->
       sumf (fun q => g1 (snd q)) (combine ks l1) = sumf (fun q => g2 (snd q)) (combine ks l2)).
    { clear. induction ks as [|k ks IH]; intros [|a l1] [|b l2] g1 g2 H L; cbn in *; try lia; auto. f_equal; [apply (H (a,b)); left; auto|]. apply IH; auto. }
    apply (G l E e2h (fun e => (if (fst e =? v)%Z then 1 else 0) + (if (snd e =? v)%Z then 1 else 0))
      (fun p => (if (fst (he_at F (fst p)) =? v)%Z then 1 else 0) + (if (0 <=? fst (snd p))%Z then (if (fst (he_at F (snd p)) =? v)%Z then 1 else 0) else 0))).
    2: symmetry; apply map_fst_combine_len.
    intros q I. apply combine_nth in I as (k & Ek & Hk). destruct (cases k _ Hk) as (e & f & i & t & Ek' & P0 & Hi & Hf & Se & _ & C).
    rewrite Ek in Ek'. injection Ek' as <-. rewrite P0, (he_at_nth F f i t Hf Hi), Se. destruct C as [[S0 I1]|(g & j & s & S0 & Hj & Hg & Sg & _)]; rewrite S0; cbn [fst snd].
    - change (0 <=? -1)%Z with false. destruct (Z.eqb_spec (snd (fst q)) v) as [Q|]; [|lra]. exfalso. apply NB. exists (fst q). auto.
    - destruct (Z.leb_spec 0 (Z.of_nat g)); [|lia]. rewrite (he_at_nth F g j s Hg Hj), Sg. cbn [fst]. lra.
  Qed.
  (** opposite half-edge of a side that is not on the boundary *)
  Lemma opp_side a b : In (a,b) (all_sides F) -> incidence F (a,b) <> 1%nat -> In (b,a) (all_sides F).
  Proof.
    intros Is NI. destruct (eidx_side F E h2e e2h HR (a,b) Is) as (e' & Ek & S). set (k := eidx E (a,b)) in *.
    destruct (nth_error e2h k) as [p|] eqn:Hk.
    2:{ apply nth_error_None in Hk. rewrite map_fst_combine_len in Hk. assert (k < length E)%nat by (apply nth_error_Some; congruence). lia. }
    destruct (cases k p Hk) as (e & f & i & t & Ek' & P0 & Hi & Hf & Se & _ & C). rewrite Ek in Ek'. injection Ek' as <-.
    rewrite (same_edge_incidence _ _ S) in NI.
    destruct C as [[_ I1]|(g & j & s & S0 & Hj & Hg & Sg & _)]; [congruence|].
    pose proof (side_cell _ _ _ Hf Hi) as S1. pose proof (side_cell _ _ _ Hg Hj) as S2. rewrite Se in S1. rewrite Sg in S2.
    destruct e' as [x y]. destruct S as [[A B]|[A B]]; cbn in *; subst; auto.
  Qed.
  Lemma side_face a b : In (a,b) (all_sides F) -> exists c, rot_in F a b c.
  Proof.
    unfold all_sides. rewrite in_flat_map. intros ([[x y] z] & I & S). unfold rot_in.
    destruct S as [S|[S|[S|[]]]]; injection S as <- <-; [exists z | exists x | exists y]; auto.
  Qed.
  Lemma interior_valence v w : In (v,w) (all_sides F) -> ~ on_boundary F v -> (3 <= length (out_sides F v))%nat.
  Proof.
    intros Is NB.
    assert (NI : forall u, incidence F (v,u) <> 1%nat) by (intros u Q; apply NB; exists (v,u); cbn; auto).
    assert (NI' : forall u, incidence F (u,v) <> 1%nat) by (intros u Q; apply NB; exists (u,v); cbn; auto).
    destruct (side_face _ _ Is) as (c & R1). destruct (rot_sides F _ _ _ R1) as (_ & _ & S3). apply opp_side in S3; [|apply NI'].
    destruct (side_face _ _ S3) as (d & R2). destruct (rot_sides F _ _ _ R2) as (_ & _ & S5). apply opp_side in S5; [|apply NI'].
    destruct (rot_proper F GM _ _ _ R1) as (N1 & N2 & N3). destruct (rot_proper F GM _ _ _ R2) as (N4 & N5 & N6).
    assert (d <> w). { intros ->. apply (rot_flip F GM _ _ _ R1). auto. }
    assert (IN : incl [(v,w);(v,c);(v,d)] (out_sides F v)).
    { intros e I. unfold out_sides. apply filter_In. destruct I as [<-|[<-|[<-|[]]]]; cbn; rewrite Z.eqb_refl; auto. }
    apply NoDup_incl_length in IN; auto. repeat constructor; cbn; intuition congruence.
  Qed.

  Let B := bdry_he e2h.
  Let I := int_he e2h.
  Let T := int_tail_he F E e2h.
  Definition loopM : list trip :=
        map (fun h => (n + h2e (fst h) (snd h), fst (he h), 0.5%R)%Z) B ++
         map (fun h => (n + h2e (fst h) (snd h), snd (he h), 0.5%R)%Z) B ++
         map (fun h => (fst (he h), fst (he h), 0.75%R)) B ++
         map (fun h => (fst (he h), snd (he h), 0.125%R)) B ++
         map (fun h => (snd (he h), fst (he h), 0.125%R)) B ++
         map (fun h => (n + h2e (fst h) (snd h), fst (he h), 0.375%R)%Z) I ++
         map (fun h => (n + h2e (fst h) (snd h), corner_at F h, 0.125%R)%Z) I ++
         map (fun h => (fst (he h), fst (he h), (1 / INR (n_adj E (fst (he h))) - beta (n_adj E (fst (he h))))%R)) T ++
         map (fun h => (fst (he h), snd (he h), beta (n_adj E (fst (he h))))) T.

  Lemma B_cell h : In h B -> exists f i t, h = (Z.of_nat f, Z.of_nat i) /\ nth_error F f = Some t /\ (i < 3)%nat.
  Proof.
    unfold B, bdry_he. rewrite in_map_iff. intros (p & <- & J). apply filter_In in J as [J _]. apply In_nth_error in J as [k Hk].
    destruct (cases k p Hk) as (e & f & i & t & _ & -> & Hi & Hf & _). eauto 10.
  Qed.
  Lemma I_cell h : In h I -> exists f i t, h = (Z.of_nat f, Z.of_nat i) /\ nth_error F f = Some t /\ (i < 3)%nat.
  Proof.
    unfold I, int_he. rewrite in_app_iff, !in_map_iff. intros [(p & <- & J)|(p & <- & J)]; apply filter_In in J as [J N]; apply In_nth_error in J as [k Hk];
    destruct (cases k p Hk) as (e & f & i & t & Ek & P0 & Hi & Hf & _ & _ & C).
    - rewrite P0. eauto 10.
    - rewrite (bdry_iff _ _ _ Hk Ek) in N. destruct C as [[_ I1]|(g & j & s & -> & Hj & Hg & _)]; [rewrite I1 in N; discriminate | eauto 10].
  Qed.
  Lemma T_cell h : In h T -> (exists f i t, h = (Z.of_nat f, Z.of_nat i) /\ nth_error F f = Some t /\ (i < 3)%nat) /\ ~ on_boundary F (fst (he h)).
  Proof. unfold T, int_tail_he. rewrite filter_In. intros [J M]. split; [apply cells_nth; auto|]. apply iV_mask_spec; auto. Qed.
  Lemma cell_range h : (exists f i t, h = (Z.of_nat f, Z.of_nat i) /\ nth_error F f = Some t /\ (i < 3)%nat) ->
    (0 <= fst (he h) < n /\ 0 <= snd (he h) < n /\ 0 <= corner_at F h < n /\ 0 <= h2e (fst h) (snd h) < Z.of_nat (length E))%Z /\ In (he h) (all_sides F).
  Proof.
    intros (f & i & t & -> & Hf & Hi). unfold he. rewrite (he_at_nth F f i t Hf Hi), (corner_at_nth F f i t Hf Hi). cbn [fst snd].
    pose proof (side_cell _ _ _ Hf Hi) as S. pose proof (range_side _ S).
    rewrite (h2e_eidx F E h2e e2h HR f i t Hf Hi). destruct (eidx_side F E h2e e2h HR _ S) as (e' & Ek & _).
    assert (eidx E (side_opp t i) < length E)%nat by (apply nth_error_Some; congruence).
    pose proof (RG _ (nth_error_In _ _ Hf)) as Rt. destruct t as [[a b] c].
    assert (0 <= corner (a,b,c) i < n)%Z by (destruct i as [|[|[|i]]]; cbn; lia).
    repeat split; auto; try lia; try apply H.
  Qed.
  Lemma T_valence h : In h T -> n_adj E (fst (he h)) = length (out_sides F (fst (he h))) /\ (3 <= n_adj E (fst (he h)))%nat.
  Proof.
    intros J. destruct (T_cell h J) as [C NB]. destruct (cell_range h C) as [_ S]. rewrite n_adj_out by auto. split; auto.
    destruct (he h) as [a b]. cbn [fst] in *. eapply interior_valence; eauto.
  Qed.
  Lemma loopM_range : forall t, In t loopM -> (0 <= trow t < n + Z.of_nat (length E))%Z /\ (0 <= tcol t < n)%Z.
  Proof.
    intros t J. unfold loopM in J. rewrite !in_app_iff, !in_map_iff in J.
    repeat match goal with H : _ \/ _ |- _ => destruct H as [H|H] end; destruct J as (h & <- & J);
    (assert (C : exists f i t, h = (Z.of_nat f, Z.of_nat i) /\ nth_error F f = Some t /\ (i < 3)%nat);
      [first [apply B_cell; exact J | apply I_cell; exact J | apply T_cell; exact J] |];
     destruct (cell_range h C) as [R _]; unfold trow, tcol; cbn [fst snd]; lia).
  Qed.
  Lemma beta_bounds k : (3 <= k)%nat -> 0 <= beta k /\ 0 <= 1 / INR k - beta k.
  Proof.
    intros H. unfold beta. assert (3 <= INR k) by (apply (le_INR 3) in H; cbn in H; lra).
    assert (P : 0 < / INR k) by (apply Rinv_0_lt_compat; lra).
    destruct (Nat.eqb_spec k 3) as [->|]; [cbn; lra|]. unfold Rdiv. split; nra.
  Qed.
  Lemma loopM_nonneg : forall t, In t loopM -> 0 <= tval t.
  Proof.
    intros t J. unfold loopM in J. rewrite !in_app_iff, !in_map_iff in J. unfold tval.
    repeat match goal with H : _ \/ _ |- _ => destruct H as [H|H] end; destruct J as (h & <- & J); cbn [fst snd]; try lra;
    destruct (T_valence h J) as [_ V]; apply beta_bounds in V; lra.
  Qed.
  Lemma no_edge_rows (l : list (Z*Z)) (w : Z*Z -> R) v : (v < n)%Z -> (forall h, In h l -> (0 <= h2e (fst h) (snd h))%Z) ->
    sumf (fun h => if (n + h2e (fst h) (snd h) =? v)%Z then w h else 0) l = 0.
  Proof. intros Hv H. apply sumf_zero. intros h J. specialize (H h J). destruct (Z.eqb_spec (n + h2e (fst h) (snd h)) v); auto; lia. Qed.
  Lemma no_vert_rows (l : list (Z*Z)) (r : Z * Z -> Z) (w : Z*Z -> R) k : (forall h, In h l -> (r h < n)%Z) ->
    sumf (fun h => if (r h =? n + Z.of_nat k)%Z then w h else 0) l = 0.
  Proof. intros H. apply sumf_zero. intros h J. specialize (H h J). destruct (Z.eqb_spec (r h) (n + Z.of_nat k)); auto; lia. Qed.

  Lemma loop_cols : cols_in (Z.to_nat n) loopM.
  Proof. intros t J. apply loopM_range in J. lia. Qed.
  (** edge rows *)
  Lemma loop_edge_row x k p : nth_error e2h k = Some p ->
    mulv (Z.to_nat n) loopM x (n + Z.of_nat k) =
    if is_bdry p then 1/2 * x (fst (he (fst p))) + 1/2 * x (snd (he (fst p)))
    else 3/8 * x (fst (he (fst p))) + 1/8 * x (corner_at F (fst p)) + 3/8 * x (fst (he (snd p))) + 1/8 * x (corner_at F (snd p)).
  Proof.
    intros Hk. rewrite mulv_trip by apply loop_cols. unfold loopM. rewrite !sumf_app, !sumf_map. unfold trow, tcol, tval. cbn [fst snd].
    rewrite (no_vert_rows B (fun h => fst (he h))), (no_vert_rows B (fun h => snd (he h))), (no_vert_rows T (fun h => fst (he h))).
    2: intros h J; apply T_cell in J as [C _]; apply cell_range in C; lia.
    2: intros h J; apply B_cell in J; apply cell_range in J; lia.
    2: intros h J; apply B_cell in J; apply cell_range in J; lia.
    rewrite (no_vert_rows B (fun h => fst (he h))) by (intros h J; apply B_cell in J; apply cell_range in J; lia).
    rewrite (no_vert_rows T (fun h => fst (he h))) by (intros h J; apply T_cell in J as [C _]; apply cell_range in C; lia).
    unfold B, I. rewrite (B_edge (fun h => 0.5 * x (fst (he h))) k p Hk), (B_edge (fun h => 0.5 * x (snd (he h))) k p Hk),
      (I_edge (fun h => 0.375 * x (fst (he h))) k p Hk), (I_edge (fun h => 0.125 * x (corner_at F h)) k p Hk).
    destruct (is_bdry p); lra.
  Qed.
  (** vertex rows *)
  Lemma loop_vertex_row x v : (0 <= v < n)%Z ->
    mulv (Z.to_nat n) loopM x v =
      sumf (fun s => (if (fst s =? v)%Z then 3/4 * x v + 1/8 * x (snd s) else 0) + (if (snd s =? v)%Z then 1/8 * x (fst s) else 0)) (bdry_sides F)
      + (if iV_mask E e2h v then sumf (fun s => (1 / INR (n_adj E v) - beta (n_adj E v)) * x v + beta (n_adj E v) * x (snd s)) (out_sides F v) else 0).
  Proof.
    intros Hv. rewrite mulv_trip by apply loop_cols. unfold loopM. rewrite !sumf_app, !sumf_map. unfold trow, tcol, tval. cbn [fst snd].
    rewrite (no_edge_rows B (fun h => 0.5 * x (fst (he h)))), (no_edge_rows B (fun h => 0.5 * x (snd (he h)))), (no_edge_rows I (fun h => 0.375 * x (fst (he h)))), (no_edge_rows I (fun h => 0.125 * x (corner_at F h))).
    2,4,6,8: lia.
    2,3: intros h J; apply I_cell in J; apply cell_range in J; lia.
    2,3: intros h J; apply B_cell in J; apply cell_range in J; lia.
    assert (EB : forall g, sumf g (bdry_sides F) = sumf (fun h => g (he h)) B) by (intros g; rewrite <- (sumf_perm g _ _ bdry_perm), sumf_map; auto).
    rewrite EB. unfold out_sides. rewrite sumf_filter.
    rewrite <- (cells_sides_sum F (fun s => if (fst s =? v)%Z then _ else 0)).
    unfold T, int_tail_he. rewrite !sumf_filter.
    match goal with |- 0 + (0 + (?a + (?b + (?c + (0 + (0 + (?d + ?e))))))) = ?r =>
      transitivity ((a + b + c) + (d + e)); [ring|] end.
    rewrite <- !sumf_plus. f_equal.
    - apply sumf_ext. intros h _. fold he. destruct (Z.eqb_spec (fst (he h)) v) as [Q|]; destruct (Z.eqb_spec (snd (he h)) v) as [Q2|]; rewrite ?Q, ?Q2; lra.
    - destruct (iV_mask E e2h v) eqn:M.
      + apply sumf_ext. intros h _. fold he. destruct (Z.eqb_spec (fst (he h)) v) as [Q|]; [rewrite Q, M; lra|]. destruct (iV_mask E e2h (fst (he h))); lra.
      + apply sumf_zero. intros h _. fold he. destruct (Z.eqb_spec (fst (he h)) v) as [Q|]; [rewrite Q, M; lra|]. destruct (iV_mask E e2h (fst (he h))); lra.
  Qed.
End Loop.
Lemma match_cons {A C} (l : list A) (x y : C) : l <> [] -> match l with [] => x | _ :: _ => y end = y.
Proof. destruct l; congruence. Qed.
Lemma loop_matrix_eq F E h2e e2h n : good_mesh F -> in_range n F -> HemResult F E h2e e2h -> F <> [] -> halfedge_edge_map F = Some (E, h2e, e2h) ->
    loop_matrix n F = Ok (loopM F E h2e e2h n, upsample_faces (SubdivModel.max_index F + 1) F h2e).
Proof.
    intros GM RG HR NE Q. unfold loop_matrix. rewrite match_cons by auto. rewrite Q.
    destruct (existsb _ _) eqn:X.
    { exfalso. apply existsb_exists in X as (h & J & X). apply Nat.ltb_lt in X. destruct (T_valence F E h2e e2h n GM RG HR h J). lia. }
    fold (loopM F E h2e e2h n). rewrite (csr_ok _ _ _ (loopM_range F E h2e e2h n GM RG HR)). reflexivity.
Qed.

(** the whole result *)
Lemma loop_ok F n : F <> [] -> good_mesh F -> in_range n F -> exists M Fu E, loop_matrix n F = Ok (M, Fu)
  /\ (forall e, (exists e', In e' E /\ same_edge e e') <-> (0 < incidence F e)%nat)
  /\ (forall k l e f, nth_error E k = Some e -> nth_error E l = Some f -> same_edge e f -> k = l)
  /\ (forall t, In t M -> (0 <= trow t < n + Z.of_nat (length E)) /\ (0 <= tcol t < n))
  /\ (forall i j, (0 <= entry M i j)%R)
  (* new vertex on a boundary edge *)
  /\ (forall x k e, nth_error E k = Some e -> incidence F e = 1%nat ->
       mulv (Z.to_nat n) M x (n + Z.of_nat k) = (1/2 * x (fst e) + 1/2 * x (snd e))%R)
  (* new vertex on an interior edge: 3/8 3/8 1/8 1/8, c and d being the two opposite corners *)
  /\ (forall x k e, nth_error E k = Some e -> incidence F e <> 1%nat -> exists c d,
       rot_in F (fst e) (snd e) c /\ rot_in F (snd e) (fst e) d /\ c <> d /\
       mulv (Z.to_nat n) M x (n + Z.of_nat k) = (3/8 * x (fst e) + 3/8 * x (snd e) + 1/8 * x c + 1/8 * x d)%R)
  (* interior vertex: 1 - N beta, beta *)
  /\ (forall x v, 0 <= v < n -> ~ on_boundary F v -> out_sides F v <> [] ->
       let N := length (out_sides F v) in (3 <= N)%nat /\
       mulv (Z.to_nat n) M x v = ((1 - INR N * beta N) * x v + beta N * sumf (fun s => x (snd s)) (out_sides F v))%R)
  (* boundary vertex *)
  /\ (forall x v, 0 <= v < n -> on_boundary F v ->
       mulv (Z.to_nat n) M x v = sumf (fun s => (if fst s =? v then 3/4 * x v + 1/8 * x (snd s) else 0) + (if snd s =? v then 1/8 * x (fst s) else 0))%R (bdry_sides F))
  (* vertex of no face *)
  /\ (forall x v, 0 <= v < n -> (forall s, In s (all_sides F) -> fst s <> v /\ snd s <> v) -> mulv (Z.to_nat n) M x v = 0%R)
  /\ (SubdivModel.max_index F + 1 = n -> Fu = upF (midx n E) F).
Proof.
  intros NE GM RG. destruct (hem_ok F NE (proj1 GM)) as (E & h2e & e2h & Q & HR).
  exists (loopM F E h2e e2h n), (upsample_faces (SubdivModel.max_index F + 1) F h2e), E.
  split; [apply loop_matrix_eq; auto|]. split; [apply HR|]. split; [apply HR|]. split; [apply loopM_range; auto|]. split.
  { intros i j. unfold entry. apply sumf_nonneg. intros t I. destruct (_ && _); [eapply loopM_nonneg; eauto | lra]. }
  assert (E2 : forall k e, nth_error E k = Some e -> exists p, nth_error e2h k = Some p).
  { intros k e Ek. destruct (nth_error e2h k) as [p|] eqn:Hk; eauto. apply nth_error_None in Hk. rewrite (proj1 (proj2 (proj2 HR))) in Hk.
    assert (k < length E)%nat by (apply nth_error_Some; congruence). lia. }
  split; [|split; [|split; [|split; [|split]]]].
  - intros x k e Ek I1. destruct (E2 k e Ek) as [p Hk]. rewrite (loop_edge_row F E h2e e2h n GM RG HR x k p Hk).
    rewrite (bdry_iff F E h2e e2h GM HR k p e Hk Ek), I1. cbn [Nat.eqb].
    destruct (cases F E h2e e2h GM HR k p Hk) as (e' & f & i & t & Ek' & -> & Hi & Hf & Se & _). rewrite Ek in Ek'. injection Ek' as <-.
    rewrite (he_at_nth F f i t Hf Hi), Se. auto.
  - intros x k e Ek I1. destruct (E2 k e Ek) as [p Hk]. rewrite (loop_edge_row F E h2e e2h n GM RG HR x k p Hk).
    rewrite (bdry_iff F E h2e e2h GM HR k p e Hk Ek). destruct (Nat.eqb_spec (incidence F e) 1); [congruence|].
    destruct (cases F E h2e e2h GM HR k p Hk) as (e' & f & i & t & Ek' & -> & Hi & Hf & Se & _ & C). rewrite Ek in Ek'. injection Ek' as <-.
    destruct C as [[_ I1']|(g & j & s & -> & Hj & Hg & Sg & _)]; [congruence|].
    assert (RI : forall f i t, nth_error F f = Some t -> (i < 3)%nat -> rot_in F (fst (side_opp t i)) (snd (side_opp t i)) (corner t i)).
    { clear. intros f i [[a b] c] Hf Hi. apply nth_error_In in Hf. unfold rot_in. destruct i as [|[|[|i]]]; try lia; cbn; auto. }
    pose proof (RI f i t Hf Hi) as R1. pose proof (RI g j s Hg Hj) as R2. rewrite Se in R1. rewrite Sg in R2. cbn [fst snd] in R2.
    exists (corner t i), (corner s j). split; auto. split; auto. split.
    { intros Qc. rewrite Qc in R1. apply (rot_flip F GM (corner s j) (fst e) (snd e)).
      - unfold rot_in in *. tauto. - unfold rot_in in *. tauto. }
    rewrite (he_at_nth F f i t Hf Hi), (he_at_nth F g j s Hg Hj), (corner_at_nth F f i t Hf Hi), (corner_at_nth F g j s Hg Hj), Se, Sg. cbn [fst snd]. lra.
  - intros x v Hv NB NO N.
    assert (N3 : (3 <= N)%nat).
    { destruct (out_sides F v) as [|s l] eqn:O; [congruence|]. assert (I : In s (out_sides F v)) by (rewrite O; left; auto).
      unfold out_sides in I. apply filter_In in I as [I Qs]. apply Z.eqb_eq in Qs. destruct s as [a b]. cbn in Qs. subst a.
      pose proof (interior_valence F E h2e e2h n GM HR v b I NB). unfold N. rewrite <- O. auto. }
    split; auto. rewrite (loop_vertex_row F E h2e e2h n GM RG HR x v Hv).
    rewrite (proj2 (iV_mask_spec F E h2e e2h n GM HR v) NB).
    rewrite sumf_zero.
    + rewrite sumf_plus, sumf_const, sumf_scal. rewrite (n_adj_out F E h2e e2h n GM HR v NB). fold N.
      assert (3 <= INR N)%R by (apply (le_INR 3) in N3; cbn in N3; lra). field. lra.
    + intros s I. unfold bdry_sides in I. apply filter_In in I as [_ I1]. apply Nat.eqb_eq in I1.
      destruct (Z.eqb_spec (fst s) v); [exfalso; apply NB; exists s; auto|]. destruct (Z.eqb_spec (snd s) v); [exfalso; apply NB; exists s; auto|]. lra.
  - intros x v Hv OB. rewrite (loop_vertex_row F E h2e e2h n GM RG HR x v Hv).
    destruct (iV_mask E e2h v) eqn:M; [apply (iV_mask_spec F E h2e e2h n GM HR v) in M; contradiction|]. lra.
  - intros x v Hv NO. rewrite (loop_vertex_row F E h2e e2h n GM RG HR x v Hv). rewrite sumf_zero.
    + destruct (iV_mask E e2h v); [|lra]. assert (out_sides F v = []) as ->; [|cbn; lra].
      destruct (out_sides F v) as [|s l] eqn:O; auto. assert (I : In s (out_sides F v)) by (rewrite O; left; auto).
      unfold out_sides in I. apply filter_In in I as [I Qs]. apply Z.eqb_eq in Qs. apply NO in I. tauto.
    + intros s I. unfold bdry_sides in I. apply filter_In in I as [I _]. apply NO in I.
      destruct (Z.eqb_spec (fst s) v); [tauto|]. destruct (Z.eqb_spec (snd s) v); [tauto|]. lra.
  - intros Q'. rewrite Q'. apply (upsample_faces_eq F E h2e e2h n HR).
Qed.

(** simple boundary: exactly one boundary side enters and one leaves v *)
Lemma loop_simple_boundary F n M Fu x v u w : F <> [] -> good_mesh F -> in_range n F -> loop_matrix n F = Ok (M, Fu) -> 0 <= v < n ->
  In (u,v) (bdry_sides F) -> In (v,w) (bdry_sides F) ->
  (forall s, In s (bdry_sides F) -> (fst s = v -> snd s = w) /\ (snd s = v -> fst s = u)) ->
  mulv (Z.to_nat n) M x v = (3/4 * x v + 1/8 * x u + 1/8 * x w)%R.
Proof.
  intros NE GM RG L Hv Iu Iw U. destruct (loop_ok F n NE GM RG) as (M' & Fu' & E & L' & _ & _ & _ & _ & _ & _ & _ & HB & _).
  rewrite L in L'. injection L' as <- <-.
  assert (OB : on_boundary F v). { unfold bdry_sides in Iu. apply filter_In in Iu as [_ I1]. apply Nat.eqb_eq in I1. exists (u,v). auto. }
  assert (ND : NoDup (bdry_sides F)) by (apply NoDup_filter, GM).
  rewrite (HB x v Hv OB), sumf_plus.
  rewrite (sumf_unique (fun s : edge => fst s =? v) (fun s => 3/4 * x v + 1/8 * x (snd s))%R _ (v,w) ND Iw); [|apply Z.eqb_refl|].
  2:{ intros [a b] I Q. apply Z.eqb_eq in Q. cbn in Q. subst a. destruct (U _ I) as [U1 _]. cbn in U1. rewrite U1; auto. }
  rewrite (sumf_unique (fun s : edge => snd s =? v) (fun s => 1/8 * x (fst s))%R _ (u,v) ND Iu); [|apply Z.eqb_refl|].
  2:{ intros [a b] I Q. apply Z.eqb_eq in Q. cbn in Q. subst b. destruct (U _ I) as [_ U1]. cbn in U1. rewrite U1; auto. }
  cbn [snd fst]. lra.
Qed.
