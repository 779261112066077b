From Verif Require Import NumpyModel NumpyProofs TopoModel TopoSpec TopoProofs.
From Coq Require Import Permutation.
Open Scope Z_scope.

(** ** C07 *)
Section AC.
  Context {A : Type} `{Ord A}.
  Definition corr (b : list A) (x : A) : Z :=
    if Nat.ltb (first_index x b) (length b) then Z.of_nat (first_index x b) else -1.

  Lemma gather_map {B C} (l : list B) (f : C -> nat) (g : C -> B) (xs : list C) :
    (forall x, In x xs -> nth_error l (f x) = Some (g x)) -> gather l (map f xs) = Some (map g xs).
  Proof.
    induction xs as [|x xs IH]; cbn; auto. intros Q. rewrite (Q x), IH; auto.
  Qed.
  Lemma opt_map_map {B C D} (f : C -> option D) (g : B -> C) (h : B -> D) xs :
    (forall x, In x xs -> f (g x) = Some (h x)) -> opt_map f (map g xs) = Some (map h xs).
  Proof. induction xs as [|x xs IH]; cbn; auto. intros Q. rewrite (Q x), IH; auto. Qed.

  Lemma array_correspondence_map (a b : list A) : (b = [] -> a = []) ->
    array_correspondence a b = Some (map (corr b) a).
  Proof.
    intros NE. unfold array_correspondence.
    set (uB := np_unique b). set (cat := uB ++ a).
    assert (SK : skipn (length uB) (np_unique_inverse cat) = map (fun x => first_index x (np_unique cat)) a).
    { unfold np_unique_inverse, cat. rewrite map_app, skipn_app, map_length, Nat.sub_diag.
      rewrite skipn_all2 by (rewrite map_length; auto). auto. }
    rewrite SK.
    rewrite (gather_map (np_unique_index cat) _ (fun x => first_index x cat)).
    2: { intros x I. unfold np_unique_index. rewrite nth_error_map, first_index_In; auto.
         apply In_np_unique. unfold cat. apply in_app_iff; auto. }
    rewrite map_map.
    apply opt_map_map with (h := corr b). intros x I.
    assert (UB : In x uB <-> In x b) by apply In_np_unique.
    unfold imap_entry, cat. rewrite first_index_app. unfold corr.
    destruct (Nat.ltb_spec (first_index x uB) (length uB)) as [L|L].
    - destruct (Nat.leb_spec (length uB) (first_index x uB)); [lia|].
      pose proof (proj2 (first_index_lt _ _) L) as IU. rewrite UB in IU.
      unfold py_nth. destruct (Z.ltb_spec (Z.of_nat (first_index x uB)) 0); [lia|].
      rewrite Nat2Z.id. unfold np_unique_index. rewrite nth_error_map. fold uB.
      rewrite first_index_In by (apply UB; auto). cbn [option_map].
      apply first_index_lt in IU. destruct (Nat.ltb_spec (first_index x b) (length b)); [auto | lia].
    - destruct (Nat.leb_spec (length uB) (length uB + first_index x a)); [|lia].
      assert (NB : ~ In x b).
      { rewrite <- UB, first_index_lt. lia. }
      unfold py_nth. cbn [Z.ltb Z.compare].
      assert (E : exists q, nth_error (np_unique_index b) (Z.to_nat (Z.of_nat (length (np_unique_index b)) + -1)) = Some q).
      { destruct (nth_error _ _) eqn:E; eauto. apply nth_error_None in E.
        unfold np_unique_index in E. rewrite map_length in E.
        destruct b as [|y b]; [rewrite (NE eq_refl) in I; destruct I|].
        assert (In y (np_unique (y :: b))) by (apply In_np_unique; left; auto).
        destruct (np_unique (y :: b)); [contradiction|]. cbn [length] in E. lia. }
      destruct E as [q ->].
      destruct (Nat.ltb_spec (first_index x b) (length b)); auto.
      exfalso. apply NB, first_index_lt; auto.
  Qed.

  Lemma corr_spec b x : (corr b x = -1 <-> ~ In x b) /\
    (corr b x <> -1 -> 0 <= corr b x /\ nth_error b (Z.to_nat (corr b x)) = Some x
       /\ forall k, nth_error b k = Some x -> corr b x <= Z.of_nat k).
  Proof.
    unfold corr. rewrite first_index_lt. destruct (Nat.ltb_spec (first_index x b) (length b)) as [L|L].
    - split; [lia|]. intros _. split; [lia|]. rewrite Nat2Z.id. split.
      + apply first_index_In, first_index_lt; auto.
      + intros k Q. apply first_index_min in Q. lia.
    - split; [lia | congruence].
  Qed.

  Lemma array_correspondence_error (a b : list A) : b = [] -> a <> [] -> array_correspondence a b = None.
  Proof.
    intros -> NA. unfold array_correspondence. cbn [np_unique fold_right length app skipn]. unfold np_unique_inverse.
    rewrite (gather_map (np_unique_index a) _ (fun x => first_index x a)).
    - destruct a as [|x a]; [congruence|]. cbn [map opt_map].
      assert (E : forall i, py_nth (np_unique_index (@nil A)) i = None).
      { intros i. unfold py_nth. cbn. destruct (i <? 0); [destruct (Z.to_nat i) | destruct (Z.to_nat i)]; auto. }
      rewrite E. auto.
    - intros x I. unfold np_unique_index. rewrite nth_error_map, first_index_In; auto.
      apply In_np_unique; auto.
  Qed.
End AC.

(** ** flat index arithmetic *)
Lemma flatF_nth F r c : (r < length F)%nat -> (c < 3)%nat ->
  nth_error (flatF F) (r + c * length F) = option_map (fun t => side_opp t c) (nth_error F r).
Proof.
  intros Hr Hc. rewrite flatF_eq.
  assert (L : forall (f : tri -> edge), length (map f F) = length F) by (intros; apply map_length).
  destruct c as [|[|[|]]]; [| | |lia].
  - rewrite nth_error_app1 by (rewrite L; lia). rewrite nth_error_map. f_equal. f_equal. lia.
  - rewrite nth_error_app2 by (rewrite L; lia). rewrite L, nth_error_app1 by (rewrite L; lia).
    rewrite nth_error_map. f_equal. f_equal. lia.
  - rewrite nth_error_app2 by (rewrite L; lia). rewrite L, nth_error_app2 by (rewrite L; lia).
    rewrite L, nth_error_map. f_equal. f_equal. lia.
Qed.

Lemma flatF_nth_inv F k h : nth_error (flatF F) k = Some h ->
  exists r c t, (r < length F)%nat /\ (c < 3)%nat /\ k = (r + c * length F)%nat /\ nth_error F r = Some t /\ side_opp t c = h.
Proof.
  intros Q. assert (K : (k < 3 * length F)%nat) by (rewrite <- flatF_length; apply nth_error_Some; congruence).
  assert (M : (length F <> 0)%nat) by lia.
  pose proof (Nat.div_mod k (length F) M) as DM.
  pose proof (Nat.mod_upper_bound k (length F) M) as MB.
  assert (DB : (k / length F < 3)%nat) by (apply Nat.div_lt_upper_bound; lia).
  exists (k mod length F)%nat, (k / length F)%nat.
  rewrite DM in Q. rewrite Nat.add_comm, Nat.mul_comm in Q. rewrite flatF_nth in Q by auto.
  destruct (nth_error F (k mod length F)) as [t|]; [|discriminate]. cbn in Q. injection Q as Q.
  exists t. repeat split; auto. rewrite DM at 1. lia.
Qed.

Lemma unflat_flat m r c : (r < m)%nat -> unflat (Z.of_nat m) (Z.of_nat (r + c * m)) = (Z.of_nat r, Z.of_nat c).
Proof.
  intros L. unfold unflat. rewrite Nat2Z.inj_add, Nat2Z.inj_mul.
  f_equal.
  - rewrite Z.mod_add by lia. apply Z.mod_small. lia.
  - rewrite Z.div_add by lia. rewrite Z.div_small by lia. lia.
Qed.

(** ** scatter *)
Definition has_write (w : list (Z * Z * Z)) r c := exists v, In (r, c, v) w.
Lemma scatter_ok m w : forall t,
  (forall r c v, In (r, c, v) w -> 0 <= r < m /\ 0 <= c < 3) ->
  exists t', scatter m t w = Some t' /\
    (forall r c, t' r c = t r c /\ ~ has_write w r c \/ exists v, In (r, c, v) w /\ t' r c = v).
Proof.
  induction w as [|[[r0 c0] v0] w IH]; intros t B.
  - exists t. split; auto. intros r c. left. split; auto. intros [v []].
  - cbn [scatter]. destruct (B r0 c0 v0) as [B1 B2]; [left; auto|].
    assert (N1 : norm_index m r0 = Some r0).
    { unfold norm_index. destruct (Z.leb_spec 0 r0), (Z.ltb_spec r0 m); cbn; auto; lia. }
    assert (N2 : norm_index 3 c0 = Some c0).
    { unfold norm_index. destruct (Z.leb_spec 0 c0), (Z.ltb_spec c0 3); cbn; auto; lia. }
    rewrite N1, N2. destruct (IH (tset t r0 c0 v0)) as (t' & -> & P).
    { intros r c v I. apply B with v. right; auto. }
    exists t'. split; auto. intros r c. destruct (P r c) as [[P1 P2]|(v & I & E)].
    + unfold tset in P1. destruct (Z.eqb_spec r r0), (Z.eqb_spec c c0); cbn in P1.
      * subst r c. right. exists v0. split; auto. left; auto.
      * left. split; auto. intros [v [Q|Q]]; [congruence | apply P2; exists v; auto].
      * left. split; auto. intros [v [Q|Q]]; [congruence | apply P2; exists v; auto].
      * left. split; auto. intros [v [Q|Q]]; [congruence | apply P2; exists v; auto].
    + right. exists v. split; auto. right; auto.
Qed.

Lemma In_all_cells m r c : In (r, c) (all_cells m) <-> 0 <= r < Z.of_nat m /\ 0 <= c < 3.
Proof.
  unfold all_cells. rewrite in_flat_map. split.
  - intros (x & I & J). apply in_seq in I. cbn in J. 
    destruct J as [J|[J|[J|[]]]]; injection J as <- <-; lia.
  - intros [R C]. exists (Z.to_nat r). split; [apply in_seq; lia|].
    rewrite Z2Nat.id by lia. cbn. assert (c = 0 \/ c = 1 \/ c = 2) as [-> | [-> | ->]] by lia; tauto.
Qed.

(** ** structure of the edge array of halfedge_edge_map *)
Lemma hem_edges_struct F : F <> [] -> exists b i bi ii,
  hem_edges F = Some (flatF F, b ++ i, bi, ii)
  /\ map sort2 b = filter (fun u => Nat.eqb (ucount sort2 (flatF F) u) 1) (np_unique (map sort2 (flatF F)))
  /\ map sort2 i = filter (fun u => Nat.ltb 1 (ucount sort2 (flatF F) u)) (np_unique (map sort2 (flatF F)))
  /\ (forall x, In x b -> In x (flatF F)) /\ (forall x, In x i -> In x (flatF F))
  /\ gather (flatF F) bi = Some b.
Proof.
  intros NE. unfold hem_edges. rewrite halfedges_some by auto. fold (flatF F).
  destruct (bdry_struct sort2 (fun c => Nat.eqb c 1) (flatF F)) as (b & Hb & Mb & Ib).
  destruct (bdry_struct sort2 (fun c => Nat.ltb 1 c) (flatF F)) as (i & Hi & Mi & Ii).
  exists b, i. eexists; eexists. rewrite Hb, Hi.
  assert (L : length (b ++ i) = length (np_unique (map sort2 (flatF F)))).
  { rewrite app_length, <- (map_length sort2 b), <- (map_length sort2 i), Mb, Mi.
    apply (len_filter_split (fun c => Nat.eqb c 1) (fun c => Nat.ltb 1 c) (ucount sort2 (flatF F))).
    intros u Hu. apply count_pos_unique in Hu.
    destruct (Nat.eqb_spec (ucount sort2 (flatF F) u) 1), (Nat.ltb_spec 1 (ucount sort2 (flatF F) u)); cbn; auto; lia. }
  rewrite L, Nat.eqb_refl. repeat split; eauto.
Qed.

(** the edge array lists every undirected edge once; boundary rows first *)
Lemma hem_edge_facts F b i :
  map sort2 b = filter (fun u => Nat.eqb (ucount sort2 (flatF F) u) 1) (np_unique (map sort2 (flatF F))) ->
  map sort2 i = filter (fun u => Nat.ltb 1 (ucount sort2 (flatF F) u)) (np_unique (map sort2 (flatF F))) ->
  (forall e, (exists e', In e' (b ++ i) /\ same_edge e e') <-> (0 < incidence F e)%nat)
  /\ (forall k l e f, nth_error (b ++ i) k = Some e -> nth_error (b ++ i) l = Some f -> same_edge e f -> k = l)
  /\ (forall k e, nth_error (b ++ i) k = Some e -> ((k < length b)%nat <-> incidence F e = 1%nat)).
Proof.
  intros Mb Mi. split; [|split].
  - intros e. rewrite incidence_count, <- (split_In sort2 (flatF F) b i Mb Mi e), in_map_iff.
    split; intros (e' & A & B).
    + exists e'. split; auto. apply sort2_same in B; auto.
    + exists e'. split; auto. apply sort2_same; auto.
  - intros k l e f Hk Hl S. apply sort2_same in S.
    eapply (split_unique sort2 (flatF F) b i Mb Mi); eauto.
  - intros k e Hk. rewrite incidence_count. apply (split_bdry sort2 (flatF F) b i Mb Mi k e Hk).
Qed.
