(** Closing lemmas used by P_Topo.v *)
From Verif Require Import NumpyModel NumpyProofs TopoModel TopoSpec TopoProofs CorrProofs HemProofs HemNmProofs.
From Coq Require Import Permutation.
Open Scope Z_scope.

Lemma halfedges_ok : forall F,
  (halfedges F = None <-> F = []) /\
  forall he, halfedges F = Some he -> length he = length F /\
    forall f t i, nth_error F f = Some t -> (i < 3)%nat ->
      exists r, nth_error he f = Some r /\ row3 r i = side_opp t i.
Proof.
  intros F. split; [destruct F; cbn; split; congruence|].
  intros he Q. assert (he = map he_row F) as -> by (destruct F; cbn in *; congruence).
  rewrite map_length. split; auto. intros f t i Hf Li. exists (he_row t). rewrite nth_error_map, Hf. split; auto.
  destruct t as [[a b] c]. destruct i as [|[|[|]]]; auto; lia.
Qed.

Lemma halffaces_ok : forall T,
  (halffaces T = None <-> T = []) /\
  forall hf, halffaces T = Some hf -> length hf = length T /\
    forall k t, nth_error T k = Some t -> exists r, nth_error hf k = Some r
      /\ (forall i, (i < 4)%nat -> exists g, nth_error (bdry_facets t) i = Some g /\ rot_eq (row4 r i) g)
      /\ Permutation (all_sides [row4 r 0; row4 r 1; row4 r 2; row4 r 3])
           (map rev_edge (all_sides [row4 r 0; row4 r 1; row4 r 2; row4 r 3])).
Proof.
  intros T. split; [destruct T; cbn; split; congruence|].
  intros he Q. assert (he = map hf_row T) as -> by (destruct T; cbn in *; congruence).
  rewrite map_length. split; auto. intros k t Hk. exists (hf_row t). rewrite nth_error_map, Hk. split; auto.
  destruct t as [[[a b] c] d]. split.
  - intros i Li. destruct i as [|[|[|[|]]]]; [| | | |lia]; cbn; eexists; (split; [reflexivity|]); cbn; auto.
  - cbn. unfold rev_edge; cbn.
    (* b->c etc.: exhibit the pairing *)
    assert (P : forall l1 l2 : list edge, (forall x, count x l1 = count x l2) -> Permutation l1 l2).
    { induction l1 as [|x l1 IH]; intros l2 C.
      - destruct l2 as [|y l2]; auto. specialize (C y). rewrite count_cons, eqb_refl in C. cbn in C. lia.
      - assert (I : In x l2) by (apply count_pos; rewrite <- C, count_cons, eqb_refl; lia).
        apply in_split in I as (u & v & ->). transitivity (x :: u ++ v); [|apply Permutation_middle].
        constructor. apply IH. intros y. specialize (C y). rewrite count_app, !count_cons in C.
        rewrite count_app. lia. }
    apply P. intros x. rewrite !count_cons. cbn. lia.
Qed.

Lemma edges_interior_refuted : exists F E bi ii nm k e,
  edges F = Some (E, bi, ii, nm) /\ In k ii /\ nth_error E k = Some e /\ incidence F e = 1%nat.
Proof.
  exists [(0,1,2);(2,1,3)]. do 4 eexists. exists 2%nat, (1,3).
  split; [vm_compute; reflexivity|]. vm_compute. auto.
Qed.
Lemma edges_nonmanifold_refuted : exists F E bi ii nm k e,
  edges F = Some (E, bi, ii, nm) /\ In k nm /\ nth_error E k = Some e /\ incidence F e = 1%nat.
Proof.
  exists [(0,1,2);(1,0,3);(0,1,4)]. do 4 eexists. exists 0%nat. eexists.
  split; [vm_compute; reflexivity|]. vm_compute. auto.
Qed.
Lemma faces_interior_refuted : exists T F bi ii nm k f,
  faces T = Some (F, bi, ii, nm) /\ In k ii /\ nth_error F k = Some f /\ facet_incidence T f = 1%nat.
Proof.
  exists [(0,1,2,3);(1,2,3,4)]. do 4 eexists. exists 3%nat. eexists.
  split; [vm_compute; reflexivity|]. vm_compute. auto.
Qed.

Lemma array_correspondence_ok : forall (A : Type) (O : Ord A) (a b : list A),
  (b <> [] \/ a = [] -> exists f, array_correspondence a b = Some f /\ length f = length a
    /\ forall i x, nth_error a i = Some x -> exists k, nth_error f i = Some k
        /\ (k = -1 <-> ~ In x b)
        /\ (k <> -1 -> 0 <= k /\ nth_error b (Z.to_nat k) = Some x
             /\ forall l, nth_error b l = Some x -> k <= Z.of_nat l))
  /\ (b = [] -> a <> [] -> array_correspondence a b = None).
Proof.
  intros A O a b. split; [|apply array_correspondence_error].
  intros H. exists (map (corr b) a). split; [apply array_correspondence_map; tauto|].
  rewrite map_length. split; auto. intros i x Hi. exists (corr b x). rewrite nth_error_map, Hi. split; auto.
  apply corr_spec.
Qed.

Lemma om_example : [(0,1,2);(2,1,3)] <> [] /\ oriented_manifold [(0,1,2);(2,1,3)]
  /\ incidence [(0,1,2);(2,1,3)] (1,2) = 2%nat /\ incidence [(0,1,2);(2,1,3)] (0,1) = 1%nat.
Proof.
  split; [discriminate|]. split; [|vm_compute; auto].
  unfold oriented_manifold; cbn. repeat constructor; cbn; intuition congruence.
Qed.
