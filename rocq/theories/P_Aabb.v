(** C30, C31, C33, C34: the AABB tree and the queries on it.  Code: AabbModel.v; vocabulary: AabbSpec.v ([bvh], [under], [in_box],
    [box_le]), AabbTreeProofs.v ([vert_of V F e] the vertices of element e, [valid_mesh] rows of one positive dimension and indices in
    range), AabbQueryProofs.v ([dist2] squared distance, [combo dim ws vs x]: x is the convex combination of vs with weights ws),
    AabbQuery2Proofs.v ([supported]: points, segments in 2D/3D, non-degenerate triangles in 3D).
    [argsort] is any function returning a permutation of the positions. *)
From Coq Require Import Reals Lra Psatz ZArith List Bool Permutation Lia Arith.
From Verif Require Import NumpyModel TopoModel PyExn Vec GeomModel GeomProofs LoopsModel SubdivModel SubdivProofs Subdiv2Proofs SqDistModel SqDistProofs AabbModel AabbSpec AabbProofs AabbBuildProofs AabbTreeProofs AabbQueryProofs AabbQuery2Proofs.
Import ListNotations.
Open Scope R_scope.

Ltac fall := repeat first [apply Forall_nil | apply Forall_cons].
Definition is_argsort (argsort : list R -> list nat) : Prop := forall l, Permutation (argsort l) (seq 0 (length l)).
Example is_argsort_satisfiable : exists a, is_argsort a.
Proof. exists (fun l => seq 0 (length l)). intros l. apply Permutation_refl. Qed.

(** *** C30 *)
Theorem C30_bvh : forall argsort dim V F, is_argsort argsort -> valid_mesh dim V F ->
  exists T, (forall fuel, (2 * length F - 1 <= fuel)%nat -> initialize_aabbtree argsort fuel dim V F = Ok T) /\ bvh dim (length F) (vert_of V F) T.
Proof. intros a dim V F A VM. destruct (init_ok a dim V F A VM) as (T & E & B & _). eauto. Qed.
Print Assumptions C30_bvh.
(** boxes nest below the root always, at the root when all coordinates are within +-10000 *)
Theorem C30_nested : forall argsort dim V F fuel T, is_argsort argsort -> valid_mesh dim V F -> (2 * length F - 1 <= fuel)%nat ->
  initialize_aabbtree argsort fuel dim V F = Ok T ->
  forall j nd a na, nth_error T j = Some nd -> nth_error T a = Some na -> nPAR na = Z.of_nat j ->
    (0 < j)%nat \/ (Forall (Forall (fun x => -10000 <= x <= 10000)) V /\ forall f, In f F -> f <> []) ->
    box_le dim (nC na) (nW na) (nC nd) (nW nd).
Proof.
  intros a dim V F fuel T A VM FU E. destruct (init_ok a dim V F A VM) as (T' & E' & _ & _ & N & _). rewrite (E' _ FU) in E. injection E as <-. exact N.
Qed.
Print Assumptions C30_nested.
(** the root box is the bounding box of V *)
Theorem C30_root_box : forall argsort dim V F fuel T, is_argsort argsort -> valid_mesh dim V F -> (2 * length F - 1 <= fuel)%nat ->
  initialize_aabbtree argsort fuel dim V F = Ok T ->
  forall r, nth_error T 0 = Some r -> forall i, (i < dim)%nat ->
       ((forall v, In v V -> nth i (nC r) 0 - nth i (nW r) 0 / 2 <= nth i v 0) /\ exists v, In v V /\ nth i (nC r) 0 - nth i (nW r) 0 / 2 = nth i v 0) /\
       ((forall v, In v V -> nth i v 0 <= nth i (nC r) 0 + nth i (nW r) 0 / 2) /\ exists v, In v V /\ nth i (nC r) 0 + nth i (nW r) 0 / 2 = nth i v 0).
Proof.
  intros a dim V F fuel T A VM FU E. destruct (init_ok a dim V F A VM) as (T' & E' & _ & _ & _ & N & _). rewrite (E' _ FU) in E. injection E as <-. exact N.
Qed.
Print Assumptions C30_root_box.
(** without F, the elements are the points *)
Theorem C30_points : forall dim V, (0 < dim)%nat -> V <> [] -> Forall (fun v => length v = dim) V ->
  valid_mesh dim V (point_elements V) /\ length (point_elements V) = length V /\ forall e, (e < length V)%nat -> vert_of V (point_elements V) e = [nth e V []].
Proof.
  intros dim V D N L. unfold point_elements. assert (LE : length (map (fun i => [Z.of_nat i]) (seq 0 (length V))) = length V) by (rewrite map_length, seq_length; auto).
  split; [|split; [exact LE|]].
  - repeat split; auto.
    + destruct V; cbn; congruence.
    + apply Forall_map, Forall_forall. intros i I. apply in_seq in I. fall; cbv beta; lia.
  - intros e E. unfold vert_of. rewrite (nth_indep _ [] [Z.of_nat 0]) by (rewrite map_length, seq_length; exact E). rewrite (map_nth (fun i => [Z.of_nat i])), seq_nth by auto. cbn [map Nat.add]. rewrite Nat2Z.id. reflexivity.
Qed.
Print Assumptions C30_points.
(** no elements: AssertionError *)
Theorem C30_empty : forall argsort dim V fuel, V <> [] -> initialize_aabbtree argsort (S fuel) dim V [] = Err AssertionError.
Proof. intros a dim [|v V] fuel N; [congruence|]. reflexivity. Qed.
Print Assumptions C30_empty.
(** beyond the clamp value 10000 the children's boxes stick out of the root box *)
Theorem C30_nested_refuted : forall argsort, is_argsort argsort -> exists V F T r c,
  valid_mesh 1 V F /\ initialize_aabbtree argsort 3 1 V F = Ok T /\ nth_error T 0 = Some r /\ nth_error T 1 = Some c /\ nPAR c = 0%Z /\
  ~ box_le 1 (nC c) (nW c) (nC r) (nW r).
Proof.
  intros a A. set (V := [[20000]; [20001]]). set (F := [[0%Z]; [1%Z]]).
  assert (VM : valid_mesh 1 V F) by (unfold V, F; repeat split; try lia; try congruence; fall; cbn; lia).
  destruct (init_ok a 1 V F A VM) as (T & E & B & _ & _ & RB & TB). specialize (E 3%nat ltac:(cbn; lia)).
  pose proof (bvh_size _ _ _ _ B) as LT. cbn in LT. destruct T as [|r [|c [|d [|? ?]]]]; try discriminate.
  exists V, F, [r; c; d], r, c. split; [exact VM|]. split; [exact E|]. split; [reflexivity|]. split; [reflexivity|].
  destruct (bvh_par _ _ _ _ B 1%nat c eq_refl ltac:(lia)) as (p & np & EP & NP & CH).
  assert (p = 0%nat).
  { assert (PN : (p < 3)%nat) by (change 3%nat with (length [r; c; d]); apply nth_error_Some; congruence).
    destruct (bvh_node _ _ _ _ B p np NP) as [(L & _)|(_ & _ & a1 & b1 & na & nb & C & J1 & J2 & N1 & N2 & _)]; [unfold leaf in L; rewrite L in CH; cbn in CH; lia|].
    assert (b1 < 3)%nat by (change 3%nat with (length [r; c; d]); apply nth_error_Some; congruence). lia. }
  subst p. split; [exact EP|]. intros BL. specialize (BL O ltac:(lia)).
  destruct (RB r eq_refl O ltac:(lia)) as [[_ (v & IV & EV)] _]. destruct (TB 1%nat c eq_refl ltac:(lia) O ltac:(lia)) as [(e & EM & _ & EB) _].
  assert (VV : nth 0 v 0 >= 20000) by (unfold V in IV; destruct IV as [ <- |[ <- |[]]]; cbn; lra).
  assert (EE : nth 0 (vmin_el 1 (vert_of V F e)) 0 <= 10000).
  { cbn in EM. destruct e as [|[|e]]; [| |lia]; cbn; apply Rmin_r. }
  lra.
Qed.
Print Assumptions C30_nested_refuted.
Example C30_nonvacuous : valid_mesh 3 [[0;0;0]; [1;0;0]; [0;1;0]; [0;0;1]] [[0;1;2]%Z; [0;1;3]%Z; [1;2;3]%Z].
Proof. repeat split; try lia; try congruence; fall; cbn; lia. Qed.

(** *** C31 *)
Definition all_supported (dim : nat) (V : list vec) (F : list (list Z)) : Prop := forall e, (e < length F)%nat -> supported dim (vert_of V F e).
(** element i attains the minimum (d, l) of the element distances *)
Definition closest (V : list vec) (F : list (list Z)) (p : vec) (d : R) (i : Z) (l : list R) : Prop :=
  exists k, (k < length F)%nat /\ i = Z.of_nat k /\ squared_distance_to_element p (vert_of V F k) = Ok (d, l) /\
    forall e d' l', (e < length F)%nat -> squared_distance_to_element p (vert_of V F e) = Ok (d', l') -> d <= d'.

Lemma dval_ok V F p e d l : squared_distance_to_element p (vert_of V F e) = Ok (d, l) -> dval p (vert_of V F e) = d /\ lval p (vert_of V F e) = l.
Proof. intros H. unfold dval, lval. rewrite H. auto. Qed.
Lemma closest_intro dim V F p k : valid_mesh dim V F -> length p = dim -> all_supported dim V F -> (k < length F)%nat ->
  (forall e, (e < length F)%nat -> dval p (vert_of V F k) <= dval p (vert_of V F e)) -> closest V F p (dval p (vert_of V F k)) (Z.of_nat k) (lval p (vert_of V F k)).
Proof.
  intros VM LP SP K M. exists k. split; auto. split; auto. split.
  - destruct (eldist_contract dim p _ LP (vert_len dim V F VM k K) (SP k K)) as (d & l & x & Q & _). destruct (dval_ok _ _ _ _ _ _ Q) as [ -> -> ]. exact Q.
  - intros e d' l' E Q. destruct (dval_ok _ _ _ _ _ _ Q) as [ <- _ ]. auto.
Qed.

Theorem C31_aabb : forall argsort dim V F p fuel, is_argsort argsort -> valid_mesh dim V F -> length p = dim -> all_supported dim V F -> (2 * length F - 1 <= fuel)%nat ->
  exists d i l, squared_distance_aabb argsort fuel dim p V F = Ok (d, i, l) /\ closest V F p d i l.
Proof.
  intros a dim V F p fuel A VM LP SP FU. destruct (init_ok a dim V F A VM) as (T & E & B & LN & _).
  assert (M : (0 < length F)%nat) by (destruct VM as (_ & _ & N & _); destruct F; cbn; [congruence|lia]).
  destruct (traverse_root dim (length F) (vert_of V F) T p (eld V F p) (fun e => dval p (vert_of V F e)) (fun e => lval p (vert_of V F e)) B LN LP
    (eld_ok dim V F p VM LP SP) (eld_hull dim V F p VM LP SP) M) as (k & K & MIN & TR).
  eexists _, _, _. split; [|exact (closest_intro dim V F p k VM LP SP K MIN)].
  unfold squared_distance_aabb. rewrite (E _ FU). cbn [bind]. rewrite (elements_ok dim V F VM). cbn [lift bind]. unfold eld in TR. rewrite (TR _ FU). reflexivity.
Qed.
Print Assumptions C31_aabb.
(** the loop without a tree, and equality of the two distances *)
Theorem C31_brute : forall dim V F p, valid_mesh dim V F -> length p = dim -> all_supported dim V F ->
  exists d i l, squared_distance_brute p V F = Ok (Some d, i, l) /\ closest V F p d i l.
Proof.
  intros dim V F p VM LP SP.
  assert (M : (0 < length F)%nat) by (destruct VM as (_ & _ & N & _); destruct F; cbn; [congruence|lia]).
  destruct (brute_root dim (length F) p (eld V F p) (fun e => dval p (vert_of V F e)) (fun e => lval p (vert_of V F e)) LP (eld_ok dim V F p VM LP SP) M) as (k & K & MIN & TR).
  eexists _, _, _. split; [|exact (closest_intro dim V F p k VM LP SP K MIN)].
  unfold squared_distance_brute. rewrite (elements_ok dim V F VM). cbn [lift bind]. exact TR.
Qed.
Print Assumptions C31_brute.
Theorem C31_same_distance : forall argsort dim V F p fuel, is_argsort argsort -> valid_mesh dim V F -> length p = dim -> all_supported dim V F -> (2 * length F - 1 <= fuel)%nat ->
  exists d i l i' l', squared_distance_aabb argsort fuel dim p V F = Ok (d, i, l) /\ squared_distance_brute p V F = Ok (Some d, i', l').
Proof.
  intros a dim V F p fuel A VM LP SP FU. destruct (C31_aabb a dim V F p fuel A VM LP SP FU) as (d & i & l & E1 & k1 & K1 & _ & Q1 & M1).
  destruct (C31_brute dim V F p VM LP SP) as (d' & i' & l' & E2 & k2 & K2 & _ & Q2 & M2).
  assert (d = d') by (apply Rle_antisym; [exact (M1 _ _ _ K2 Q2)|exact (M2 _ _ _ K1 Q1)]). subst d'. eauto 8.
Qed.
Print Assumptions C31_same_distance.
(** the distance to the shape: below the distance to any point of any element (segments: single points or at least the 1e-10 threshold) *)
Definition long_enough (el : list vec) : Prop :=
  match el with
  | [a; b] => a = b \/ 1/10000000000 <= sqrt (dist2 b a)
  | _ => True
  end.
Lemma vec_ext dim (x y : vec) : length x = dim -> length y = dim -> (forall j, (j < dim)%nat -> nth j x 0 = nth j y 0) -> x = y.
Proof. intros A B H. apply nth_ext with (d := 0) (d' := 0); [lia|]. intros n N. apply H. lia. Qed.
Lemma eldist_min dim p el d l x ws : length p = dim -> Forall (fun v => length v = dim) el -> supported dim el -> long_enough el ->
  squared_distance_to_element p el = Ok (d, l) -> combo dim ws el x -> d <= dist2 p x.
Proof.
  intros Lp F S LE E (Lx & Lw & Pw & Sw & X).
  destruct S as [(v & -> )|[(DD & a & b & -> )|(D3 & a & b & c & -> & ND)]].
  - destruct ws as [|w [|? ?]]; try discriminate. cbn in Sw. inversion F; subst.
    assert (x = v) by (eapply vec_ext; eauto; intros j J; rewrite (X j J); cbn; replace w with 1 by lra; ring). subst x.
    cbn in E. injection E as <- _. unfold dist2. right. clear. revert v. induction p as [|x p IH]; intros [|y v]; cbn; auto. rewrite IH. ring.
  - destruct ws as [|w [|u [|? ?]]]; try discriminate. cbn in Sw. inversion F as [|? ? La F']; subst. inversion F' as [|? ? Lb _]; subst. inversion Pw as [|? ? W0 Pw']; subst. inversion Pw' as [|? ? U0 _]; subst.
    cbn [long_enough] in LE. destruct DD as [DD|DD].
    + rewrite DD in *. destruct (len2 _ DD) as (p0 & p1 & ->). destruct (len2 _ La) as (a0 & a1 & ->). destruct (len2 _ Lb) as (b0 & b1 & ->). destruct (len2 _ Lx) as (x0 & x1 & ->).
      cbn [squared_distance_to_element v2_of] in E. unfold sqd_segment2 in E.
      assert (H : pad (a0,a1) = pad (b0,b1) \/ 1/10000000000 <= norm3 (sub3 (pad (b0,b1)) (pad (a0,a1)))).
      { destruct LE as [Q|Q]; [left; congruence|right]. unfold norm3. replace (dot3 _ _) with (dist2 [b0;b1] [a0;a1]); auto. unfold dist2, dot3, sub3, pad, Vec.X, Y, Zc; cbn; ring. }
      pose proof (sqd_segment3_ok (pad (p0,p1)) _ _ H) as K. destruct (sqd_segment3 _ _ _) as [q [y z]]. injection E as <- _. destruct K as (_ & _ & _ & _ & K).
      specialize (K w u W0 U0 ltac:(lra)). pose proof (X 0%nat ltac:(lia)) as X0. pose proof (X 1%nat ltac:(lia)) as X1. cbn in X0, X1. subst x0 x1.
      eapply Rle_trans; [exact K|]. right. unfold d2, conv2, dist2, pad, dot3, sub3, add3, scal3, Vec.X, Y, Zc; cbn; ring.
    + rewrite DD in *. destruct (len3 _ DD) as (p0 & p1 & p2 & ->). destruct (len3 _ La) as (a0 & a1 & a2 & ->). destruct (len3 _ Lb) as (b0 & b1 & b2 & ->). destruct (len3 _ Lx) as (x0 & x1 & x2 & ->).
      cbn [squared_distance_to_element v2_of v3_of] in E.
      assert (H : (a0,a1,a2) = (b0,b1,b2) \/ 1/10000000000 <= norm3 (sub3 (b0,b1,b2) (a0,a1,a2))).
      { destruct LE as [Q|Q]; [left; congruence|right]. unfold norm3. replace (dot3 _ _) with (dist2 [b0;b1;b2] [a0;a1;a2]); auto. unfold dist2, dot3, sub3, Vec.X, Y, Zc; cbn; ring. }
      pose proof (sqd_segment3_ok (p0,p1,p2) _ _ H) as K. destruct (sqd_segment3 _ _ _) as [q [y z]]. injection E as <- _. destruct K as (_ & _ & _ & _ & K).
      specialize (K w u W0 U0 ltac:(lra)). pose proof (X 0%nat ltac:(lia)) as X0. pose proof (X 1%nat ltac:(lia)) as X1. pose proof (X 2%nat ltac:(lia)) as X2. cbn in X0, X1, X2. subst x0 x1 x2.
      eapply Rle_trans; [exact K|]. right. unfold d2, conv2, dist2, dot3, sub3, add3, scal3, Vec.X, Y, Zc; cbn; ring.
  - destruct ws as [|w [|u [|t [|? ?]]]]; try discriminate. cbn in Sw. inversion F as [|? ? La F']; subst. inversion F' as [|? ? Lb F'']; subst. inversion F'' as [|? ? Lc _]; subst.
    inversion Pw as [|? ? W0 Pw']; subst. inversion Pw' as [|? ? U0 Pw'']; subst. inversion Pw'' as [|? ? T0 _]; subst. rewrite D3 in *.
    destruct (len3 _ D3) as (p0 & p1 & p2 & ->). destruct (len3 _ La) as (a0 & a1 & a2 & ->). destruct (len3 _ Lb) as (b0 & b1 & b2 & ->). destruct (len3 _ Lc) as (c0 & c1 & c2 & ->). destruct (len3 _ Lx) as (x0 & x1 & x2 & ->).
    cbn [squared_distance_to_element v3_of] in E. pose proof (sqd_triangle_ok (p0,p1,p2) (a0,a1,a2) (b0,b1,b2) (c0,c1,c2) (ND _ _ _ eq_refl eq_refl eq_refl)) as H.
    destruct (sqd_triangle _ _ _ _) as [q [[y z] s]]. injection E as <- _. destruct H as (_ & _ & _ & _ & _ & K). specialize (K w u t W0 U0 T0 ltac:(lra)).
    pose proof (X 0%nat ltac:(lia)) as X0. pose proof (X 1%nat ltac:(lia)) as X1. pose proof (X 2%nat ltac:(lia)) as X2. cbn in X0, X1, X2. subst x0 x1 x2.
    eapply Rle_trans; [exact K|]. right. unfold d2, conv3, dist2, dot3, sub3, add3, scal3, Vec.X, Y, Zc; cbn; ring.
Qed.
Theorem C31_distance_to_shape : forall argsort dim V F p fuel d i l, is_argsort argsort -> valid_mesh dim V F -> length p = dim -> all_supported dim V F -> (2 * length F - 1 <= fuel)%nat ->
  (forall e, (e < length F)%nat -> long_enough (vert_of V F e)) -> squared_distance_aabb argsort fuel dim p V F = Ok (d, i, l) ->
  (exists k x, (k < length F)%nat /\ i = Z.of_nat k /\ combo dim l (vert_of V F k) x /\ d = dist2 p x) /\
  (forall e ws x, (e < length F)%nat -> combo dim ws (vert_of V F e) x -> d <= dist2 p x).
Proof.
  intros a dim V F p fuel d i l A VM LP SP FU LE E. destruct (C31_aabb a dim V F p fuel A VM LP SP FU) as (d0 & i0 & l0 & E1 & k & K & EK & Q & M).
  rewrite E in E1. injection E1 as <- <- <-. split.
  - destruct (eldist_contract dim p _ LP (vert_len dim V F VM k K) (SP k K)) as (d' & l' & x & Q' & C & D). rewrite Q in Q'. injection Q' as <- <-. eauto 8.
  - intros e ws x EL C. destruct (eldist_contract dim p _ LP (vert_len dim V F VM e EL) (SP e EL)) as (d' & l' & x' & Q' & _).
    eapply Rle_trans; [exact (M e d' l' EL Q')|]. exact (eldist_min dim p _ d' l' x ws LP (vert_len dim V F VM e EL) (SP e EL) (LE e EL) Q' C).
Qed.
Print Assumptions C31_distance_to_shape.
Theorem C31_unsigned : forall argsort dim V F p fuel, is_argsort argsort -> valid_mesh dim V F -> length p = dim -> all_supported dim V F -> (2 * length F - 1 <= fuel)%nat ->
  exists d i l, unsigned_distance argsort fuel dim p V F = Ok (sqrt d, i, l) /\ closest V F p d i l.
Proof.
  intros a dim V F p fuel A VM LP SP FU. destruct (C31_aabb a dim V F p fuel A VM LP SP FU) as (d & i & l & E & C). exists d, i, l. split; auto. unfold unsigned_distance. rewrite E. reflexivity.
Qed.
Print Assumptions C31_unsigned.
Example C31_nonvacuous : let V := [[0;0;0]; [1;0;0]; [0;1;0]] in let F := [[0;1;2]%Z] in valid_mesh 3 V F /\ all_supported 3 V F /\ forall e, (e < length F)%nat -> long_enough (vert_of V F e).
Proof.
  cbv zeta. split; [repeat split; try lia; try congruence; fall; cbn; lia|]. split.
  - intros [|e] E; [|cbn in E; lia]. right. right. split; [reflexivity|]. eexists _, _, _. split; [reflexivity|]. intros a b c A B C. cbn in A, B, C. injection A as <-. injection B as <-. injection C as <-.
    unfold cross3, sub3, zero3, Vec.X, Y, Zc; cbn. intros Q. injection Q. intros. lra.
  - intros [|e] E; [|cbn in E; lia]. exact I.
Qed.

(** approximate_hausdorff_distance: the maximum, over the vertices of both meshes, of the distance to the other mesh *)
Definition vertex_distance (V : list vec) (F : list (list Z)) (v : vec) (r : R) : Prop := exists d i l, closest V F v d i l /\ r = sqrt d.
Lemma one_sided_ok argsort dim V F T fuel ps : is_argsort argsort -> valid_mesh dim V F -> all_supported dim V F -> (2 * length F - 1 <= fuel)%nat ->
  bvh dim (length F) (vert_of V F) T -> (forall j nd, nth_error T j = Some nd -> length (nC nd) = dim /\ length (nW nd) = dim) -> Forall (fun v => length v = dim) ps ->
  forall hd, exists h, one_sided T (map (map (fun i => nth (Z.to_nat i) V [])) F) fuel ps hd = Ok h /\ hd <= h /\
    (forall p, In p ps -> exists r, vertex_distance V F p r /\ r <= h) /\ (h = hd \/ exists p, In p ps /\ vertex_distance V F p h).
Proof.
  intros A VM SP FU B LN. assert (M : (0 < length F)%nat) by (destruct VM as (_ & _ & N & _); destruct F; cbn; [congruence|lia]).
  induction ps as [|p ps IH]; intros LPs hd; [exists hd; repeat split; [lra|intros ? []|now left]|].
  inversion LPs as [|? ? LP LPs']; subst. cbn [one_sided].
  destruct (hloop_root (length p) (length F) (vert_of V F) T p (eld V F p) (fun e => dval p (vert_of V F e)) (fun e => lval p (vert_of V F e)) B LN eq_refl
    (eld_ok _ V F p VM eq_refl SP) (eld_hull _ V F p VM eq_refl SP) hd M) as (b & HL & k & K & MIN & EB).
  unfold eld in HL. rewrite (HL _ FU). cbn [bind]. rewrite EB. cbn [bind].
  destruct (IH LPs' (Rmax hd (sqrt (dval p (vert_of V F k))))) as (h & E & H1 & H2 & H3). exists h. split; auto.
  pose proof (Rmax_l hd (sqrt (dval p (vert_of V F k)))). pose proof (Rmax_r hd (sqrt (dval p (vert_of V F k)))).
  assert (VD : vertex_distance V F p (sqrt (dval p (vert_of V F k)))) by (eexists _, _, _; split; [exact (closest_intro _ V F p k VM eq_refl SP K MIN)|reflexivity]).
  split; [lra|]. split.
  - intros q [ <- |I]; [eexists; split; [exact VD|lra]|auto].
  - destruct H3 as [H3|(q & I & Q)]; [|right; exists q; split; [now right|auto]]. unfold Rmax in H3. destruct (Rle_dec hd (sqrt (dval p (vert_of V F k)))); [|now left].
    right. exists p. split; [now left|]. rewrite H3. exact VD.
Qed.
Theorem C31_hausdorff : forall argsort dim V1 F1 V2 F2 fuel, is_argsort argsort -> valid_mesh dim V1 F1 -> valid_mesh dim V2 F2 -> all_supported dim V1 F1 -> all_supported dim V2 F2 ->
  (2 * length F1 - 1 <= fuel)%nat -> (2 * length F2 - 1 <= fuel)%nat ->
  exists h, approximate_hausdorff_distance argsort fuel dim V1 F1 V2 F2 = Ok h /\
    (forall v, In v V1 -> exists r, vertex_distance V2 F2 v r /\ r <= h) /\ (forall v, In v V2 -> exists r, vertex_distance V1 F1 v r /\ r <= h) /\
    ((exists v, In v V1 /\ vertex_distance V2 F2 v h) \/ (exists v, In v V2 /\ vertex_distance V1 F1 v h)).
Proof.
  intros a dim V1 F1 V2 F2 fuel A VM1 VM2 S1 S2 FU1 FU2.
  destruct (init_ok a dim V1 F1 A VM1) as (T1 & E1 & B1 & LN1 & _). destruct (init_ok a dim V2 F2 A VM2) as (T2 & E2 & B2 & LN2 & _).
  assert (D1 : Forall (fun v => length v = dim) V1) by apply VM1. assert (D2 : Forall (fun v => length v = dim) V2) by apply VM2.
  destruct (one_sided_ok a dim V2 F2 T2 fuel V1 A VM2 S2 FU2 B2 LN2 D1 0) as (h1 & O1 & P1 & Q1 & R1).
  destruct (one_sided_ok a dim V1 F1 T1 fuel V2 A VM1 S1 FU1 B1 LN1 D2 h1) as (h & O2 & P2 & Q2 & R2).
  exists h. split.
  - unfold approximate_hausdorff_distance. rewrite (E1 _ FU1), (E2 _ FU2). cbn [bind]. rewrite (elements_ok dim V1 F1 VM1), (elements_ok dim V2 F2 VM2). cbn [lift bind]. rewrite O1. cbn [bind]. exact O2.
  - split; [|split; [auto|]].
    + intros v I. destruct (Q1 v I) as (r & VD & L). exists r. split; auto. lra.
    + destruct R2 as [ -> |R2]; [|now right]. left. destruct R1 as [R1|R1]; auto.
      destruct V1 as [|v V1']; [destruct VM1 as (_ & N & _); congruence|]. exists v. split; [now left|]. destruct (Q1 v (or_introl eq_refl)) as (r & VD & L).
      assert (r = h1); [|congruence]. destruct VD as (d & i & l & _ & ->). pose proof (sqrt_pos d). lra.
Qed.
Print Assumptions C31_hausdorff.

(** *** C33 *)
(** [tt] stands for triangle_triangle_distance; what is used of it: its value is the distance between two points of the two elements *)
Definition attained (dim : nat) (tt : list vec -> list vec -> R) (V1 : list vec) (F1 : list (list Z)) (V2 : list vec) (F2 : list (list Z)) : Prop :=
  forall a b, (a < length F1)%nat -> (b < length F2)%nat -> exists w1 x w2 y, combo dim w1 (vert_of V1 F1 a) x /\ combo dim w2 (vert_of V2 F2 b) y /\ tt (vert_of V1 F1 a) (vert_of V2 F2 b) = sqrt (dist2 x y).
Theorem C33_minimum_distance : forall argsort tt dim V1 F1 V2 F2 fuel, is_argsort argsort -> valid_mesh dim V1 F1 -> valid_mesh dim V2 F2 -> attained dim tt V1 F1 V2 F2 ->
  ((2 * length F1 - 1) * (2 * length F2 - 1) <= fuel)%nat ->
  exists a b, (a < length F1)%nat /\ (b < length F2)%nat /\
    minimum_distance argsort tt fuel dim V1 F1 V2 F2 = Ok (Some (tt (vert_of V1 F1 a) (vert_of V2 F2 b))) /\
    forall a' b', (a' < length F1)%nat -> (b' < length F2)%nat -> tt (vert_of V1 F1 a) (vert_of V2 F2 b) <= tt (vert_of V1 F1 a') (vert_of V2 F2 b').
Proof.
  intros s tt dim V1 F1 V2 F2 fuel A VM1 VM2 AT FU.
  destruct (init_ok s dim V1 F1 A VM1) as (T1 & E1 & B1 & LN1 & _). destruct (init_ok s dim V2 F2 A VM2) as (T2 & E2 & B2 & LN2 & _).
  assert (M1 : (0 < length F1)%nat) by (destruct VM1 as (_ & _ & N & _); destruct F1; cbn; [congruence|lia]).
  assert (M2 : (0 < length F2)%nat) by (destruct VM2 as (_ & _ & N & _); destruct F2; cbn; [congruence|lia]).
  set (els1 := map (map (fun i => nth (Z.to_nat i) V1 [])) F1). set (els2 := map (map (fun i => nth (Z.to_nat i) V2 [])) F2).
  destruct (mloop_root dim (length F1) (length F2) (vert_of V1 F1) (vert_of V2 F2) T1 T2
     (fun i j => do a <- lift IndexError (getZ els1 i); do b <- lift IndexError (getZ els2 j); Ok (tt a b)) (fun a b => tt (vert_of V1 F1 a) (vert_of V2 F2 b))) as (a & b & HA & HB & MIN & E); auto.
  - apply VM1.
  - intros a b HA HB. rewrite !getZ_nat. rewrite (nth_error_nth' els1 []) by (unfold els1; rewrite map_length; auto). cbn [lift bind].
    rewrite (nth_error_nth' els2 []) by (unfold els2; rewrite map_length; auto). cbn [lift bind]. unfold els1, els2. rewrite <- !vert_of_els. reflexivity.
  - exists a, b. split; auto. split; auto. split; [|exact MIN].
    unfold minimum_distance. rewrite E1 by nia. rewrite E2 by nia. cbn [bind]. rewrite (elements_ok dim V1 F1 VM1), (elements_ok dim V2 F2 VM2). cbn [lift bind]. apply E. exact FU.
Qed.
Print Assumptions C33_minimum_distance.
(** the gap used for pruning is a lower bound for the distance of any two points of the boxes *)
Theorem C33_gap : forall dim c1 w1 c2 w2 x y, (0 < dim)%nat -> length c1 = dim -> length w1 = dim -> length c2 = dim -> length w2 = dim -> length x = dim -> length y = dim ->
  in_box dim c1 w1 x -> in_box dim c2 w2 y -> exists g, box_gap c1 w1 c2 w2 = Some g /\ g <= sqrt (dist2 x y).
Proof. exact gap_le. Qed.
Print Assumptions C33_gap.
(** the contract can be met: the distance of the first vertices *)
Example C33_nonvacuous : let V := [[0;0;0]; [1;0;0]; [0;1;0]] in let F := [[0;1;2]%Z] in
  valid_mesh 3 V F /\ attained 3 (fun a b => sqrt (dist2 (nth 0 a []) (nth 0 b []))) V F V F.
Proof.
  cbv zeta. split; [repeat split; try lia; try congruence; fall; cbn; lia|].
  intros [|a] [|b] A B; cbn in A, B; try lia. exists [1;0;0], [0;0;0], [1;0;0], [0;0;0].
  assert (C : combo 3 [1;0;0] (vert_of [[0;0;0]; [1;0;0]; [0;1;0]] [[0;1;2]%Z] 0) [0;0;0]).
  { split; [reflexivity|]. split; [reflexivity|]. split; [repeat (apply Forall_cons; [lra|]); apply Forall_nil|]. split; [cbn; ring|]. intros j J. destruct j as [|[|[|j]]]; cbn; try lra; lia. }
  split; [exact C|]. split; [exact C|]. reflexivity.
Qed.

(** *** C34: with the default add_to_queue, accepting any internal root raises TypeError; only a single visit can succeed *)
Theorem C34_default_refuted : forall (S : Type) (visit : S -> Z -> node -> bool -> S * bool) T r st fuel,
  nth_error T 0 = Some r -> snd (nCH r) <> (-1)%Z -> snd (visit st 0%Z r false) = true -> traverse_default visit T (Datatypes.S fuel) [0%Z] st = Err TypeError.
Proof.
  intros S visit T r st fuel N L G. cbn [traverse_default]. change 0%Z with (Z.of_nat 0) at 1. rewrite getZ_nat, N. cbn [lift bind].
  destruct (Z.eqb_spec (snd (nCH r)) (-1)); [contradiction|]. destruct (visit st 0%Z r false) as [st' go]. cbn in G. subst go. reflexivity.
Qed.
Print Assumptions C34_default_refuted.
Theorem C34_default_single : forall (S : Type) (visit : S -> Z -> node -> bool -> S * bool) T r st fuel,
  nth_error T 0 = Some r -> (snd (nCH r) = (-1)%Z \/ snd (visit st 0%Z r false) = false) ->
  traverse_default visit T (Datatypes.S fuel) [0%Z] st = Ok (fst (visit st 0%Z r (snd (nCH r) =? -1)%Z)).
Proof.
  intros S visit T r st fuel N H. cbn [traverse_default]. change 0%Z with (Z.of_nat 0) at 1. rewrite getZ_nat, N. cbn [lift bind].
  destruct (Z.eqb_spec (snd (nCH r)) (-1)) as [Q|Q].
  - destruct (visit st 0%Z r true) as [st' go]. rewrite andb_false_r. destruct fuel; reflexivity.
  - destruct H as [H|H]; [contradiction|]. destruct (visit st 0%Z r false) as [st' go]. cbn in H. subst go. cbn. destruct fuel; reflexivity.
Qed.
Print Assumptions C34_default_single.
