(** C95: ray_mesh_intersect without Embree returns the first triangle along each ray.  Code: RayMeshModel.v, AabbModel.v, RayModel.v.
    Vocabulary: AabbSpec.v ([bvh]), AabbTreeProofs.v ([vert_of V F e], [valid_mesh]), RayProofs.v ([tri_point v0 v1 v2 u v], the point of
    barycentric coordinates (1-u-v,u,v)); [row3] turns a point into a row. *)
From Coq Require Import Reals Lra Psatz ZArith List Bool Permutation Lia Arith.
From Verif Require Import NumpyModel TopoModel PyExn Vec GeomModel GeomProofs Geom2Proofs LoopsModel SubdivModel SubdivProofs Subdiv2Proofs SqDistModel SqDistProofs AabbModel AabbSpec AabbProofs AabbBuildProofs AabbTreeProofs AabbQueryProofs AabbQuery2Proofs P_Aabb RayModel RayProofs RayMeshModel RayMeshProofs.
Import ListNotations.
Open Scope R_scope.

(** corner k of triangle e *)
Definition corner (V : list vec) (F : list (list Z)) (e k : nat) : vec3 :=
  let v := nth (Z.to_nat (nth k (nth e F []) 0%Z)) V [] in (nth 0 v 0, nth 1 v 0, nth 2 v 0).
Definition triangles (V : list vec) (F : list (list Z)) : Prop := valid_mesh 3 V F /\ Forall (fun f => length f = 3%nat) F.
(** the point o + t d lies on triangle e and is x *)
Definition meets (V : list vec) (F : list (list Z)) (o d : vec3) (e : nat) (t : R) (x : vec3) : Prop :=
  (e < length F)%nat /\ x = add3 o (scal3 t d) /\
  exists u v, 0 <= u /\ 0 <= v /\ u + v <= 1 /\ x = tri_point (corner V F e 0) (corner V F e 1) (corner V F e 2) u v.
(** six times the volume spanned by triangle e and the direction reaches the threshold of ray_triangle_intersect *)
Definition facing (V : list vec) (F : list (list Z)) (d : vec3) (e : nat) : Prop :=
  1/1000000 <= Rabs (dot3 (sub3 (corner V F e 1) (corner V F e 0)) (cross3 d (sub3 (corner V F e 2) (corner V F e 0)))).
(** l are the barycentric coordinates of x in triangle e *)
Definition coordinates (V : list vec) (F : list (list Z)) (e : nat) (l x : vec3) : Prop :=
  0 <= X l /\ 0 <= Y l /\ 0 <= Zc l /\ X l + Y l + Zc l = 1 /\
  x = add3 (add3 (scal3 (X l) (corner V F e 0)) (scal3 (Y l) (corner V F e 1))) (scal3 (Zc l) (corner V F e 2)).
Definition first_hit (V : list vec) (F : list (list Z)) (o d : vec3) (r : rstate) : Prop :=
  let '(t, i, l) := r in
  (t = None /\ i = (-1)%Z /\ l = (0,0,0) /\ forall e s x, facing V F d e -> meets V F o d e s x -> s < 0) \/
  (exists s e x, t = Some s /\ i = Z.of_nat e /\ 0 <= s /\ meets V F o d e s x /\ coordinates V F e l x /\
     forall e' s' x', facing V F d e' -> meets V F o d e' s' x' -> 0 <= s' -> s <= s').
(** no tree, or a tree over the triangles (such as initialize_aabbtree's, C30) *)
Definition tree_ok (V : list vec) (F : list (list Z)) (tree : option (list node)) : Prop :=
  match tree with
  | None => True
  | Some T => bvh 3 (length F) (vert_of V F) T /\ forall j nd, nth_error T j = Some nd -> length (nC nd) = 3%nat /\ length (nW nd) = 3%nat
  end.

Lemma corners_ok V F e : triangles V F -> (e < length F)%nat ->
  corners V F (Z.of_nat e) = Ok (corner V F e 0, corner V F e 1, corner V F e 2) /\
  vert_of V F e = [row3 (corner V F e 0); row3 (corner V F e 1); row3 (corner V F e 2)].
Proof.
  intros ((_ & _ & _ & VD & FV) & F3) E. unfold corners. rewrite getZ_nat, (nth_error_nth' F []) by auto. cbn [lift bind].
  rewrite Forall_forall in FV, F3, VD. pose proof (nth_In F [] E) as I. specialize (FV _ I). specialize (F3 _ I).
  unfold corner, vert_of. destruct (nth e F []) as [|a [|b [|c [|? ?]]]]; try discriminate. 
  inversion FV as [|? ? A FV1]; subst. inversion FV1 as [|? ? B FV2]; subst. inversion FV2 as [|? ? C _]; subst.
  change (getZ [a;b;c] 0) with (Some a). change (getZ [a;b;c] 1) with (Some b). change (getZ [a;b;c] 2) with (Some c). cbn [lift bind nth map].
  rewrite (getZ_ok V a []), (getZ_ok V b []), (getZ_ok V c []) by auto. cbn [lift bind].
  assert (R : forall i, (0 <= i < Z.of_nat (length V))%Z -> length (nth (Z.to_nat i) V []) = 3%nat) by (intros i Hi; apply VD, nth_In; lia).
  destruct (row3_of _ (R a A)) as ([[a0 a1] a2] & EA). destruct (row3_of _ (R b B)) as ([[b0 b1] b2] & EB). destruct (row3_of _ (R c C)) as ([[c0 c1] c2] & EC).
  rewrite EA, EB, EC, !v3_row. cbn [lift]. split; reflexivity.
Qed.
Lemma bary_coordinates V F e o d t h : ray_triangle_intersect o d (corner V F e 0) (corner V F e 1) (corner V F e 2) false = Some (t, h) ->
  coordinates V F e (bary3 h (corner V F e 0) (corner V F e 1) (corner V F e 2)) h.
Proof.
  intros H. pose proof (rt_det _ _ _ _ _ _ _ H) as D. destruct (rt_sound _ _ _ _ _ _ _ _ H) as (_ & _ & u & v & U & W & UV & E). unfold coordinates.
  set (a := corner V F e 0) in *. set (b := corner V F e 1) in *. set (c := corner V F e 2) in *. clearbody a b c.
  enough (B : bary3 h a b c = (1 - u - v, u, v)) by (rewrite B; unfold X, Y, Zc; cbn [fst snd]; repeat split; try lra; exact E).
  assert (NZ : dot3 (cross3 (sub3 b a) (sub3 c a)) (cross3 (sub3 b a) (sub3 c a)) <> 0).
  { intros Q. set (N := cross3 (sub3 b a) (sub3 c a)) in *. destruct N as [[n0 n1] n2] eqn:EN. unfold dot3, X, Y, Zc in Q; cbn [fst snd] in Q.
    assert (n0 = 0) by nra. assert (n1 = 0) by nra. assert (n2 = 0) by nra. subst n0 n1 n2.
    assert (DZ : dot3 (sub3 b a) (cross3 d (sub3 c a)) = - dot3 d N) by (unfold N, dot3, cross3, sub3, X, Y, Zc; cbn [fst snd]; ring).
    rewrite EN in DZ. assert (dot3 d (0,0,0) = 0) by (unfold dot3, X, Y, Zc; cbn [fst snd]; ring). rewrite DZ, H0, Ropp_0, Rabs_R0 in D. lra. }
  subst h. unfold bary3. cbv zeta. set (N2 := dot3 (cross3 (sub3 b a) (sub3 c a)) (cross3 (sub3 b a) (sub3 c a))) in *.
  assert (G : dot3 (cross3 (sub3 b a) (sub3 (tri_point a b c u v) a)) (cross3 (sub3 b a) (sub3 c a)) = v * N2)
    by (unfold N2, tri_point, dot3, cross3, add3, scal3, sub3, X, Y, Zc; cbn [fst snd]; ring).
  assert (G' : dot3 (cross3 (sub3 (tri_point a b c u v) a) (sub3 c a)) (cross3 (sub3 b a) (sub3 c a)) = u * N2)
    by (unfold N2, tri_point, dot3, cross3, add3, scal3, sub3, X, Y, Zc; cbn [fst snd]; ring).
  rewrite G, G'. replace (v * N2 / N2) with v by (field; auto). replace (u * N2 / N2) with u by (field; auto).
  reflexivity.
Qed.
Lemma one_ray V F T o d : triangles V F -> tree_ok V F (Some T) ->
  exists r, (forall fuel, (2 * length F - 1 <= fuel)%nat -> rtraverse V F T (row3 o) (row3 d) fuel [0%Z] rstart = Ok r) /\ first_hit V F o d r.
Proof.
  intros VM (BV & LN). assert (M : (0 < length F)%nat) by (destruct VM as ((_ & _ & N & _) & _); destruct F; cbn; [congruence|lia]).
  destruct (rtraverse_root V F T o d BV LN (fun e => (corner V F e 0, corner V F e 1, corner V F e 2)) (fun e K => proj1 (corners_ok V F e VM K)) (fun e K => proj2 (corners_ok V F e VM K)) M) as (r & E & U1 & U2 & U3).
  - exists r. split; auto. unfold hitk, baryk in *.
    assert (HIT : forall e s x, facing V F d e -> meets V F o d e s x -> 0 <= s -> exists x', In (Z.of_nat e) (map Z.of_nat (seq 0 (length F))) /\ ray_triangle_intersect o d (corner V F e 0) (corner V F e 1) (corner V F e 2) false = Some (s, x')).
    { intros e s x FA (EL & EX & u & v & P0 & P1 & P2 & EX') S. exists (tri_point (corner V F e 0) (corner V F e 1) (corner V F e 2) u v). split; [apply in_map, in_seq; lia|].
      destruct (rt_complete o d (corner V F e 0) (corner V F e 1) (corner V F e 2) s u v FA P0 P1 P2 ltac:(congruence)) as [_ ->].
      destruct Rlt_dec; [lra|reflexivity]. }
    destruct U3 as [ -> |(e & s & x & K & _ & H & ->)].
    + left. repeat split. intros e s x FA ME. destruct (Rlt_dec s 0) as [|NS]; auto. exfalso.
      destruct (HIT e s x FA ME ltac:(lra)) as (x' & I & H). exact (U1 e s x' I H).
    + right. exists s, e, x. split; [reflexivity|]. split; [reflexivity|]. destruct (rt_sound _ _ _ _ _ _ _ _ H) as (EX & SP & W). split; [apply SP; reflexivity|].
      split; [split; [exact K|split; [exact EX|exact W]]|]. split; [eapply bary_coordinates; exact H|].
      intros e' s' x' FA ME S'. destruct (HIT e' s' x' FA ME S') as (x2 & I & H'). exact (U1 e' s' x2 I H').
Qed.

(** every ray gets one row: the nearest triangle in front of the origin, among those not below the threshold.  Partial: a triangle
    below the threshold can be skipped (refutations below). *)
Theorem C95_first_hit_partial : forall argsort fuel os ds V F tree, is_argsort argsort -> triangles V F -> tree_ok V F tree -> (2 * length F - 1 <= fuel)%nat -> length os = length ds ->
  exists rows, ray_mesh_intersect argsort fuel (map row3 os) (map row3 ds) V F tree = Ok rows /\ length rows = length os /\
    forall i o d r, nth_error os i = Some o -> nth_error ds i = Some d -> nth_error rows i = Some r -> first_hit V F o d r.
Proof.
  intros argsort fuel os ds V F tree A VM TK FU LE. unfold ray_mesh_intersect.
  assert (TT : exists T, (match tree with Some T => Ok T | None => initialize_aabbtree argsort fuel 3 V F end) = Ok T /\ tree_ok V F (Some T)).
  { destruct tree as [T|]; [eauto|]. destruct (init_ok argsort 3 V F A (proj1 VM)) as (T & E & B & LN & _). exists T. split; [exact (E _ FU)|split; [exact B|exact LN]]. }
  destruct TT as (T & -> & TK'). cbn [bind]. clear TK tree.
  revert ds LE. induction os as [|o os IH]; intros [|d ds] LE; try discriminate; cbn [map rays].
  - exists []. repeat split. intros [|?]; discriminate.
  - destruct (one_ray V F T o d VM TK') as (r & -> & H); [|exact FU]. destruct (IH ds ltac:(now injection LE)) as (rows & -> & L & R). cbn [bind].
    exists (r :: rows). split; [reflexivity|]. split; [cbn; now rewrite L|]. intros [|i] o' d' r' E1 E2 E3; cbn in *.
    + injection E1 as <-. injection E2 as <-. injection E3 as <-. exact H.
    + eauto.
Qed.
Print Assumptions C95_first_hit_partial.
(** where every triangle that the ray meets reaches the threshold: a row says miss exactly when the ray misses the mesh *)
Theorem C95_miss : forall V F o d t i l, first_hit V F o d (t, i, l) -> (forall e s x, meets V F o d e s x -> facing V F d e) ->
  (t = None <-> ~ exists e s x, 0 <= s /\ meets V F o d e s x).
Proof.
  intros V F o d t i l H FA. split.
  - intros -> (e & s & x & S & M). destruct H as [(_ & _ & _ & H)|(s' & e' & x' & Q & _)]; [|discriminate]. specialize (H e s x (FA _ _ _ M) M). lra.
  - intros N. destruct H as [(-> & _)|(s & e & x & _ & _ & S & M & _)]; auto. exfalso. apply N. eauto.
Qed.
Print Assumptions C95_miss.
(** the reported parameter does not depend on the tree, nor on the way ties are sorted when building it *)
Lemma hits_face V F o d r : first_hit V F o d r -> (forall e s x, meets V F o d e s x -> facing V F d e) -> forall r', first_hit V F o d r' -> fst (fst r) = fst (fst r').
Proof.
  destruct r as [[t i] l]. intros H FA [[t' i'] l'] H'. cbn [fst].
  destruct H as [(-> & _ & _ & H)|(s & e & x & -> & _ & S & M & _ & H)], H' as [(-> & _ & _ & H')|(s' & e' & x' & -> & _ & S' & M' & _ & H')]; auto.
  - exfalso. specialize (H _ _ _ (FA _ _ _ M') M'). lra.
  - exfalso. specialize (H' _ _ _ (FA _ _ _ M) M). lra.
  - f_equal. apply Rle_antisym; [exact (H _ _ _ (FA _ _ _ M') M' S')|exact (H' _ _ _ (FA _ _ _ M) M S)].
Qed.
Theorem C95_tree_independent : forall a a' fuel fuel' os ds V F tree tree' rows rows', is_argsort a -> is_argsort a' -> triangles V F -> tree_ok V F tree -> tree_ok V F tree' ->
  (2 * length F - 1 <= fuel)%nat -> (2 * length F - 1 <= fuel')%nat -> length os = length ds ->
  (forall o d e s x, In o os -> In d ds -> meets V F o d e s x -> facing V F d e) ->
  ray_mesh_intersect a fuel (map row3 os) (map row3 ds) V F tree = Ok rows -> ray_mesh_intersect a' fuel' (map row3 os) (map row3 ds) V F tree' = Ok rows' ->
  map (fun r => fst (fst r)) rows = map (fun r => fst (fst r)) rows'.
Proof.
  intros a a' fuel fuel' os ds V F tree tree' rows rows' A A' VM TK TK' FU FU' LE FA E E'.
  destruct (C95_first_hit_partial a fuel os ds V F tree A VM TK FU LE) as (r1 & E1 & L1 & H1). rewrite E in E1. injection E1 as <-.
  destruct (C95_first_hit_partial a' fuel' os ds V F tree' A' VM TK' FU' LE) as (r2 & E2 & L2 & H2). rewrite E' in E2. injection E2 as <-.
  apply (nth_ext _ _ None None); [rewrite (map_length _ rows), (map_length _ rows'), L1, L2; reflexivity|]. rewrite (map_length _ rows). intros i I.
  destruct (nth_error os i) as [o|] eqn:EO; [|apply nth_error_None in EO; lia]. destruct (nth_error ds i) as [d|] eqn:ED; [|apply nth_error_None in ED; lia].
  destruct (nth_error rows i) as [r|] eqn:ER; [|apply nth_error_None in ER; lia]. destruct (nth_error rows' i) as [r'|] eqn:ER'; [|apply nth_error_None in ER'; lia].
  rewrite (nth_error_nth (map (fun r => fst (fst r)) rows) i None (x := fst (fst r))) by (apply (map_nth_error (fun r : rstate => fst (fst r))); exact ER).
  rewrite (nth_error_nth (map (fun r => fst (fst r)) rows') i None (x := fst (fst r'))) by (apply (map_nth_error (fun r : rstate => fst (fst r))); exact ER').
  eapply hits_face; eauto. intros e s x. apply FA; eapply nth_error_In; eauto.
Qed.
Print Assumptions C95_tree_independent.
(** a mesh without triangles is an AssertionError, also when there are no rays; fewer directions than origins an IndexError *)
Theorem C95_empty : forall argsort fuel pos dir V, V <> [] -> ray_mesh_intersect argsort (S fuel) pos dir V [] None = Err AssertionError.
Proof. intros a fuel pos dir V N. unfold ray_mesh_intersect. rewrite C30_empty by auto. reflexivity. Qed.
Print Assumptions C95_empty.
Theorem C95_rows_refused : forall argsort fuel os ds V F tree, is_argsort argsort -> triangles V F -> tree_ok V F tree -> (2 * length F - 1 <= fuel)%nat -> (length ds < length os)%nat ->
  ray_mesh_intersect argsort fuel (map row3 os) (map row3 ds) V F tree = Err IndexError.
Proof.
  intros argsort fuel os ds V F tree A VM TK FU LE. unfold ray_mesh_intersect.
  assert (TT : exists T, (match tree with Some T => Ok T | None => initialize_aabbtree argsort fuel 3 V F end) = Ok T /\ tree_ok V F (Some T)).
  { destruct tree as [T|]; [eauto|]. destruct (init_ok argsort 3 V F A (proj1 VM)) as (T & E & B & LN & _). exists T. split; [exact (E _ FU)|split; [exact B|exact LN]]. }
  destruct TT as (T & -> & TK'). cbn [bind]. clear TK tree.
  revert ds LE. induction os as [|o os IH]; intros [|d ds] LE; cbn in LE; try lia; cbn [map rays]; [reflexivity|].
  destruct (one_ray V F T o d VM TK') as (r & -> & H); [|exact FU]. cbn [bind]. rewrite IH by lia. reflexivity.
Qed.
Print Assumptions C95_rows_refused.

Definition V1 : list vec := [[0;0;0]; [1;0;0]; [0;1;0]; [0;0;1/2]; [1;0;1/2]; [0;1;1/2]].
Definition F1 : list (list Z) := [[0;1;2]%Z; [3;4;5]%Z].
Lemma tri1 : triangles V1 F1.
Proof. unfold V1, F1. split; [repeat split; try lia; try congruence; fall; cbn; lia|fall; reflexivity]. Qed.
Lemma det1 k d e : (e < 2)%nat -> d = (0,0,-k) -> 0 <= k -> Rabs (dot3 (sub3 (corner V1 F1 e 1) (corner V1 F1 e 0)) (cross3 d (sub3 (corner V1 F1 e 2) (corner V1 F1 e 0)))) = k.
Proof.
  intros E -> K. set (D := dot3 _ _). replace D with k; [apply Rabs_pos_eq; auto|]. unfold D. destruct e as [|[|e]]; [| |lia];
  unfold corner, V1, F1; cbn [nth]; change (Z.to_nat 0) with 0%nat; change (Z.to_nat 1) with 1%nat; change (Z.to_nat 2) with 2%nat; change (Z.to_nat 3) with 3%nat; change (Z.to_nat 4) with 4%nat; change (Z.to_nat 5) with 5%nat; cbn [nth];
  unfold dot3, cross3, sub3, X, Y, Zc; cbn [fst snd]; ring.
Qed.
Lemma meet1 k : meets V1 F1 (1/4,1/4,1) (0,0,-k) 1 (1/2/k) (1/4,1/4,1/2) \/ k = 0.
Proof.
  destruct (Req_dec k 0) as [Q|Q]; [now right|left]. split; [cbn; lia|]. split; [apply vec3_eq; unfold add3, scal3, X, Y, Zc; cbn [fst snd]; field; auto|].
  exists (1/4), (1/4). split; [lra|]. split; [lra|]. split; [lra|].
  unfold corner, V1, F1; cbn [nth]; change (Z.to_nat 3) with 3%nat; change (Z.to_nat 4) with 4%nat; change (Z.to_nat 5) with 5%nat; cbn [nth].
  apply vec3_eq; unfold tri_point, add3, scal3, X, Y, Zc; cbn [fst snd]; field.
Qed.
(** two parallel unit triangles, one above the other: from above, the upper one is reported, half way to the lower one *)
Theorem C95_example : forall argsort fuel, is_argsort argsort -> (3 <= fuel)%nat -> exists r,
  ray_mesh_intersect argsort fuel [[1/4;1/4;1]] [[0;0;-1]] V1 F1 None = Ok [r] /\ fst (fst r) = Some (1/2).
Proof.
  intros a fuel A FU. destruct (C95_first_hit_partial a fuel [(1/4,1/4,1)] [(0,0,-1)] V1 F1 None A tri1 I FU eq_refl) as (rows & E & L & H).
  destruct rows as [|r [|? ?]]; try discriminate. exists r. split; [exact E|]. specialize (H O _ _ _ eq_refl eq_refl eq_refl). destruct r as [[t i] l]. cbn [fst].
  assert (FA : forall e, (e < 2)%nat -> facing V1 F1 (0,0,-1) e) by (intros e K; unfold facing; rewrite (det1 1) by (auto; lra); lra).
  destruct (meet1 1) as [M|M]; [|lra]. replace (1/2/1) with (1/2) in M by lra.
  destruct H as [(_ & _ & _ & H)|(s & e & x & -> & _ & S & (EL & EX & u & v & U0 & W0 & UV & EX') & _ & H)]; [specialize (H _ _ _ (FA 1%nat ltac:(lia)) M); lra|].
  f_equal. specialize (H _ _ _ (FA 1%nat ltac:(lia)) M ltac:(lra)). apply Rle_antisym; auto.
  assert (ZX : Zc x = 1 - s) by (rewrite EX; unfold add3, scal3, X, Y, Zc; cbn [fst snd]; ring).
  assert (Z2 : Zc x <= 1/2); [|lra]. rewrite EX'. destruct e as [|[|e]]; [| |cbn in EL; lia];
  unfold corner, V1, F1; cbn [nth]; change (Z.to_nat 0) with 0%nat; change (Z.to_nat 1) with 1%nat; change (Z.to_nat 2) with 2%nat; change (Z.to_nat 3) with 3%nat; change (Z.to_nat 4) with 4%nat; change (Z.to_nat 5) with 5%nat; cbn [nth];
  unfold tri_point, add3, scal3, X, Y, Zc; cbn [fst snd]; lra.
Qed.
Print Assumptions C95_example.
(** the same ray with a direction of length below 1/1000000 is reported as a miss: hits depend on the length of the direction *)
Theorem C95_short_direction_refuted : forall argsort fuel k, is_argsort argsort -> (3 <= fuel)%nat -> 0 < k < 1/1000000 ->
  ray_mesh_intersect argsort fuel [[1/4;1/4;1]] [[0;0;-k]] V1 F1 None = Ok [rstart] /\ meets V1 F1 (1/4,1/4,1) (0,0,-k) 1 (1/2/k) (1/4,1/4,1/2).
Proof.
  intros a fuel k A FU K. split; [|destruct (meet1 k); auto; lra].
  destruct (init_ok a 3 V1 F1 A (proj1 tri1)) as (T & E & B & LN & _). unfold ray_mesh_intersect. rewrite (E _ FU). cbn [bind rays].
  destruct (rtraverse_root V1 F1 T (1/4,1/4,1) (0,0,-k) B LN (fun e => (corner V1 F1 e 0, corner V1 F1 e 1, corner V1 F1 e 2)) (fun e K => proj1 (corners_ok V1 F1 e tri1 K)) (fun e K => proj2 (corners_ok V1 F1 e tri1 K)) ltac:(cbn; lia)) as (r & ER & _ & _ & U3).
  - change [1/4;1/4;1] with (row3 (1/4,1/4,1)). change [0;0;-k] with (row3 (0,0,-k)). rewrite (ER _ FU). cbn [bind].
    destruct U3 as [ -> |(e & s & x & L & _ & H & _)]; [reflexivity|]. exfalso. unfold hitk in H. apply rt_det in H. rewrite (det1 k) in H by (auto; lra). lra.
Qed.
Print Assumptions C95_short_direction_refuted.
Example C95_nonvacuous : exists argsort, is_argsort argsort /\ triangles V1 F1 /\ tree_ok V1 F1 None /\ (forall e, (e < 2)%nat -> facing V1 F1 (0,0,-1) e) /\ exists t x, meets V1 F1 (1/4,1/4,1) (0,0,-1) 1 t x.
Proof.
  destruct is_argsort_satisfiable as (a & A). exists a. split; auto. split; [exact tri1|]. split; [exact I|].
  split; [intros e K; unfold facing; rewrite (det1 1) by (auto; lra); lra|]. destruct (meet1 1) as [M|M]; [eauto|lra].
Qed.
