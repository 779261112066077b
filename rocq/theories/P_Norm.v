(** C67: face normals, vertex normals, dihedral angles.  Code: NormModel.v; vocabulary: GeomSpec.v, TopoSpec.v *)
From Coq Require Import Reals Psatz Permutation.
From Verif Require Import NumpyModel TopoSpec TopoModel TopoProofs HemProofs Subdiv2Proofs.
From Verif Require Import PyExn Vec MatModel MatProofs GeomSpec GeomModel GeomProofs WindModel WindProofs NormModel P_Topo.
Open Scope R_scope.

(** ** vocabulary *)
Definition vsum3 {A} (f : A -> vec3) (l : list A) : vec3 := (sumf (fun x => X (f x)) l, sumf (fun x => Y (f x)) l, sumf (fun x => Zc (f x)) l).
Definition vsum2 {A} (f : A -> vec2) (l : list A) : vec2 := (sumf (fun x => fst (f x)) l, sumf (fun x => snd (f x)) l).
(** how many corners of t are vertex v (0 or 1 for proper triangles) *)
Definition corners_at (v : Z) (t : tri) : R := sumf (fun i => if (corner t i =? v)%Z then 1 else 0) [0; 1; 2]%nat.
Definition ends_at (v : Z) (e : Z * Z) : R := (if (fst e =? v)%Z then 1 else 0) + (if (snd e =? v)%Z then 1 else 0).
(** the edge vector turned by -90 degrees *)
Definition enormal (V : Z -> vec2) (e : Z * Z) : vec2 := (snd (V (snd e)) - snd (V (fst e)), - (fst (V (snd e)) - fst (V (fst e)))).

(** ** lemmas *)
Lemma norm3_pos v : v <> zero3 -> 0 < norm3 v.
Proof.
  intro H. unfold norm3. apply sqrt_lt_R0. destruct v as [[x y] z]. unfold dot3, X, Y, Zc, zero3 in *. cbn [fst snd] in *.
  pose proof (Rle_0_sqr x) as A. pose proof (Rle_0_sqr y) as B. pose proof (Rle_0_sqr z) as C. unfold Rsqr in *.
  destruct (Req_dec x 0) as [ -> | N ]; [|pose proof (Rsqr_pos_lt x N) as D; unfold Rsqr in D; lra].
  destruct (Req_dec y 0) as [ -> | N ]; [|pose proof (Rsqr_pos_lt y N) as D; unfold Rsqr in D; lra].
  destruct (Req_dec z 0) as [ -> | N ]; [|pose proof (Rsqr_pos_lt z N) as D; unfold Rsqr in D; lra]. congruence.
Qed.
Lemma norm3_zero : norm3 zero3 = 0.
Proof. unfold norm3, dot3, zero3, X, Y, Zc. cbn. replace (0*0+0*0+0*0) with 0 by ring. apply sqrt_0. Qed.
Lemma norm3_sq v : norm3 v * norm3 v = dot3 v v.
Proof. unfold norm3. apply sqrt_sqrt. destruct v as [[x y] z]. unfold dot3, X, Y, Zc. cbn. nra. Qed.
Lemma norm2_pos v : v <> (0,0) -> 0 < norm2 v.
Proof.
  intro H. unfold norm2. apply sqrt_lt_R0. destruct v as [x y]. unfold dot2 in *. cbn [fst snd] in *.
  pose proof (Rle_0_sqr x) as A. pose proof (Rle_0_sqr y) as B. unfold Rsqr in *.
  destruct (Req_dec x 0) as [ -> | N ]; [|pose proof (Rsqr_pos_lt x N) as D; unfold Rsqr in D; lra].
  destruct (Req_dec y 0) as [ -> | N ]; [|pose proof (Rsqr_pos_lt y N) as D; unfold Rsqr in D; lra]. congruence.
Qed.
Lemma norm2_zero : norm2 (0,0) = 0.
Proof. unfold norm2, dot2. cbn. replace (0*0+0*0) with 0 by ring. apply sqrt_0. Qed.
Lemma norm2_sq v : norm2 v * norm2 v = dot2 v v.
Proof. unfold norm2. apply sqrt_sqrt. destruct v as [x y]. unfold dot2. cbn. nra. Qed.
Lemma vec3_dec (v : vec3) : v = zero3 \/ v <> zero3.
Proof.
  destruct v as [[x y] z]. destruct (Req_dec x 0), (Req_dec y 0), (Req_dec z 0); subst; auto; right; unfold zero3; congruence.
Qed.
Lemma normalize3_some v : v <> zero3 -> normalize3 v = Some (unit3 v) /\ norm3 (unit3 v) = 1 /\ scal3 (norm3 v) (unit3 v) = v.
Proof.
  intro H. pose proof (norm3_pos v H) as P. unfold normalize3. destruct Req_EM_T; [lra|]. split; [reflexivity|]. pose proof (norm3_sq v) as Q. split.
  - unfold norm3 at 1. replace (dot3 (unit3 v) (unit3 v)) with 1; [apply sqrt_1|]. unfold unit3. replace (dot3 (scal3 (/ norm3 v) v) (scal3 (/ norm3 v) v)) with (/ norm3 v * / norm3 v * dot3 v v) by (unfold dot3, scal3, X, Y, Zc; cbn; ring). rewrite <- Q. field. lra.
  - unfold unit3. apply vec3_eq; unfold scal3, X, Y, Zc; cbn; field; lra.
Qed.
Lemma normalize3_none : normalize3 zero3 = None.
Proof. unfold normalize3. destruct Req_EM_T; [reflexivity|]. exfalso. apply n. apply norm3_zero. Qed.
Lemma normalize2_some v : v <> (0,0) -> normalize2 v = Some (scal2 (/ norm2 v) v) /\ norm2 (scal2 (/ norm2 v) v) = 1 /\ scal2 (norm2 v) (scal2 (/ norm2 v) v) = v.
Proof.
  intro H. pose proof (norm2_pos v H) as P. unfold normalize2. destruct Req_EM_T; [lra|]. split; [reflexivity|]. pose proof (norm2_sq v) as Q. split.
  - unfold norm2 at 1. replace (dot2 (scal2 (/ norm2 v) v) (scal2 (/ norm2 v) v)) with (/ norm2 v * / norm2 v * dot2 v v) by (unfold dot2, scal2; cbn; ring). rewrite <- Q. replace (/ norm2 v * / norm2 v * (norm2 v * norm2 v)) with 1 by (field; lra). apply sqrt_1.
  - destruct v as [x y]. unfold scal2. cbn [fst snd]. f_equal; field; lra.
Qed.
Lemma normalize2_none : normalize2 (0,0) = None.
Proof. unfold normalize2. destruct Req_EM_T; [reflexivity|]. exfalso. apply n. apply norm2_zero. Qed.

(** ** face normals: unit, perpendicular to the face, oriented by the right hand rule; one per face *)
Theorem C67_face_normals : forall V F,
  length (per_face_normals3 V F true) = length F /\
  forall f t, nth_error F f = Some t -> fnormal V t <> zero3 ->
  exists u, nth_error (per_face_normals3 V F true) f = Some (Some u) /\ norm3 u = 1 /\
    dot3 u (sub3 (V (c1 t)) (V (c0 t))) = 0 /\ dot3 u (sub3 (V (c2 t)) (V (c0 t))) = 0 /\ dot3 u (sub3 (V (c2 t)) (V (c1 t))) = 0 /\
    0 < det3 u (sub3 (V (c1 t)) (V (c0 t))) (sub3 (V (c2 t)) (V (c0 t))).
Proof.
  intros V F. split; [apply map_length|]. intros f t Hf NZ. unfold per_face_normals3. rewrite nth_error_map, Hf. cbn [option_map].
  destruct (normalize3_some (fnormal V t) NZ) as (E & N1 & SC). change (face_normal3 V t) with (fnormal V t). rewrite E. eexists. split; [reflexivity|]. split; [exact N1|].
  pose proof (norm3_pos _ NZ) as P. unfold unit3.
  assert (forall s a, dot3 (scal3 s (fnormal V t)) a = s * dot3 (fnormal V t) a) as L by (intros; unfold dot3, scal3, X, Y, Zc; cbn; ring).
  unfold det3. rewrite !L. split; [|split; [|split]].
  - transitivity (/ norm3 (fnormal V t) * 0); [f_equal|ring]. unfold fnormal, dot3, cross3, sub3, X, Y, Zc. cbn. ring.
  - transitivity (/ norm3 (fnormal V t) * 0); [f_equal|ring]. unfold fnormal, dot3, cross3, sub3, X, Y, Zc. cbn. ring.
  - transitivity (/ norm3 (fnormal V t) * 0); [f_equal|ring]. unfold fnormal, dot3, cross3, sub3, X, Y, Zc. cbn. ring.
  - change (cross3 (sub3 (V (c1 t)) (V (c0 t))) (sub3 (V (c2 t)) (V (c0 t)))) with (fnormal V t). rewrite <- norm3_sq. replace (/ norm3 (fnormal V t) * (norm3 (fnormal V t) * norm3 (fnormal V t))) with (norm3 (fnormal V t)) by (field; lra). exact P.
Qed.
Print Assumptions C67_face_normals.

(** ** vertex normals *)
Lemma wsum3_ok (g : R * option vec3 -> vec3) l : (forall e, In e l -> exists n, snd e = Some n /\ scal3 (fst e) n = g e) -> wsum3 l = Some (vsum3 g l).
Proof.
  induction l as [|[w o] l IH]; intro H; [reflexivity|]. cbn [wsum3]. destruct (H (w, o) (or_introl eq_refl)) as (n & E & G). cbn in E, G. subst o. rewrite IH by (intros; apply H; now right). unfold vsum3. cbn [sumf]. rewrite G. reflexivity.
Qed.
Lemma wsum3_none l w : In (w, None) l -> wsum3 l = None.
Proof. induction l as [|[w' [n|]] l IH]; intro H; [destruct H| |reflexivity]. cbn. destruct H as [H|H]; [discriminate|]. rewrite (IH H). reflexivity. Qed.
Lemma wsum2_ok (g : R * option vec2 -> vec2) l : (forall e, In e l -> exists n, snd e = Some n /\ scal2 (fst e) n = g e) -> wsum2 l = Some (vsum2 g l).
Proof.
  induction l as [|[w o] l IH]; intro H; [reflexivity|]. cbn [wsum2]. destruct (H (w, o) (or_introl eq_refl)) as (n & E & G). cbn in E, G. subst o. rewrite IH by (intros; apply H; now right). unfold vsum2. cbn [sumf]. rewrite G. reflexivity.
Qed.
Lemma combine_map_r {A B} (f : A -> B) l : combine l (map f l) = map (fun x => (x, f x)) l.
Proof. induction l; cbn; congruence. Qed.
Lemma entries3_eq V F : entries3 V F = map (fun t => (c0 t, (norm3 (fnormal V t), normalize3 (fnormal V t)))) F ++ map (fun t => (c1 t, (norm3 (fnormal V t), normalize3 (fnormal V t)))) F ++ map (fun t => (c2 t, (norm3 (fnormal V t), normalize3 (fnormal V t)))) F.
Proof. unfold entries3, per_face_normals3. rewrite combine_map_r, !map_map. cbn [fst snd]. f_equal; [|f_equal]; apply map_ext; intro t; rewrite doublearea_3d; reflexivity. Qed.
Lemma sumf_filter_map {A B} (p : A -> bool) (h : A -> B) (f : B -> R) l : sumf f (map h (filter p l)) = sumf (fun x => if p x then f (h x) else 0) l.
Proof. rewrite sumf_map, sumf_filter. reflexivity. Qed.
Lemma corners_at_eq v t x : (if (c0 t =? v)%Z then x else 0) + ((if (c1 t =? v)%Z then x else 0) + (if (c2 t =? v)%Z then x else 0)) = corners_at v t * x.
Proof. destruct t as [[a b] c]. unfold corners_at, c0, c1, c2, corner. cbn. destruct (a =? v)%Z, (b =? v)%Z, (c =? v)%Z; ring. Qed.

(** the normal of a vertex is the unit vector along the area weighted sum of the normals of its faces; NaN exactly
    when that sum is zero (in particular for vertices of no face) *)
Theorem C67_vertex_normals : forall V n F, valid (Z.of_nat n) F -> (forall t, In t F -> fnormal V t <> zero3) ->
  exists N, per_vertex_normals3 V n F = Ok N /\ length N = n /\
  forall v, (v < n)%nat -> let s := vsum3 (fun t => scal3 (corners_at (Z.of_nat v) t) (fnormal V t)) F in
    (s <> zero3 -> exists u, nth_error N v = Some (Some u) /\ norm3 u = 1 /\ scal3 (norm3 s) u = s) /\
    (s = zero3 -> nth_error N v = Some None).
Proof.
  intros V n F Va ND. unfold per_vertex_normals3. rewrite entries3_eq.
  match goal with |- context [forallb ?p ?l] => assert (forallb p l = true) as -> end.
  { apply forallb_forall. intros e He. rewrite !in_app_iff, !in_map_iff in He. rewrite andb_true_iff, Z.leb_le, Z.ltb_lt. destruct He as [ (t & <- & Ht) | [ (t & <- & Ht) | (t & <- & Ht) ] ]; destruct (Va t Ht) as (A & B & C); cbn; tauto. }
  eexists. split; [reflexivity|]. split; [rewrite map_length; apply seq_length|]. intros v Hv.
  rewrite nth_error_map, (nth_error_nth' _ 0%nat) by (rewrite seq_length; lia). rewrite seq_nth by lia. cbn [option_map Nat.add].
  set (l := map snd _).
  set (g := fun e : R * option vec3 => match snd e with Some n => scal3 (fst e) n | None => zero3 end).
  assert (wsum3 l = Some (vsum3 g l)) as W.
  { apply wsum3_ok. intros e He. unfold l in He. apply in_map_iff in He as (e' & <- & He'). apply filter_In in He' as [He' _]. rewrite !in_app_iff, !in_map_iff in He'.
    unfold g. destruct He' as [ (t & <- & Ht) | [ (t & <- & Ht) | (t & <- & Ht) ] ]; cbn [fst snd]; destruct (normalize3_some _ (ND t Ht)) as (-> & _ & _); eauto. }
  assert (vsum3 g l = vsum3 (fun t => scal3 (corners_at (Z.of_nat v) t) (fnormal V t)) F) as S.
  { unfold vsum3, l. 
    assert (forall h : vec3 -> R, h zero3 = 0 -> sumf (fun x => h (g x)) (map snd (filter (fun e => (fst e =? Z.of_nat v)%Z) (map (fun t => (c0 t, (norm3 (fnormal V t), normalize3 (fnormal V t)))) F ++ map (fun t => (c1 t, (norm3 (fnormal V t), normalize3 (fnormal V t)))) F ++ map (fun t => (c2 t, (norm3 (fnormal V t), normalize3 (fnormal V t)))) F)))
      = sumf (fun t => corners_at (Z.of_nat v) t * h (fnormal V t)) F) as K.
    { intros h H0. rewrite sumf_filter_map, !sumf_app, !sumf_map. cbn [fst snd]. rewrite <- !sumf_plus. apply sumf_ext. intros t Ht. unfold g. cbn [fst snd]. destruct (normalize3_some _ (ND t Ht)) as (-> & _ & ->). apply corners_at_eq. }
    rewrite (K X), (K Y), (K Zc) by reflexivity. unfold scal3, X, Y, Zc. cbn [fst snd]. reflexivity. }
  rewrite W, S. cbn [obind]. cbv zeta. set (s := vsum3 _ F). split; intro H.
  - destruct (normalize3_some s H) as (-> & A & B). eauto.
  - rewrite H, normalize3_none. reflexivity.
Qed.
Print Assumptions C67_vertex_normals.

(** polylines in the plane *)
Theorem C67_vertex_normals_polyline : forall V n E, (forall e, In e E -> (0 <= fst e < Z.of_nat n)%Z /\ (0 <= snd e < Z.of_nat n)%Z) ->
  (forall e, In e E -> enormal V e <> (0, 0)) ->
  exists N, per_vertex_normals2 V n E = Ok N /\ length N = n /\
  forall v, (v < n)%nat -> let s := vsum2 (fun e => scal2 (ends_at (Z.of_nat v) e) (enormal V e)) E in
    (s <> (0, 0) -> exists u, nth_error N v = Some (Some u) /\ norm2 u = 1 /\ scal2 (norm2 s) u = s) /\
    (s = (0, 0) -> nth_error N v = Some None).
Proof.
  intros V n E Va ND. unfold per_vertex_normals2.
  assert (entries2 V E = map (fun e => (fst e, (2 * norm2 (enormal V e), normalize2 (enormal V e)))) E ++ map (fun e => (snd e, (2 * norm2 (enormal V e), normalize2 (enormal V e)))) E) as ->.
  { unfold entries2, per_face_normals2. rewrite combine_map_r, !map_map. cbn [fst snd]. f_equal; apply map_ext; intros [a b]; do 3 f_equal; unfold doublearea_edge, norm2; do 2 f_equal; unfold sqlen, dot2, enormal; cbn; ring. }
  match goal with |- context [forallb ?p ?l] => assert (forallb p l = true) as -> end.
  { apply forallb_forall. intros e He. rewrite !in_app_iff, !in_map_iff in He. rewrite andb_true_iff, Z.leb_le, Z.ltb_lt. destruct He as [ (t & <- & Ht) | (t & <- & Ht) ]; destruct (Va t Ht) as (A & B); cbn; tauto. }
  eexists. split; [reflexivity|]. split; [rewrite map_length; apply seq_length|]. intros v Hv.
  rewrite nth_error_map, (nth_error_nth' _ 0%nat) by (rewrite seq_length; lia). rewrite seq_nth by lia. cbn [option_map Nat.add].
  set (l := map snd _).
  set (g := fun e : R * option vec2 => match snd e with Some n => scal2 (fst e) n | None => (0,0) end).
  assert (wsum2 l = Some (vsum2 g l)) as W.
  { apply wsum2_ok. intros e He. unfold l in He. apply in_map_iff in He as (e' & <- & He'). apply filter_In in He' as [He' _]. rewrite !in_app_iff, !in_map_iff in He'.
    unfold g. destruct He' as [ (t & <- & Ht) | (t & <- & Ht) ]; cbn [fst snd]; destruct (normalize2_some _ (ND t Ht)) as (-> & _ & _); eauto. }
  cbv zeta. set (s := vsum2 _ E).
  assert (vsum2 g l = scal2 2 s) as S.
  { unfold vsum2, l, s, scal2.
    assert (forall h : vec2 -> R, (forall x, h (scal2 2 x) = 2 * h x) -> sumf (fun x => h (g x)) (map snd (filter (fun e => (fst e =? Z.of_nat v)%Z) (map (fun e => (fst e, (2 * norm2 (enormal V e), normalize2 (enormal V e)))) E ++ map (fun e => (snd e, (2 * norm2 (enormal V e), normalize2 (enormal V e)))) E)))
      = 2 * sumf (fun e => ends_at (Z.of_nat v) e * h (enormal V e)) E) as K.
    { intros h H0. rewrite sumf_filter_map, !sumf_app, !sumf_map. cbn [fst snd]. rewrite <- !sumf_plus, <- sumf_scal. apply sumf_ext. intros e Ht. unfold g. cbn [fst snd]. destruct (normalize2_some _ (ND e Ht)) as (-> & _ & Q).
      assert (scal2 (2 * norm2 (enormal V e)) (scal2 (/ norm2 (enormal V e)) (enormal V e)) = scal2 2 (enormal V e)) as ->. { rewrite <- Q at 4. unfold scal2. cbn. f_equal; ring. }
      rewrite H0. unfold ends_at. destruct (fst e =? Z.of_nat v)%Z, (snd e =? Z.of_nat v)%Z; ring. }
    cbn [fst snd]. rewrite (K fst), (K snd) by reflexivity. reflexivity. }
  rewrite W, S. cbn [obind]. clearbody s. destruct s as [x y]. split; intro H.
  - assert (scal2 2 (x, y) <> (0,0)) as H2. { unfold scal2. cbn. intro Q. injection Q. intros. apply H. f_equal; lra. }
    destruct (normalize2_some _ H2) as (-> & A & B). eexists. split; [reflexivity|]. split; [exact A|].
    assert (norm2 (scal2 2 (x, y)) = 2 * norm2 (x, y)) as N2. { unfold norm2. replace (dot2 (scal2 2 (x, y)) (scal2 2 (x, y))) with (2 * 2 * dot2 (x,y) (x,y)) by (unfold dot2, scal2; cbn; ring). rewrite sqrt_mult by (try lra; unfold dot2; cbn; nra). rewrite sqrt_square by lra. reflexivity. }
    pose proof (norm2_pos _ H). rewrite N2. unfold scal2. cbn [fst snd]. f_equal; field; lra.
  - injection H. intros -> ->. replace (scal2 2 (0, 0)) with ((0, 0) : vec2) by (unfold scal2; cbn; f_equal; ring). rewrite normalize2_none. reflexivity.
Qed.
Print Assumptions C67_vertex_normals_polyline.

(** a face of zero area makes the normals of its vertices NaN, although its weight is zero *)
Theorem C67_degenerate_refuted : exists V F, valid 4 F /\
  vsum3 (fun t => scal3 (corners_at 0 t) (fnormal V t)) F <> zero3 /\
  exists N, per_vertex_normals3 V 4 F = Ok N /\ nth_error N 0 = Some None.
Proof.
  set (V := fun i : Z => if (i =? 1)%Z then (1,0,0) else if (i =? 2)%Z then (0,1,0) else if (i =? 3)%Z then (2,0,0) else zero3).
  set (F := [(0,1,2); (0,1,3)]%Z). exists V, F.
  assert (fnormal V (0,1,3)%Z = zero3) as Z1. { unfold fnormal, c0, c1, c2, V. cbn. unfold cross3, sub3, zero3, X, Y, Zc. cbn. f_equal; [f_equal|]; ring. }
  assert (fnormal V (0,1,2)%Z = (0,0,1)) as Z2. { unfold fnormal, c0, c1, c2, V. cbn. unfold cross3, sub3, zero3, X, Y, Zc. cbn. f_equal; [f_equal|]; ring. }
  split; [|split].
  - intros t [ <- | [ <- | [] ] ]; unfold c0, c1, c2; cbn; lia.
  - unfold vsum3, F. cbn [sumf]. rewrite Z1, Z2. unfold corners_at, corner, scal3, zero3, X, Y, Zc. cbn. intro Q. injection Q. intros. lra.
  - unfold per_vertex_normals3. rewrite entries3_eq. unfold F. cbn [map app]. rewrite Z1, normalize3_none. unfold c0, c1, c2. cbn [fst snd forallb]. cbn - [wsum3 normalize3 obind]. eexists. split; [reflexivity|]. cbn [nth_error]. rewrite (wsum3_none _ (norm3 zero3)) by (cbn; auto). reflexivity.
Qed.
Print Assumptions C67_degenerate_refuted.

(** ** divergence theorem: the area weighted face normals of a closed oriented surface add up to zero *)
Theorem C67_closed_surface : forall V F, oriented_manifold F -> (forall e, In e (all_sides F) -> In (rev_edge e) (all_sides F)) ->
  (forall t, In t F -> fnormal V t <> zero3) ->
  exists U, per_face_normals3 V F true = map Some U /\ length U = length F /\
    vsum3 (fun p => scal3 (doublearea (fun j => row_of3 (V j)) (fst p)) (snd p)) (combine F U) = zero3.
Proof.
  intros V F OM CL ND. exists (map (fun t => unit3 (fnormal V t)) F). split; [|split; [apply map_length|]].
  { unfold per_face_normals3. rewrite map_map. apply map_ext_in. intros t Ht. apply (normalize3_some _ (ND t Ht)). }
  rewrite combine_map_r.
  assert (forall h : vec3 -> R, (forall a b, h (add3 a b) = h a + h b) -> (forall s a, h (scal3 s a) = s * h a) ->
    sumf (fun p => h (scal3 (doublearea (fun j => row_of3 (V j)) (fst p)) (snd p))) (map (fun t => (t, unit3 (fnormal V t))) F) = 0) as K.
  { intros h HA HS. rewrite sumf_map. cbn [fst snd].
    transitivity (sumf (fun t => h (fnormal V t)) F).
    { apply sumf_ext. intros t Ht. rewrite doublearea_3d. f_equal. apply (normalize3_some _ (ND t Ht)). }
    set (q := fun e : Z * Z => h (cross3 (V (fst e)) (V (snd e)))).
    transitivity (sumf q (all_sides F)).
    { unfold all_sides. rewrite sumf_flat_map. apply sumf_ext. intros [[a b] c] _. unfold q. cbn [sides sumf fst snd]. unfold fnormal, c0, c1, c2. cbn [fst snd].
      rewrite Rplus_0_r, <- !HA. f_equal. apply vec3_eq; unfold add3, cross3, sub3, X, Y, Zc; cbn; ring. }
    assert (Permutation (map rev_edge (all_sides F)) (all_sides F)) as PM.
    { apply NoDup_Permutation_bis.
      - apply FinFun.Injective_map_NoDup; [|exact OM]. intros [a b] [c d] E. unfold rev_edge in E. cbn in E. congruence.
      - rewrite map_length. lia.
      - intros e He. apply in_map_iff in He as (e' & <- & He'). apply CL, He'. }
    pose proof (sumf_perm q _ _ PM) as SP. rewrite sumf_map in SP.
    assert (sumf (fun x => q (rev_edge x)) (all_sides F) = - sumf q (all_sides F)) as SN.
    { rewrite <- sumf_opp. apply sumf_ext. intros [a b] _. unfold q, rev_edge. cbn [fst snd]. replace (cross3 (V b) (V a)) with (scal3 (-1) (cross3 (V a) (V b))) by (apply vec3_eq; unfold scal3, cross3, X, Y, Zc; cbn; ring). rewrite HS. ring. }
    lra. }
  unfold vsum3, zero3. rewrite (K X), (K Y), (K Zc); auto; intros; reflexivity.
Qed.
Print Assumptions C67_closed_surface.

(** ** dihedral angles *)
Lemma side_index F : forall f t i, nth_error F f = Some t -> (i < 3)%nat -> nth_error (all_sides F) (3 * f + (i + 1) mod 3) = Some (side_opp t i).
Proof.
  unfold all_sides. induction F as [|[[a b] c] F IH]; intros [|f] t i H Hi; cbn in H; try discriminate.
  - injection H. intros <-. destruct i as [|[|[|i]]]; [reflexivity|reflexivity|reflexivity|lia].
  - cbn [flat_map sides app]. replace (3 * S f + (i + 1) mod 3)%nat with (S (S (S (3 * f + (i + 1) mod 3)))) by lia. cbn [nth_error]. apply IH; assumption.
Qed.
Lemma side_unique F f g t s i j : oriented_manifold F -> nth_error F f = Some t -> nth_error F g = Some s -> (i < 3)%nat -> (j < 3)%nat -> side_opp t i = side_opp s j -> f = g /\ i = j.
Proof.
  intros OM Hf Hg Hi Hj E. pose proof (side_index F f t i Hf Hi) as A. pose proof (side_index F g s j Hg Hj) as B. rewrite <- E in B.
  assert (3 * f + (i + 1) mod 3 = 3 * g + (j + 1) mod 3)%nat as Q. { apply (proj1 (NoDup_nth_error _) OM); [apply nth_error_Some; congruence|congruence]. }
  destruct i as [|[|[|i]]]; [| | |lia]; destruct j as [|[|[|j]]]; try lia; cbn - [Nat.mul] in Q; lia.
Qed.
Lemma crease_ok a b : norm3 a = 1 -> norm3 b = 1 -> let x := atan2 (norm3 (cross3 a b)) (dot3 a b) in
  0 <= x <= PI /\ cos x = dot3 a b /\ x = atan2 (norm3 (cross3 b a)) (dot3 b a) /\ (x = 0 <-> a = b) /\ (x = PI <-> a = scal3 (-1) b).
Proof.
  intros A B. cbv zeta. pose proof (norm3_sq a) as Qa. pose proof (norm3_sq b) as Qb. rewrite A in Qa. rewrite B in Qb.
  assert (0 <= norm3 (cross3 a b)) as P by apply sqrt_pos. pose proof (norm3_sq (cross3 a b)) as Qc.
  assert (norm3 (cross3 a b) * norm3 (cross3 a b) + dot3 a b * dot3 a b = 1) as LG.
  { rewrite Qc. transitivity (dot3 a a * dot3 b b); [unfold dot3, cross3, X, Y, Zc; cbn; ring|rewrite <- Qa, <- Qb; ring]. }
  set (y := norm3 (cross3 a b)) in *. set (x := dot3 a b) in *.
  assert (x <> 0 \/ y <> 0) as NZ. { destruct (Req_dec x 0) as [Z|]; [|auto]. right. intro Z2. rewrite Z, Z2 in LG. lra. }
  destruct (atan2_ok x y NZ) as ([B1 B2] & Ex & Ey). destruct (atan2_upper x y NZ) as [U _].
  replace (x * x + y * y) with 1 in Ex, Ey by lra. rewrite sqrt_1, Rmult_1_l in Ex, Ey.
  split; [split; [apply U, P|exact B2]|]. split; [symmetry; exact Ex|]. split; [|split].
  - unfold y, x. f_equal; [unfold norm3; f_equal|]; unfold dot3, cross3, X, Y, Zc; cbn; ring.
  - split; intro H.
    + rewrite H, cos_0 in Ex. assert (dot3 (sub3 a b) (sub3 a b) = 0) as D. { transitivity (dot3 a a + dot3 b b - 2 * x); [unfold x, dot3, sub3, X, Y, Zc; cbn; ring|lra]. }
      destruct (vec3_dec (sub3 a b)) as [Z|N]. { unfold sub3, zero3 in Z. injection Z. intros. apply vec3_eq; lra. } pose proof (norm3_pos _ N) as PP. pose proof (norm3_sq (sub3 a b)) as Q. rewrite D in Q. nra.
    + assert (x = 1) as E1 by (unfold x; rewrite H; lra). assert (y = 0) as E0 by (rewrite E1 in LG; nra). rewrite E0, E1. unfold atan2. destruct Rlt_dec; [|lra]. replace (0 / 1) with 0 by field. apply atan_0.
  - split; intro H.
    + rewrite H, cos_PI in Ex. assert (dot3 (add3 a b) (add3 a b) = 0) as D. { transitivity (dot3 a a + dot3 b b + 2 * x); [unfold x, dot3, add3, X, Y, Zc; cbn; ring|lra]. }
      destruct (vec3_dec (add3 a b)) as [Z|N]. { unfold add3, zero3 in Z. injection Z. intros. apply vec3_eq; unfold scal3, X, Y, Zc in *; cbn in *; lra. } pose proof (norm3_pos _ N) as PP. pose proof (norm3_sq (add3 a b)) as Q. rewrite D in Q. nra.
    + assert (x = -1) as E1. { unfold x. rewrite H. transitivity (- dot3 b b); [unfold dot3, scal3, X, Y, Zc; cbn; ring|lra]. } assert (y = 0) as E0 by (rewrite E1 in LG; nra). rewrite E0, E1. unfold atan2. destruct Rlt_dec; [lra|]. destruct Rlt_dec; [|lra]. destruct Rle_dec; [|lra]. replace (0 / -1) with 0 by field. rewrite atan_0. ring.
Qed.
(** entry (f,i) belongs to the half-edge opposite corner i; NaN exactly when no face lies on its other side, otherwise the
    angle in [0,pi] between the two unit normals - 0 iff they agree, pi iff they are opposite - the same from both sides *)
Theorem C67_dihedral : forall V F, F <> [] -> oriented_manifold F -> (forall t, In t F -> fnormal V t <> zero3) ->
  exists T, dihedral_angles V F = Ok T /\ length T = length F /\
  forall f t i r, nth_error F f = Some t -> (i < 3)%nat -> nth_error T f = Some r ->
    (~ In (rev_edge (side_opp t i)) (all_sides F) -> row3 r i = None) /\
    (forall g s j, nth_error F g = Some s -> (j < 3)%nat -> side_opp s j = rev_edge (side_opp t i) ->
       exists x u w q, row3 r i = Some x /\
         nth_error (per_face_normals3 V F true) f = Some (Some u) /\ nth_error (per_face_normals3 V F true) g = Some (Some w) /\
         0 <= x <= PI /\ cos x = dot3 u w /\ (x = 0 <-> u = w) /\ (x = PI <-> u = scal3 (-1) w) /\
         nth_error T g = Some q /\ row3 q j = Some x).
Proof.
  intros V F NE OM ND. destruct (C09_triangle_triangle_adjacency F NE OM) as (TT & TTi & ET & L1 & L2 & H).
  unfold dihedral_angles. rewrite ET. set (N := per_face_normals3 V F true). assert (length N = length F) as LN by apply map_length.
  set (ang := fun (n1 : option vec3) (nb : Z) => if (nb <? 0)%Z then None else crease n1 (nth (Z.to_nat nb) N None)).
  eexists. split; [reflexivity|]. split; [rewrite map_length, combine_length; lia|].
  assert (forall f t, nth_error F f = Some t -> nth_error N f = Some (Some (unit3 (fnormal V t)))) as NN.
  { intros f t Hf. unfold N, per_face_normals3. rewrite nth_error_map, Hf. cbn [option_map]. f_equal. apply (normalize3_some _ (ND t (nth_error_In _ _ Hf))). }
  assert (forall f t, nth_error F f = Some t -> exists r, nth_error TT f = Some r /\ exists ri, nth_error TTi f = Some ri) as RT.
  { intros f t Hf. assert (f < length F)%nat by (apply nth_error_Some; congruence). destruct (nth_error TT f) eqn:E1; [|apply nth_error_None in E1; lia]. destruct (nth_error TTi f) eqn:E2; [|apply nth_error_None in E2; lia]. eauto. }
  assert (forall (A B : Type) (l : list A) (l' : list B) k x y, nth_error l k = Some x -> nth_error l' k = Some y -> nth_error (combine l l') k = Some (x, y)) as NC.
  { induction l as [|a l IH]; intros [|b l'] [|k] x y; cbn; intros; try discriminate; [congruence|]. apply IH; assumption. }
  match goal with |- context [nth_error (map ?g (combine N TT)) _ = Some _] => set (G := g) end.
  assert (forall f t r i, nth_error F f = Some t -> nth_error TT f = Some r -> (i < 3)%nat ->
    exists r', nth_error (map G (combine N TT)) f = Some r' /\ row3 r' i = ang (Some (unit3 (fnormal V t))) (row3 r i)) as RW.
  { intros f t r i Hf Hr Hi. eexists. rewrite nth_error_map, (NC _ _ _ _ _ _ _ (NN f t Hf) Hr). split; [reflexivity|]. destruct r as [[a b] c]. unfold G, ang. destruct i as [|[|[|i]]]; [reflexivity|reflexivity|reflexivity|lia]. }
  intros f t i r Hf Hi Hr. destruct (RT f t Hf) as (tr & Htr & tri & Htri).
  destruct (RW f t tr i Hf Htr Hi) as (r' & Hr' & Er). rewrite Hr in Hr'. injection Hr'. intros <-. clear Hr'.
  destruct (H f i t tr tri Hf Hi Htr Htri) as [ (M1 & _ & NI) | (g & j & s & rg & rgi & G1 & G2 & Gj & Gs & Gside & Grg & Grgi & Gb & Gbi) ].
  - split; [intros _; rewrite Er, M1; reflexivity|]. intros g s j Hg Hj Hs. exfalso. apply NI. change (snd (side_opp t i), fst (side_opp t i)) with (rev_edge (side_opp t i)). rewrite <- Hs. unfold all_sides. apply in_flat_map. exists s. split; [eapply nth_error_In; exact Hg|]. destruct s as [[a b] c]. destruct j as [|[|[|j]]]; [| | |lia]; cbn; auto.
  - split. { intro NI. exfalso. apply NI. unfold rev_edge. rewrite <- Gside. unfold all_sides. apply in_flat_map. exists s. split; [eapply nth_error_In; exact Gs|]. destruct s as [[a b] c]. destruct j as [|[|[|j]]]; [| | |lia]; cbn; auto. }
    intros g' s' j' Hg Hj Hs.
    assert (g' = g /\ j' = j) as [ -> -> ].
    { apply (side_unique F g' g s' s j' j); auto. rewrite Hs, Gside. reflexivity. }
    rewrite Gs in Hg. injection Hg. intros <-. clear Hg.
    destruct (RW g s rg j Gs Grg Gj) as (q & Hq & Eq).
    assert (nth g N None = Some (unit3 (fnormal V s))) as Ng by (apply nth_error_nth, NN, Gs).
    assert (nth f N None = Some (unit3 (fnormal V t))) as Nf by (apply nth_error_nth, NN, Hf).
    destruct (normalize3_some _ (ND t (nth_error_In _ _ Hf))) as (_ & U1 & _). destruct (normalize3_some _ (ND s (nth_error_In _ _ Gs))) as (_ & U2 & _).
    destruct (crease_ok _ _ U1 U2) as (K1 & K2 & K3 & K4 & K5).
    eexists. exists (unit3 (fnormal V t)), (unit3 (fnormal V s)), q. 
    split; [rewrite Er, G1; unfold ang; destruct (Z.ltb_spec (Z.of_nat g) 0); [lia|]; rewrite Nat2Z.id, Ng; reflexivity|].
    split; [apply NN, Hf|]. split; [apply NN, Gs|]. split; [exact K1|]. split; [exact K2|]. split; [exact K4|]. split; [exact K5|]. split; [exact Hq|].
    rewrite Eq, Gb. unfold ang. destruct (Z.ltb_spec (Z.of_nat f) 0); [lia|]. rewrite Nat2Z.id, Nf. cbn [crease]. f_equal. symmetry. exact K3.
Qed.
Print Assumptions C67_dihedral.

Definition tetraF : list tri := [(0,1,2); (0,2,3); (0,3,1); (1,3,2)]%Z.
Definition tetraV (i : Z) : vec3 := if (i =? 1)%Z then (1,0,0) else if (i =? 2)%Z then (0,1,0) else if (i =? 3)%Z then (0,0,1) else zero3.
Example C67_nonvacuous : valid 4 tetraF /\ oriented_manifold tetraF /\ (forall e, In e (all_sides tetraF) -> In (rev_edge e) (all_sides tetraF)) /\
  (forall t, In t tetraF -> fnormal tetraV t <> zero3) /\ In (rev_edge (side_opp (0,1,2)%Z 2)) (all_sides tetraF).
Proof.
  split; [|split; [|split; [|split]]].
  - intros t Ht. cbn in Ht. unfold c0, c1, c2. repeat (destruct Ht as [ <- | Ht ]; [cbn; lia|]). destruct Ht.
  - unfold oriented_manifold. cbn. repeat constructor; cbn; intuition congruence.
  - intros e He. cbn in He. repeat (destruct He as [ <- | He ]; [cbn; tauto|]). destruct He.
  - intros t Ht. cbn in Ht. unfold fnormal, c0, c1, c2, cross3, sub3, zero3, X, Y, Zc. repeat (destruct Ht as [ <- | Ht ]; [cbn; intro Q; injection Q; intros; lra|]). destruct Ht.
  - cbn. tauto.
Qed.
