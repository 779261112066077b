(** C35-C37: ray queries.  Code: RayModel.v.
    Vocabulary (RayProofs.v): [at_time t a] coordinate origin + t*dir of one axis, [in_slab a x] x is within the box along that axis;
    [tri_point v0 v1 v2 u v] the point of barycentric coordinates (1-u-v,u,v); [crosses p d a0 a1 t] the point p + t d, t > 0, is on
    the open segment a0 a1. *)
From Coq Require Import Reals Lra Psatz ZArith List Bool Lia.
From Verif Require Import NumpyModel PyExn Vec SubdivModel Subdiv3Proofs RayModel RayProofs.
Import ListNotations.
Open Scope R_scope.

(** *** C35, any dimension: one axis (origin, dir, center, width) per dimension *)
Theorem C35_hit : forall l, Forall (fun a => 0 <= aw a) l ->
  let '(hit, p) := ray_box_intersect l in
  length p = length l /\
  (hit = true <-> exists t, 0 <= t /\ Forall (fun a => in_slab a (at_time t a)) l) /\
  (hit = true -> exists t, 0 <= t /\ p = map (fun a => Some (at_time t a)) l /\ Forall (fun a => in_slab a (at_time t a)) l /\
     forall s, 0 <= s -> Forall (fun a => in_slab a (at_time s a)) l -> t <= s).
Proof. exact ray_box_ok. Qed.
Print Assumptions C35_hit.
Example C35_nonvacuous : let l := [(-1,1,0,1); (0,1/10,0,1)] in Forall (fun a => 0 <= aw a) l /\
  exists t, 0 <= t /\ Forall (fun a => in_slab a (at_time t a)) l.
Proof.
  cbv zeta. split; [repeat constructor; unfold aw; cbn; lra|]. exists (1/2). split; [lra|].
  repeat constructor; unfold at_time, ao, ad, ac, aw; cbn; lra.
Qed.
(** the docstring's note ("through the whole straight line, e.g. for positive and negative time values") is false:
    a line that meets the box only behind the origin is reported as a miss *)
Theorem C35_whole_line_refuted : exists l t, Forall (fun a => 0 <= aw a) l /\ Forall (fun a => in_slab a (at_time t a)) l /\ fst (ray_box_intersect l) = false.
Proof.
  set (l := [(2,1,0,1); (0,0,0,1)] : list axis). exists l, (-2).
  assert (W : Forall (fun a => 0 <= aw a) l) by (unfold l; repeat constructor; unfold aw; cbn; lra).
  split; [exact W|]. split; [unfold l; repeat constructor; unfold at_time, ao, ad, ac, aw; cbn; lra|].
  pose proof (ray_box_ok l W) as H. destruct (ray_box_intersect l) as [h p]. destruct H as (_ & H & _). cbn [fst].
  destruct h; auto. destruct H as [H _]. destruct (H eq_refl) as (t & T & F). inversion F as [|? ? S _]; subst.
  unfold in_slab, at_time, ao, ad, ac, aw in S; cbn in S. lra.
Qed.
Print Assumptions C35_whole_line_refuted.
(** nor is "some entries of this vector will be infinite if is_hit is False" *)
Theorem C35_miss_infinite_refuted : exists l, Forall (fun a => 0 <= aw a) l /\ fst (ray_box_intersect l) = false /\ ~ In None (snd (ray_box_intersect l)).
Proof.
  exists [(-2,1,0,1); (0,1,0,1)]. split; [repeat constructor; unfold aw; cbn; lra|].
  assert (E : ray_box_intersect [(-2,1,0,1); (0,1,0,1)] = (false, [Some (0 - 0.5 * 1); Some (0 + ((0 - 0.5*1) - -2)/1 * 1)])).
  { unfold ray_box_intersect.
    assert (Q0 : quad (-2,1,0,1) = (1%Z, 0 - 0.5 * 1)).
    { unfold quad, minB, maxB, ao, ad, ac, aw; cbn [fst snd]. destruct Rlt_dec; [reflexivity|lra]. }
    assert (Q1 : quad (0,1,0,1) = (2%Z, -1)).
    { unfold quad, minB, maxB, ao, ad, ac, aw; cbn [fst snd]. destruct Rlt_dec; [lra|]. destruct Rlt_dec; [lra|reflexivity]. }
    cbn [forallb]. rewrite Q0. cbn [fst snd Z.eqb andb]. cbn. unfold maxT. rewrite Q0, Q1. cbn [fst snd]. cbn. unfold ad; cbn [fst snd].
    unfold ao, minB, maxB, ac, aw; cbn [fst snd].
    destruct (Req_EM_T 1 0); [lra|]. repeat (destruct Rlt_dec; try (cbn; rewrite ?Q0; try reflexivity; lra)).
    all: exfalso; unfold ao, ad, ac, aw, minB, maxB in *; cbn in *; lra. }
  rewrite E. cbn. split; [reflexivity|]. intuition discriminate.
Qed.
Print Assumptions C35_miss_infinite_refuted.

(** *** C36 *)
Theorem C36_sound : forall o d v0 v1 v2 neg t h, ray_triangle_intersect o d v0 v1 v2 neg = Some (t, h) ->
  h = add3 o (scal3 t d) /\ (neg = false -> 0 <= t) /\ exists u v, 0 <= u /\ 0 <= v /\ u + v <= 1 /\ h = tri_point v0 v1 v2 u v.
Proof. exact rt_sound. Qed.
Print Assumptions C36_sound.
(** every meeting point is reported (with its parameter) when the triple product dir.(v0v2 x v0v1) reaches the threshold *)
Theorem C36_complete_partial : forall o d v0 v1 v2 t u v, 1/1000000 <= Rabs (dot3 (sub3 v1 v0) (cross3 d (sub3 v2 v0))) ->
  0 <= u -> 0 <= v -> u + v <= 1 -> add3 o (scal3 t d) = tri_point v0 v1 v2 u v ->
  ray_triangle_intersect o d v0 v1 v2 true = Some (t, tri_point v0 v1 v2 u v) /\
  ray_triangle_intersect o d v0 v1 v2 false = if Rlt_dec t 0 then None else Some (t, tri_point v0 v1 v2 u v).
Proof. exact rt_complete. Qed.
Print Assumptions C36_complete_partial.
(** a ray orthogonal to a small non-degenerate triangle, through its interior, is reported as a miss *)
Theorem C36_complete_refuted : forall s, 0 < s < 1/1000 ->
  let v0 := (0,0,0) in let v1 := (s,0,0) in let v2 := (0,s,0) in let o := (s/4,s/4,1) in let d := (0,0,-1) in
  add3 o (scal3 1 d) = tri_point v0 v1 v2 (1/4) (1/4) /\ cross3 (sub3 v1 v0) (sub3 v2 v0) <> zero3 /\
  forall neg, ray_triangle_intersect o d v0 v1 v2 neg = None.
Proof.
  intros s S. cbv zeta. split; [apply vec3_eq; unfold tri_point, add3, scal3, X, Y, Zc; cbn [fst snd]; field|]. split.
  - unfold cross3, sub3, zero3, X, Y, Zc; cbn [fst snd]. intros Q. injection Q. intros. nra.
  - intros neg. unfold ray_triangle_intersect. cbv zeta. set (D := dot3 _ _). assert (E : D = s * s) by (unfold D, dot3, sub3, cross3, X, Y, Zc; cbn [fst snd]; ring).
    rewrite E. destruct Rlt_dec as [L|L]; [reflexivity|]. exfalso. apply L. rewrite Rabs_right by nra. nra.
Qed.
Print Assumptions C36_complete_refuted.
Example C36_nonvacuous : ray_triangle_intersect (1/4,1/4,1) (0,0,-1) (0,0,0) (1,0,0) (0,1,0) false = Some (1, (tri_point (0,0,0) (1,0,0) (0,1,0) (1/4) (1/4))).
Proof.
  destruct (rt_complete (1/4,1/4,1) (0,0,-1) (0,0,0) (1,0,0) (0,1,0) 1 (1/4) (1/4)) as [_ ->]; try lra.
  - unfold dot3, sub3, cross3, X, Y, Zc; cbn [fst snd]. rewrite Rabs_right; lra.
  - apply vec3_eq; unfold tri_point, add3, scal3, X, Y, Zc; cbn [fst snd]; field.
  - destruct Rlt_dec; [lra|reflexivity].
Qed.

(** *** C37 *)
(** position of a vertex *)
Definition pt (V : list vec2) (i : Z) : vec2 := nth (Z.to_nat i) V (0,0).
Ltac pts := unfold pt in *; cbn [fst snd] in *; change (Z.to_nat 0) with 0%nat in *; change (Z.to_nat 1) with 1%nat in *; change (Z.to_nat 2) with 2%nat in *; change (Z.to_nat 3) with 3%nat in *; cbn [nth fst snd] in *.
Lemma gather_segs V E : (forall e, In e E -> (0 <= fst e < Z.of_nat (length V))%Z /\ (0 <= snd e < Z.of_nat (length V))%Z) ->
  mapO (fun e => match getZ V (fst e), getZ V (snd e) with Some a, Some b => Some (a, b) | _, _ => None end) E = Some (map (fun e => (pt V (fst e), pt V (snd e))) E).
Proof.
  assert (G : forall i, (0 <= i < Z.of_nat (length V))%Z -> getZ V i = Some (pt V i)).
  { intros i I. unfold getZ, TopoModel.norm_index. replace ((0 <=? i) && (i <? Z.of_nat (length V)))%Z with true by (symmetry; apply andb_true_intro; rewrite Z.leb_le, Z.ltb_lt; lia). unfold pt. apply nth_error_nth'. lia. }
  induction E as [|e E IH]; intros H; [reflexivity|]. cbn [mapO map]. destruct (H e (or_introl eq_refl)) as [A B]. rewrite (G _ A), (G _ B), IH by (intros; apply H; now right). reflexivity.
Qed.
Definition first_hit (p d : vec2) (maxd : R) (V : list vec2) (E : list (Z * Z)) (x : option vec2) (n : vec2) (ind : Z) : Prop :=
  let edge k e := nth_error E k = Some e in
  (x = None /\ n = (0,0) /\ ind = (-1)%Z /\ forall k e t, edge k e -> crosses p d (pt V (fst e)) (pt V (snd e)) t -> maxd <= t) \/
  (exists k e t, edge k e /\ ind = Z.of_nat k /\ crosses p d (pt V (fst e)) (pt V (snd e)) t /\ t < maxd /\ x = Some (add2 p (scal2 t d)) /\
     (dot2 n n = 1 /\ dot2 n (sub2 (pt V (snd e)) (pt V (fst e))) = 0 /\ 0 < det2 (sub2 (pt V (snd e)) (pt V (fst e))) n) /\
     (forall k' e' t', edge k' e' -> crosses p d (pt V (fst e')) (pt V (snd e')) t' -> t <= t')).
(** no edge (nearly) parallel to the ray: the first proper crossing, its unit normal and its edge.  Partial: rays through a
    vertex and rays collinear with an edge are excluded, see the refutations. *)
Theorem C37_first_hit_partial : forall p d V maxd E,
  (forall e, In e E -> (0 <= fst e < Z.of_nat (length V))%Z /\ (0 <= snd e < Z.of_nat (length V))%Z) ->
  (forall e, In e E -> 1/100000000 <= Rabs (det2 d (sub2 (pt V (snd e)) (pt V (fst e))))) ->
  exists x n ind, ray_polyline_intersect p d V maxd (Some E) = Ok (x, n, ind) /\ first_hit p d maxd V E x n ind.
Proof.
  intros p d V maxd E H G. unfold ray_polyline_intersect. cbn [bind]. rewrite gather_segs by auto. cbn [lift bind].
  set (L := map (fun e => (pt V (fst e), pt V (snd e))) E).
  assert (GL : forall s, In s L -> 1/100000000 <= Rabs (seg_det d (fst s) (snd s))).
  { intros s I. apply in_map_iff in I as (e & <- & I). cbn [fst snd]. apply G; auto. }
  assert (SL : forall k a0 a1, seg_at L k a0 a1 <-> exists e, nth_error E k = Some e /\ a0 = pt V (fst e) /\ a1 = pt V (snd e)).
  { intros k a0 a1. unfold seg_at, L. rewrite nth_error_map. destruct (nth_error E k) as [e|]; cbn; split; try discriminate.
    - intros Q; injection Q; intros; exists e; auto.
    - intros (e' & Q & -> & ->). injection Q; intros ->; reflexivity.
    - intros (e' & Q & _); discriminate. }
  destruct (ray_segments_ok p d maxd L GL) as (x & n & ind & -> & R). exists x, n, ind. split; [reflexivity|].
  destruct R as [(-> & -> & -> & R)|(j & a0 & a1 & t & S & -> & C & M & -> & -> & R & _)].
  - left. repeat split; auto. intros k e t K C. apply (R k (pt V (fst e)) (pt V (snd e))); auto. apply SL. eauto.
  - right. apply SL in S as (e & K & -> & ->). exists j, e, t. split; auto. split; auto. split; auto. split; auto. split; auto. split.
    + apply seg_normal_unit. intros Q. specialize (G e (nth_error_In _ _ K)). rewrite Q in G. unfold det2, sub2 in G; cbn [fst snd] in G.
      replace (fst d * (snd (pt V (snd e)) - snd (pt V (snd e))) - snd d * (fst (pt V (snd e)) - fst (pt V (snd e)))) with 0 in G by ring. rewrite Rabs_R0 in G. lra.
    + intros k' e' t' K' C'. apply (R k' (pt V (fst e')) (pt V (snd e')) t'); auto. apply SL. eauto.
Qed.
Print Assumptions C37_first_hit_partial.
(** without EC the polyline is closed: edges (0,1), (1,2), ..., (n-1,0) *)
Theorem C37_default_edges : forall p d V maxd, (1 <= length V)%nat ->
  ray_polyline_intersect p d V maxd None = ray_polyline_intersect p d V maxd
    (Some (map (fun i => (Z.of_nat i, Z.of_nat i + 1)%Z) (seq 0 (length V - 1)) ++ [(Z.of_nat (length V) - 1, 0)%Z])).
Proof.
  intros p d V maxd H. unfold ray_polyline_intersect at 1. rewrite edge_indices_closed by lia. cbn [bind].
  replace (Z.to_nat (Z.of_nat (length V) - 1)) with (length V - 1)%nat by lia. reflexivity.
Qed.
Print Assumptions C37_default_edges.

(** a ray that meets the polyline at a vertex is reported as a miss *)
Theorem C37_vertex_refuted : let V := [(1,-1); (1,0); (1,1)] in let E := [(0,1)%Z; (1,2)%Z] in
  pt V 1 = add2 (0,0) (scal2 1 (1,0)) /\ ray_polyline_intersect (0,0) (1,0) V 100 (Some E) = Ok (None, (0,0), (-1)%Z).
Proof.
  cbv zeta. split; [pts; unfold add2, scal2; cbn [fst snd]; f_equal; ring|].
  destruct (C37_first_hit_partial (0,0) (1,0) [(1,-1); (1,0); (1,1)] 100 [(0,1)%Z; (1,2)%Z]) as (x & n & ind & -> & R).
  - intros e I. cbn in I. destruct I as [<-|[<-|[]]]; cbn; lia.
  - intros e I. cbn in I. destruct I as [<-|[<-|[]]]; pts; unfold det2, sub2; cbn [fst snd]; rewrite Rabs_right; lra.
  - destruct R as [(-> & -> & -> & _)|(k & e & t & K & _ & (T & s & S & C) & _)]; [reflexivity|].
    exfalso. destruct k as [|[|[|k]]]; cbn in K; try discriminate; injection K; intros <-; pts; unfold add2, scal2 in C; cbn [fst snd] in C; injection C; intros; lra.
Qed.
Print Assumptions C37_vertex_refuted.
(** a segment in line with the ray, listed far end first: the far end is returned although the near end is met first *)
Theorem C37_collinear_refuted : let V := [(3,0); (1,0)] in
  exists n, ray_polyline_intersect (0,0) (1,0) V 100 (Some [(0,1)%Z]) = Ok (Some (3,0), n, 0%Z) /\
  pt V 1 = add2 (0,0) (scal2 1 (1,0)) /\ pt V 0 = add2 (0,0) (scal2 3 (1,0)).
Proof.
  cbv zeta. unfold ray_polyline_intersect. cbn [bind].
  rewrite gather_segs by (intros e I; cbn in I; destruct I as [<-|[]]; cbn; lia). cbn [lift bind map].
  unfold ray_segments, rp_loop, rp_step. cbn [fst snd]. pts.
  assert (N3 : norm2 (sub2 (3,0) (0,0)) / norm2 (1,0) = 3).
  { unfold norm2, sub2, dot2; cbn [fst snd]. replace ((3-0)*(3-0)+(0-0)*(0-0)) with (3*3) by ring. replace (1*1+0*0) with (1*1) by ring. rewrite !sqrt_square by lra. field. }
  destruct Rlt_dec as [_|L]; [|exfalso; apply L; rewrite Rabs_right; lra].
  destruct Rlt_dec as [_|L]; [|exfalso; apply L; rewrite Rabs_right; lra].
  destruct Rlt_dec as [_|L]; [|exfalso; apply L; unfold dot2, sub2; cbn [fst snd]; lra].
  destruct Rlt_dec as [_|L]; [|exfalso; apply L; unfold dot2, sub2; cbn [fst snd]; lra].
  destruct Rlt_dec as [L|_]; [lra|]. cbn [fst]. rewrite N3. replace (add2 (0,0) (scal2 3 (1,0))) with ((3,0) : vec2) by (unfold add2, scal2; cbn [fst snd]; f_equal; ring). eexists. split; [reflexivity|].
  unfold add2, scal2; cbn [fst snd]; split; f_equal; ring.
Qed.
Print Assumptions C37_collinear_refuted.
(** a collinear segment replaces a nearer hit found before it, and is not limited by max_distance *)
Theorem C37_overwrite_refuted : let V := [(1,-1); (1,1); (30,0); (20,0)] in
  exists n, ray_polyline_intersect (0,0) (1,0) V 10 (Some [(0,1)%Z; (3,2)%Z]) = Ok (Some (20,0), n, 1%Z) /\
  crosses (0,0) (1,0) (pt V 0) (pt V 1) 1.
Proof.
  cbv zeta. unfold ray_polyline_intersect. cbn [bind].
  rewrite gather_segs by (intros e I; cbn in I; destruct I as [<-|[<-|[]]]; cbn; lia). cbn [lift bind map].
  unfold ray_segments. cbn [rp_loop]. set (st1 := rp_step _ _ 0%Z _ _ _). destruct st1 as [[[x1 n1] i1] d1].
  unfold rp_step. cbn [fst snd]. pts.
  assert (N3 : norm2 (sub2 (20,0) (0,0)) / norm2 (1,0) = 20).
  { unfold norm2, sub2, dot2; cbn [fst snd]. replace ((20-0)*(20-0)+(0-0)*(0-0)) with (20*20) by ring. replace (1*1+0*0) with (1*1) by ring. rewrite !sqrt_square by lra. field. }
  destruct Rlt_dec as [_|L]; [|exfalso; apply L; rewrite Rabs_right; lra].
  destruct Rlt_dec as [_|L]; [|exfalso; apply L; rewrite Rabs_right; lra].
  destruct Rlt_dec as [_|L]; [|exfalso; apply L; unfold dot2, sub2; cbn [fst snd]; lra].
  destruct Rlt_dec as [_|L]; [|exfalso; apply L; unfold dot2, sub2; cbn [fst snd]; lra].
  destruct Rlt_dec as [L|_]; [lra|]. cbn [fst]. rewrite N3. replace (add2 (0,0) (scal2 20 (1,0))) with ((20,0) : vec2) by (unfold add2, scal2; cbn [fst snd]; f_equal; ring). eexists. split; [reflexivity|].
  split; [lra|]. exists (1/2). split; [lra|]. unfold add2, scal2; cbn [fst snd]. f_equal; field.
Qed.
Print Assumptions C37_overwrite_refuted.
Example C37_nonvacuous : let V := [(1,-1); (1,1)] in 1/100000000 <= Rabs (det2 (1,0) (sub2 (pt V 1) (pt V 0))) /\ crosses (0,0) (1,0) (pt V 0) (pt V 1) 1.
Proof.
  cbv zeta. pts. split.
  - unfold det2, sub2; cbn [fst snd]. rewrite Rabs_right; lra.
  - split; [lra|]. exists (1/2). split; [lra|]. unfold add2, scal2; cbn [fst snd]. f_equal; field.
Qed.
