(** C38-C42: barycentric coordinates, area and volume, cotangent Laplacian, mass matrix, gradient.
    Vocabulary: Vec.v, GeomSpec.v, MatModel.v (entry/mulv/quadform of a sparse matrix); code: GeomModel.v *)
From Verif Require Import PyExn Vec MatModel GeomSpec GeomModel GeomProofs Geom2Proofs.
From Coq Require Import Psatz.
Open Scope R_scope.

(** ** C38 barycentric_coordinates *)
Theorem C38_planar : forall p v1 v2 v3 : vec2, det2 (sub2 v2 v1) (sub2 v3 v1) <> 0 ->
  let b := bary2 p v1 v2 v3 in
  X b + Y b + Zc b = 1 /\ add2 (add2 (scal2 (X b) v1) (scal2 (Y b) v2)) (scal2 (Zc b) v3) = p.
Proof. exact bary2_ok. Qed.
Print Assumptions C38_planar.
(** in 3D the combination is the orthogonal projection of p on the plane of the triangle *)
Theorem C38_spatial : forall p v1 v2 v3 : vec3, let N := cross3 (sub3 v2 v1) (sub3 v3 v1) in N <> zero3 ->
  let b := bary3 p v1 v2 v3 in
  let q := add3 (add3 (scal3 (X b) v1) (scal3 (Y b) v2)) (scal3 (Zc b) v3) in
  X b + Y b + Zc b = 1 /\ q = sub3 p (scal3 (dot3 (sub3 p v1) N / dot3 N N) N).
Proof. exact bary3_ok. Qed.
Print Assumptions C38_spatial.
Theorem C38_corners : (forall v1 v2 v3 : vec2, det2 (sub2 v2 v1) (sub2 v3 v1) <> 0 ->
    bary2 v1 v1 v2 v3 = (1,0,0) /\ bary2 v2 v1 v2 v3 = (0,1,0) /\ bary2 v3 v1 v2 v3 = (0,0,1)) /\
  (forall v1 v2 v3 : vec3, cross3 (sub3 v2 v1) (sub3 v3 v1) <> zero3 ->
    bary3 v1 v1 v2 v3 = (1,0,0) /\ bary3 v2 v1 v2 v3 = (0,1,0) /\ bary3 v3 v1 v2 v3 = (0,0,1)).
Proof. split; [exact bary2_corners | exact bary3_corners]. Qed.
Print Assumptions C38_corners.
Example C38_nonvacuous : det2 (sub2 (1,0) (0,0)) (sub2 (0,2) (0,0)) <> 0
  /\ cross3 (sub3 (1,0,1) (0,0,1)) (sub3 (0,2,1) (0,0,1)) <> zero3.
Proof.
  split; unfold det2, sub2, cross3, sub3, zero3, X, Y, Zc; cbn [fst snd]; [lra|].
  intros Q. injection Q. intros. lra.
Qed.

(** ** C39 doublearea, volume *)
(** any dimension: square root of the Gram determinant *)
Theorem C39_area_any_dim : forall V t, length (V (c0 t)) = length (V (c1 t)) -> length (V (c0 t)) = length (V (c2 t)) ->
  doublearea V t = sqrt (gram (subl (V (c1 t)) (V (c0 t))) (subl (V (c2 t)) (V (c0 t)))).
Proof. exact doublearea_gram. Qed.
Print Assumptions C39_area_any_dim.
Theorem C39_area : forall t,
  (forall V : Z -> vec3, doublearea (fun i => row_of3 (V i)) t
     = norm3 (cross3 (sub3 (V (c1 t)) (V (c0 t))) (sub3 (V (c2 t)) (V (c0 t)))))
  /\ (forall V : Z -> vec2, doublearea (fun i => row_of2 (V i)) t
     = Rabs (det2 (sub2 (V (c1 t)) (V (c0 t))) (sub2 (V (c2 t)) (V (c0 t)))))
  /\ (forall V : Z -> vec2, doublearea_signed2 V t = det2 (sub2 (V (c1 t)) (V (c0 t))) (sub2 (V (c2 t)) (V (c0 t)))).
Proof. intros t. split; [|split]; intros V; [apply doublearea_3d | apply doublearea_2d | apply doublearea_signed]. Qed.
Print Assumptions C39_area.
Theorem C39_area_perm : forall V a b c, doublearea V (a,b,c) = doublearea V (b,a,c) /\ doublearea V (a,b,c) = doublearea V (b,c,a).
Proof. exact doublearea_perm. Qed.
Print Assumptions C39_area_perm.
(** one sixth of the determinant of the edge vectors; odd in every swap; translation invariant *)
Theorem C39_volume : forall V a b c d,
  volume V (a,b,c,d) = det3 (sub3 (V b) (V a)) (sub3 (V c) (V a)) (sub3 (V d) (V a)) / 6
  /\ volume V (b,a,c,d) = - volume V (a,b,c,d) /\ volume V (a,c,b,d) = - volume V (a,b,c,d)
  /\ volume V (a,b,d,c) = - volume V (a,b,c,d)
  /\ (forall w, volume (fun i => add3 (V i) w) (a,b,c,d) = volume V (a,b,c,d)).
Proof. intros. split; [apply volume_det|]. destruct (volume_flip V a b c d) as (A & B & C). split; [exact A|]. split; [exact B|]. split; [exact C|]. intros; apply volume_translate. Qed.
Print Assumptions C39_volume.
Example C39_nonvacuous : volume (fun i => match i with 0%Z => (0,0,0) | 1%Z => (1,0,0) | 2%Z => (0,1,0) | _ => (0,0,1) end) (0,1,2,3)%Z = 1/6.
Proof. unfold volume, dot3, sub3, cross3, X, Y, Zc; cbn [fst snd]. lra. Qed.

(** ** C40 cotangent_laplacian *)
(** from lengths alone, for any list of genuine triangles (need not be manifold) *)
Theorem C40_intrinsic : forall L n, valid (Z.of_nat n) (map fst L) -> (forall p, In p L -> triangle_lengths (snd p)) ->
  exists M, cotangent_laplacian_intrinsic L (Z.of_nat n) = Ok M
    /\ (forall i j, entry M i j = entry M j i)
    /\ (forall c i, mulv n M (fun _ => c) i = 0)
    /\ (forall x, 0 <= quadform n M x).
Proof. exact cot_lap_ok. Qed.
Print Assumptions C40_intrinsic.
(** for a mesh in 3D, moreover x'Lx is the Dirichlet energy: sum of area * |grad x|^2, with the
    gradient computed by gpytoolbox's own grad *)
Theorem C40_mesh : forall V F n, valid (Z.of_nat n) F -> (forall t, In t F -> fnormal V t <> zero3) ->
  exists M G, cotangent_laplacian (fun i => row_of3 (V i)) (Z.of_nat n) F = Ok M
    /\ grad3 V (Z.of_nat n) F = Ok G
    /\ (forall i j, entry M i j = entry M j i)
    /\ (forall c i, mulv n M (fun _ => c) i = 0)
    /\ (forall x, 0 <= quadform n M x)
    /\ (forall x, quadform n M x = sumf (fun p => let '(f, t) := p in
          norm3 (fnormal V t) / 2 * ((mulv n G x (Z.of_nat f))^2 + (mulv n G x (Z.of_nat (length F + f)))^2
                                     + (mulv n G x (Z.of_nat (2 * length F + f)))^2))
          (combine (seq 0 (length F)) F)).
Proof. exact cot_lap_3d. Qed.
Print Assumptions C40_mesh.
Definition square_V (i : Z) : vec3 := match i with 0%Z => (0,0,0) | 1%Z => (1,0,0) | 2%Z => (1,1,0) | _ => (0,1,0) end.
Definition square_F : list (Z*Z*Z) := [(0,1,2);(0,2,3)]%Z.
Example square_valid : valid 4 square_F /\ (forall t, In t square_F -> fnormal square_V t <> zero3).
Proof.
  split.
  - intros t [<-|[<-|[]]]; unfold c0, c1, c2; cbn; lia.
  - intros t [<-|[<-|[]]]; unfold fnormal, c0, c1, c2, square_V, cross3, sub3, zero3, X, Y, Zc; cbn [fst snd]; intros Q; injection Q; intros; lra.
Qed.
Example C40_nonvacuous : exists M, cotangent_laplacian (fun i => row_of3 (square_V i)) 4 square_F = Ok M
  /\ quadform 4 M (fun i => match i with 1%Z => 1 | 2%Z => 1 | _ => 0 end) = 1.
Proof.
  destruct square_valid as [Va N]. destruct (cot_lap_3d square_V square_F 4 Va N) as (M & G & E1 & E2 & _ & _ & _ & Q).
  exists M. split; [exact E1|]. rewrite Q.
  assert (H0 := grad3_affine square_V 4 square_F G Va E2 (1,0,0) 0 0%nat (0,1,2)%Z eq_refl (N _ (or_introl eq_refl))).
  assert (H1 := grad3_affine square_V 4 square_F G Va E2 (1,0,0) 0 1%nat (0,2,3)%Z eq_refl (N _ (or_intror (or_introl eq_refl)))).
  cbn zeta in H0, H1.
  assert (EX : forall i, mulv 4 G (fun i => match i with 1%Z => 1 | 2%Z => 1 | _ => 0 end) i = mulv 4 G (fun i => dot3 (1,0,0) (square_V i) + 0) i).
  { intros i. unfold mulv, sumn. cbn [seq sumf]. cbn [Z.of_nat Pos.of_succ_nat Pos.succ]. unfold dot3, square_V, X, Y, Zc; cbn [fst snd]. ring. }
  unfold square_F in *. cbn [length seq combine sumf Nat.add Nat.mul] in *. rewrite !EX.
  injection H0 as A0 B0 C0. injection H1 as A1 B1 C1. cbn [length Nat.add Nat.mul] in *. simpl Z.of_nat in *. rewrite A0, B0, C0, A1, B1, C1.
  assert (FN0 : fnormal square_V (0,1,2)%Z = (0,0,1)) by (unfold fnormal, square_V, c0, c1, c2, cross3, sub3, X, Y, Zc; cbn [fst snd]; apply vec3_eq; unfold X, Y, Zc; cbn [fst snd]; ring).
  assert (FN1 : fnormal square_V (0,2,3)%Z = (0,0,1)) by (unfold fnormal, square_V, c0, c1, c2, cross3, sub3, X, Y, Zc; cbn [fst snd]; apply vec3_eq; unfold X, Y, Zc; cbn [fst snd]; ring).
  rewrite FN0, FN1.
  assert (NN : norm3 (0,0,1) = 1). { unfold norm3, dot3, X, Y, Zc; cbn [fst snd]. replace (0*0+0*0+1*1) with 1 by ring. apply sqrt_1. }
  rewrite NN. unfold dot3, scal3, X, Y, Zc; cbn [fst snd]. field.
Qed.

(** ** C41 massmatrix *)
Theorem C41_mesh : forall V F n ty, valid (Z.of_nat n) F -> (forall t, In t F -> fnormal V t <> zero3) -> ty <> OtherType ->
  exists M, massmatrix (fun i => row_of3 (V i)) (Z.of_nat n) F ty = Ok M
    /\ sumn n (fun i => sumn n (fun j => entry M (Z.of_nat i) (Z.of_nat j))) = sumf (fun t => norm3 (fnormal V t) / 2) F
    /\ (forall i j, entry M i j = entry M j i)
    /\ (forall i j, 0 <= entry M i j)
    /\ (ty <> Full -> forall i j, i <> j -> entry M i j = 0).
Proof. exact mass_3d. Qed.
Print Assumptions C41_mesh.
Theorem C41_intrinsic : forall n L ty, valid (Z.of_nat n) (map fst L) -> ty <> OtherType ->
  (forall p, In p L -> triangle_lengths (snd p)) ->
  exists M, massmatrix_intrinsic L (Z.of_nat n) ty = Ok M
    /\ sumn n (fun i => sumn n (fun j => entry M (Z.of_nat i) (Z.of_nat j))) = sumf (fun p => dblA (snd p) / 2) L
    /\ (forall i j, entry M i j = entry M j i)
    /\ (forall i j, 0 <= entry M i j)
    /\ (ty <> Full -> forall i j, i <> j -> entry M i j = 0).
Proof. intros n L ty Va N T. apply mass_total; auto. intros p I. apply triangle_nondeg; auto. Qed.
Print Assumptions C41_intrinsic.
Theorem C41_polyline : forall V n E, (forall e, In e E -> (0 <= fst e < Z.of_nat n)%Z /\ (0 <= snd e < Z.of_nat n)%Z) ->
  exists M, massmatrix_polyline V (Z.of_nat n) E = Ok M
    /\ sumn n (fun i => sumn n (fun j => entry M (Z.of_nat i) (Z.of_nat j))) = sumf (edge_length V) E
    /\ (forall i j, i <> j -> entry M i j = 0) /\ (forall i j, 0 <= entry M i j).
Proof. exact mass_polyline_total. Qed.
Print Assumptions C41_polyline.
(** what each corner receives: the circumcentric area on acute triangles (the textbook
    (l1^2 cot1 + l2^2 cot2)/8 with cot = 2 * weight), 1/2-1/4-1/4 of the area on obtuse ones *)
Theorem C41_voronoi_share : forall l, triangle_lengths l -> let q := voronoi_quads l in
  X q + Y q + Zc q = dblA l / 2 /\ 0 <= X q /\ 0 <= Y q /\ 0 <= Zc q
  /\ (Zc l + Y l - X l >= 0 -> Zc l + X l - Y l >= 0 -> X l + Y l - Zc l >= 0 ->
      X q = (Y l * Y (cotw l) + Zc l * Zc (cotw l)) / 4
      /\ Y q = (Zc l * Zc (cotw l) + X l * X (cotw l)) / 4
      /\ Zc q = (X l * X (cotw l) + Y l * Y (cotw l)) / 4)
  /\ (Zc l + Y l - X l < 0 -> q = (dblA l / 4, dblA l / 8, dblA l / 8))
  /\ (X l + Zc l - Y l < 0 -> q = (dblA l / 8, dblA l / 4, dblA l / 8))
  /\ (X l + Y l - Zc l < 0 -> q = (dblA l / 8, dblA l / 8, dblA l / 4)).
Proof. intros l T. apply voronoi_quads_ok, triangle_nondeg, T. Qed.
Print Assumptions C41_voronoi_share.
Example C41_nonvacuous : triangle_lengths (1,1,1) /\ triangle_lengths (9,16,25).
Proof.
  unfold triangle_lengths, X, Y, Zc; cbn [fst snd]. rewrite sqrt_1.
  replace (sqrt 9) with 3 by (replace 9 with (3*3) by ring; rewrite sqrt_square; lra).
  replace (sqrt 16) with 4 by (replace 16 with (4*4) by ring; rewrite sqrt_square; lra).
  replace (sqrt 25) with 5 by (replace 25 with (5*5) by ring; rewrite sqrt_square; lra).
  repeat split; lra.
Qed.

(** ** C42 grad *)
(** 3D surface: gradient of the affine function s.p + d on face f = s minus its normal part *)
Theorem C42_surface : forall V n F, valid (Z.of_nat n) F -> exists G, grad3 V (Z.of_nat n) F = Ok G /\
  forall (s : vec3) (d : R) f t, nth_error F f = Some t -> fnormal V t <> zero3 ->
    let x := fun i => dot3 s (V i) + d in
    let nn := fnormal V t in
    (mulv n G x (Z.of_nat f), mulv n G x (Z.of_nat (length F + f)), mulv n G x (Z.of_nat (2 * length F + f)))
    = sub3 s (scal3 (dot3 s nn / dot3 nn nn) nn).
Proof.
  intros V n F Va. destruct (grad3_ok V n F Va) as (G & E & _). exists G. split; auto.
  exact (grad3_affine V n F G Va E).
Qed.
Print Assumptions C42_surface.
Theorem C42_planar : forall V n F, valid (Z.of_nat n) F -> exists G, grad2 V (Z.of_nat n) F = Ok G /\
  (forall t, In t G -> (0 <= trow t < 2 * Z.of_nat (length F))%Z) /\
  forall (s : vec2) (d : R) f t, nth_error F f = Some t -> det2 (sub2 (V (c1 t)) (V (c0 t))) (sub2 (V (c2 t)) (V (c0 t))) <> 0 ->
    let x := fun i => dot2 s (V i) + d in
    mulv n G x (Z.of_nat f) = fst s /\ mulv n G x (Z.of_nat (length F + f)) = snd s.
Proof. exact grad2_affine. Qed.
Print Assumptions C42_planar.
Theorem C42_polyline : forall V n E, (forall e, In e E -> (0 <= fst e < Z.of_nat n)%Z /\ (0 <= snd e < Z.of_nat n)%Z) ->
  exists G, grad_polyline V (Z.of_nat n) E = Ok G
    /\ forall x f e, nth_error E f = Some e -> edge_length V e <> 0 ->
       mulv n G x (Z.of_nat f) = (x (snd e) - x (fst e)) / edge_length V e.
Proof. exact grad_polyline_ok. Qed.
Print Assumptions C42_polyline.
