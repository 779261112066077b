(** Property theorems C19-C21 (structured meshes).  Code: GridMeshModel.v. *)
From Verif Require Import NumpyModel PyExn TopoModel TopoSpec Vec MatModel MatProofs GeomModel SubdivSpec GridMeshModel GridMeshProofs GridMesh2Proofs CubeProofs.
From Coq Require Import Psatz.
Open Scope Z_scope.

(** *** C19.  Vertex r*nx+c sits at (-1 + 2c/(nx-1), -1 + 2r/(ny-1)); an edge has no opposite half-edge
    exactly when it lies on one of the four sides. *)
Theorem C19_regular_square_mesh : forall nx ny, 2 <= nx -> 2 <= ny ->
  let V := fst (regular_square_mesh nx ny) in let F := snd (regular_square_mesh nx ny) in
  let p i := nth (Z.to_nat i) V (0, 0)%R in
  length V = Z.to_nat (nx * ny) /\ length F = Z.to_nat (2 * (nx - 1) * (ny - 1))
  /\ (forall r c, 0 <= r < ny -> 0 <= c < nx -> p (r * nx + c) = (-1 + 2 * IZR c / (IZR nx - 1), -1 + 2 * IZR r / (IZR ny - 1))%R)
  /\ in_range (nx * ny) F /\ good_mesh F
  /\ (forall a b c, In (a, b, c) F -> (det2 (sub2 (p b) (p a)) (sub2 (p c) (p a)) = 4 / ((IZR nx - 1) * (IZR ny - 1)))%R
                                   /\ (0 < 4 / ((IZR nx - 1) * (IZR ny - 1)))%R)
  /\ sumf (fun t => let '(a, b, c) := t in det2 (sub2 (p b) (p a)) (sub2 (p c) (p a)) / 2)%R F = 4%R
  /\ (forall a b, In (a, b) (all_sides F) -> (In (b, a) (all_sides F) <->
        ~ ((a / nx = 0 /\ b / nx = 0) \/ (a / nx = ny - 1 /\ b / nx = ny - 1) \/ (a mod nx = 0 /\ b mod nx = 0) \/ (a mod nx = nx - 1 /\ b mod nx = nx - 1)))).
Proof.
  intros nx ny Hx Hy V F p. destruct (square_counts nx ny) as [L1 L2]; try lia.
  assert (RX : (2 <= IZR nx)%R) by (apply IZR_le; lia). assert (RY : (2 <= IZR ny)%R) by (apply IZR_le; lia).
  pose proof (step_open (ny-1)) as SA. pose proof (step_open (nx-1)) as SB. replace (nx - 1 + 1) with nx in SB by lia. replace (ny - 1 + 1) with ny in SA by lia.
  split; [exact L1|]. split; [exact L2|]. split.
  { intros r c Hr Hc. pose proof (square_pos nx ny r c Hr Hc) as Q. unfold sq_pos in Q. unfold p, V. rewrite Q. unfold lin. f_equal; field; lra. }
  split; [replace (nx * ny) with (ny * nx) by lia; apply (grid_range (fun r => r) (fun c => c) _ _ ny nx SA SB)|].
  split; [apply (grid_good (fun r => r) (fun c => c) _ _ ny nx SA SB)|].
  split.
  { intros a b c I. split; [exact (square_area nx ny (a,b,c) Hx Hy I)|]. apply Rdiv_lt_0_compat; [lra|]. apply Rmult_lt_0_compat; lra. }
  split.
  { rewrite (sumf_const_list _ (2 / ((IZR nx - 1) * (IZR ny - 1)))%R).
    - unfold F. rewrite L2, INR_IZR_INZ, Z2Nat.id by nia. rewrite !mult_IZR, !minus_IZR. field. lra.
    - intros [[a b] c] I. pose proof (square_area nx ny (a,b,c) Hx Hy I) as Q. cbv beta zeta iota in Q. unfold sq_pos in Q. unfold p, V. rewrite Q. field. lra. }
  intros a b I. exact (square_rev nx ny (a,b) Hx Hy I).
Qed.
Print Assumptions C19_regular_square_mesh.
Example C19_nonvacuous : snd (regular_square_mesh 3 2) = [(0,4,3); (1,5,4); (0,1,4); (1,2,5)].
Proof. reflexivity. Qed.

(** *** C20 *)
Theorem C20_torus : forall nR nr RR rr V F, torus nR nr RR rr = Ok (V, F) ->
  good_mesh F /\ in_range (nR * nr) F /\ length V = Z.to_nat (nR * nr) /\ length F = Z.to_nat (2 * nR * nr)
  /\ (forall a b, In (a, b) (all_sides F) -> In (b, a) (all_sides F))
  /\ (forall x y z, In (x, y, z) V -> (x*x + y*y + z*z + RR*RR - rr*rr) * (x*x + y*y + z*z + RR*RR - rr*rr) = 4 * RR * RR * (x*x + y*y))%R.
Proof.
  intros nR nr RR rr V F Q. apply torus_closed in Q as (A & B & C & D & E & G). repeat (split; [assumption|]). split.
  - intros a b I. exact (E (a,b) I).
  - intros x y z I. exact (G (x,y,z) I).
Qed.
Print Assumptions C20_torus.
Theorem C20_cylinder : forall nx nz V F, cylinder nx nz = Ok (V, F) ->
  good_mesh F /\ in_range (nx * nz) F /\ length V = Z.to_nat (nx * nz) /\ length F = Z.to_nat (2 * nx * (nz - 1))
  /\ (forall a b, In (a, b) (all_sides F) -> (In (b, a) (all_sides F) <-> ~ ((a / nx = 0 /\ b / nx = 0) \/ (a / nx = nz - 1 /\ b / nx = nz - 1))))
  /\ (forall x y z, In (x, y, z) V -> x * x + y * y = 1 /\ 0 <= z <= 1)%R.
Proof.
  intros nx nz V F Q. apply cylinder_ok in Q as (A & B & C & D & E & G). repeat (split; [assumption|]). split.
  - intros a b I. exact (E (a,b) I).
  - intros x y z I. exact (G (x,y,z) I).
Qed.
Print Assumptions C20_cylinder.
Theorem C20_cone : forall nx nz V F, cone nx nz = Ok (V, F) ->
  good_mesh F /\ in_range (nx * (nz - 1) + 1) F /\ length V = Z.to_nat (nx * (nz - 1) + 1) /\ length F = Z.to_nat (2 * nx * (nz - 2) + nx)
  /\ (forall a b, In (a, b) (all_sides F) -> (In (b, a) (all_sides F) <-> ~ (a / nx = 0 /\ b / nx = 0)))
  /\ (forall x y z, In (x, y, z) V -> x * x + y * y = (1 - z) * (1 - z))%R.
Proof.
  intros nx nz V F Q. apply cone_ok in Q as (A & B & C & D & E & G). repeat (split; [assumption|]). split.
  - intros a b I. exact (E (a,b) I).
  - intros x y z I. exact (G (x,y,z) I).
Qed.
Print Assumptions C20_cone.
(** vertex r*nx+c of the cylinder / cone lies on ring r, at height r/(nz-1): the boundary circles are the ends *)
Theorem C20_rings : forall nx nz V F, (cylinder nx nz = Ok (V, F) -> forall r c, 0 <= r < nz -> 0 <= c < nx ->
    nth (Z.to_nat (r * nx + c)) V zero3 = (cos (2 * PI * IZR c / IZR nx), sin (2 * PI * IZR c / IZR nx), IZR r / (IZR nz - 1))%R)
  /\ (cone nx nz = Ok (V, F) -> forall r c, 0 <= r < nz - 1 -> 0 <= c < nx ->
    let s := (1 - IZR r / (IZR nz - 1))%R in
    nth (Z.to_nat (r * nx + c)) V zero3 = (cos (2 * PI * IZR c / IZR nx) * s, sin (2 * PI * IZR c / IZR nx) * s, IZR r / (IZR nz - 1))%R).
Proof.
  intros nx nz V F. 
  assert (A : forall c, 3 <= nx -> lin_open 0 (2 * PI) nx c = (2 * PI * IZR c / IZR nx)%R).
  { intros c H. unfold lin_open. apply IZR_le in H. field. lra. }
  split.
  - unfold cylinder. destruct (Z.ltb_spec nx 3), (Z.ltb_spec nz 2); cbn [orb]; intros Q; try (exfalso; discriminate); injection Q as <- <-; intros r c Hr Hc.
    apply nth_error_nth. rewrite nth_error_map, cells_nth by auto. cbv [option_map fst snd]. rewrite A by lia. f_equal. f_equal.
    unfold lin. assert (2 <= IZR nz)%R by (apply IZR_le; lia). field. lra.
  - unfold cone. destruct (Z.ltb_spec nx 3), (Z.ltb_spec nz 2); cbn [orb]; intros Q; try (exfalso; discriminate); injection Q as <- <-; intros r c Hr Hc.
    rewrite app_nth1 by (rewrite map_length, cells_length; nia).
    apply nth_error_nth. rewrite nth_error_map, cells_nth by auto. cbv [option_map fst snd]. rewrite A by lia.
    assert (2 <= IZR nz)%R by (apply IZR_le; lia).
    replace (lin 0 1 (nz - 1 + 1) r) with (IZR r / (IZR nz - 1))%R by (unfold lin; replace (nz - 1 + 1) with nz by lia; field; lra). reflexivity.
Qed.
Print Assumptions C20_rings.
Example C20_nonvacuous : (exists V F, torus 3 4 2 1 = Ok (V, F)) /\ (exists V F, cylinder 3 2 = Ok (V, F) /\ length F = 6%nat) /\ (exists V, cone 3 2 = Ok (V, [(0,1,3); (1,2,3); (2,0,3)])).
Proof.
  split; [|split].
  - unfold torus. change ((3 <? 3) || (4 <? 3)) with false. cbv iota. destruct (Rlt_dec 0 2) as [P|P]; [|exfalso; lra]. destruct (Rlt_dec 0 1) as [P'|P']; [|exfalso; lra]. do 2 eexists. reflexivity.
  - do 2 eexists. split; reflexivity.
  - eexists. reflexivity.
Qed.
(** too small sizes are rejected *)
Theorem C20_guards : forall nR nr RR rr, ((nR < 3 \/ nr < 3) -> torus nR nr RR rr = Err AssertionError)
  /\ (nR < 3 \/ nr < 2 -> cylinder nR nr = Err AssertionError /\ cone nR nr = Err AssertionError).
Proof.
  intros. unfold torus, cylinder, cone. destruct (Z.ltb_spec nR 3), (Z.ltb_spec nr 3), (Z.ltb_spec nr 2); cbn [orb]; split; intros; auto; lia.
Qed.

(** *** C21 *)
Theorem C21_regular_cube_mesh : forall nx ny nz t V T, 2 <= nx -> 2 <= ny -> 2 <= nz -> regular_cube_mesh nx ny nz t = Ok (V, T) ->
  let p i := nth (Z.to_nat i) V zero3 in
  length V = Z.to_nat (nx * ny * nz)
  /\ (forall i j k, 0 <= i < nx -> 0 <= j < ny -> 0 <= k < nz -> p (k + nz * (i + nx * j)) = (IZR i / (IZR nx - 1), IZR j / (IZR ny - 1), IZR k / (IZR nz - 1))%R)
  /\ (forall a b c d, In (a, b, c, d) T -> 0 <= a < nx * ny * nz /\ 0 <= b < nx * ny * nz /\ 0 <= c < nx * ny * nz /\ 0 <= d < nx * ny * nz)
  /\ (forall s, In s T -> 0 < volume p s)%R
  /\ sumf (volume p) T = 1%R
  /\ (forall s g s' g', In s T -> In g (bdry_facets s) -> In s' T -> In g' (bdry_facets s') -> rot_eq g g' -> s = s' /\ g = g').
Proof.
  intros nx ny nz t V T Hx Hy Hz Q p. pose proof (cube_volumes nx ny nz t V T zero3 Hx Hy Hz Q) as [A B]. pose proof (cube_indices nx ny nz t V T Q) as C.
  pose proof (cube_facets_unique nx ny nz t V T Q) as D. apply cube_inv in Q as (_ & QV & _).
  split; [rewrite QV, map_length, zseq_length; auto|]. split.
  { intros i j k Hi Hj Hk. unfold p. rewrite QV. assert (BX : inbox nx ny nz (k,i,j)) by (cbn; auto).
    change (k + nz * (i + nx * j)) with (cidx nx nz (k,i,j)). rewrite cube_V_nth by (eapply cidx_range; eauto). rewrite cube_pos by auto.
    apply IZR_le in Hx, Hy, Hz. unfold lin. f_equal; [f_equal|]; field; lra. }
  split; [intros a b c d I; exact (C _ I)|]. auto.
Qed.
Print Assumptions C21_regular_cube_mesh.
(** conformity: a facet is either shared, with the opposite orientation, with another tet, or lies on the boundary of the cube *)
Theorem C21_conforming_partial : forall nx ny nz t V T, t = Reflectional \/ t = Rotational -> 2 <= nx -> 2 <= ny -> 2 <= nz -> regular_cube_mesh nx ny nz t = Ok (V, T) ->
  forall s a b c, In s T -> In (a, b, c) (bdry_facets s) ->
  (exists s' h, In s' T /\ In h (bdry_facets s') /\ rot_eq h (b, a, c))
  \/ (exists ax x, (x = 0%R \/ x = 1%R) /\ (ax = X \/ ax = Y \/ ax = Zc) /\ let p i := nth (Z.to_nat i) V zero3 in
      ax (p a) = x /\ ax (p b) = x /\ ax (p c) = x).
Proof. intros nx ny nz t V T Ht Hx Hy Hz Q s a b c I J. exact (cube_conform nx ny nz t V T Ht Hx Hy Hz Q s (a,b,c) I J). Qed.
Print Assumptions C21_conforming_partial.
Example C21_nonvacuous : exists V T, regular_cube_mesh 3 2 2 Rotational = Ok (V, T) /\ length T = 12%nat /\ In (0,2,9,3) T.
Proof. do 2 eexists. split; [reflexivity|]. split; [reflexivity|]. vm_compute. tauto. Qed.
(** 'five' is not conforming: in a 3x2x2 grid the facet {2,3,8} in the interior plane x = 1/2 belongs to one tet only
    (five-tet cubes must alternate between two mirrored patterns, the code repeats one) *)
Theorem C21_five_conforming_refuted : exists V T s, regular_cube_mesh 3 2 2 Five = Ok (V, T) /\ In s T /\ In (3, 8, 2) (facets s)
  /\ facet_incidence T (3, 8, 2) = 1%nat
  /\ (forall i : Z, In i [3; 8; 2] -> (X (nth (Z.to_nat i) V zero3) = 1 / 2)%R).
Proof.
  do 2 eexists. exists (3,8,4,2). split; [reflexivity|]. split; [vm_compute; tauto|]. split; [vm_compute; tauto|]. split; [vm_compute; reflexivity|].
  intros i I. rewrite cube_V_nth by (cbn in I; lia). cbn in I. destruct I as [<-|[<-|[<-|[]]]]; unfold cube_vertex, X, lin; cbn [fst snd];
  match goal with |- context [IZR ((?a / ?b) mod ?c)] => let v := eval vm_compute in ((a / b) mod c) in change ((a / b) mod c) with v end; lra.
Qed.
Print Assumptions C21_five_conforming_refuted.
(** hexahedra: each row lists the eight corners of its cell, bottom square counter-clockwise then top square *)
Theorem C21_hex : forall nx ny nz, 2 <= nx -> 2 <= ny -> 2 <= nz ->
  let V := fst (regular_hex_mesh nx ny nz) in let H := snd (regular_hex_mesh nx ny nz) in
  length H = Z.to_nat ((nx-1)*(ny-1)*(nz-1))
  /\ forall h, In h H <-> exists i j k, 0 <= i < nx - 1 /\ 0 <= j < ny - 1 /\ 0 <= k < nz - 1 /\
     let q a b c := k + c + nz * (i + a + nx * (j + b)) in
     h = [q 0 0 0; q 1 0 0; q 1 1 0; q 0 1 0; q 0 0 1; q 1 0 1; q 1 1 1; q 0 1 1].
Proof.
  intros nx ny nz Hx Hy Hz V H. split.
  - unfold H, regular_hex_mesh. cbn [snd]. rewrite map_length, cubes_length. rewrite !Z2Nat.inj_mul by nia. lia.
  - intros h. unfold H, regular_hex_mesh. cbn [snd]. rewrite in_map_iff. split.
    + intros ([[k i] j] & <- & I). apply in_cubes in I. exists i, j, k. repeat (split; [tauto|]). reflexivity.
    + intros (i & j & k & I & J & K & ->). exists (k, i, j). rewrite in_cubes. split; [reflexivity | auto].
Qed.
Print Assumptions C21_hex.
Theorem C21_unknown_type : forall nx ny nz, regular_cube_mesh nx ny nz OtherType = Err UnboundLocalError.
Proof. reflexivity. Qed.
