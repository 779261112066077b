(** Property theorems C22-C23 (grids and finite differences).  Code: GridNbModel.v, FdModel.v.
    Vocabulary for C22: [near2]/[near3] is adjacency of grid positions (sharing a side; also a corner with
    include_diagonals; also equality with include_self), [walk R n] a chain of n related positions,
    [inside2]/[inside3] membership in the grid. *)
From Verif Require Import NumpyModel NumpyProofs PyExn Vec MatModel MatProofs SubdivModel GridMeshModel GridMeshProofs GridNbModel GridNbProofs FdModel FdProofs.
From Coq Require Import Psatz Permutation.
Open Scope Z_scope.

(** *** C22 *)
Theorem C22_neighbors_2d : forall g0 g1 diag self, 0 < g0 -> 0 < g1 ->
  let N := grid_neighbors2 g0 g1 1 diag self false in
  length N = ((if diag then 8 else 4) + (if self then 1 else 0))%nat
  /\ (forall y x r, inside2 g0 g1 (y, x) -> In r N -> r (y + g0 * x) = -1 \/ exists y' x', inside2 g0 g1 (y', x') /\ r (y + g0 * x) = y' + g0 * x')
  /\ (forall y x y' x', inside2 g0 g1 (y, x) -> inside2 g0 g1 (y', x') ->
      ((exists r, In r N /\ r (y + g0 * x) = y' + g0 * x') <-> near2 diag self (y, x) (y', x'))).
Proof.
  intros g0 g1 diag self H0 H1 N.
  assert (U : forall y x, inside2 g0 g1 (y,x) -> unravel2 g0 (y + g0 * x) = (y,x) /\ 0 <= y + g0 * x < g0 * g1).
  { intros y x I. pose proof (unravel_ravel2 g0 g1 (y,x) H0 I) as Q. pose proof (ravel2_range g0 g1 (y,x) H0 H1) as B. destruct I as [I J]. unfold ravel2 in Q, B. rewrite (Z.mod_small _ _ I), (Z.mod_small _ _ J) in Q, B. auto. }
  split; [destruct diag, self; reflexivity|]. split.
  - intros y x r I J. apply in_map_iff in J as (f & <- & J). unfold iterate in J. cbn [Z.sub Z.to_nat Nat.iter] in J. apply in_map_iff in J as (o & <- & J).
    unfold final. cbv zeta. cbn [fst snd]. set (q := add2z _ _). destruct (oob2 g0 g1 q) eqn:E; auto. right. apply oob2_spec in E.
    destruct q as [y' x']. exists y', x'. split; auto. destruct E as [E1 E2]. unfold ravel2. rewrite (Z.mod_small _ _ E1), (Z.mod_small _ _ E2). auto.
  - intros y x y' x' I I'. destruct (U y x I) as [U1 R1]. destruct (U y' x' I') as [U2 R2].
    unfold N, grid_neighbors2. rewrite finish_hits by lia. change (iterate 1 ?l) with l. rewrite hits_base2 by auto. rewrite U1, U2. unfold step2. tauto.
Qed.
Print Assumptions C22_neighbors_2d.
Theorem C22_neighbors_3d : forall g0 g1 g2 diag self, 0 < g0 -> 0 < g1 -> 0 < g2 ->
  let N := grid_neighbors3 g0 g1 g2 1 diag self false in
  length N = ((if diag then 26 else 6) + (if self then 1 else 0))%nat
  /\ (forall z y x r, inside3 g0 g1 g2 (z, y, x) -> In r N -> r (z + g0 * (y + g1 * x)) = -1 \/ exists z' y' x', inside3 g0 g1 g2 (z', y', x') /\ r (z + g0 * (y + g1 * x)) = z' + g0 * (y' + g1 * x'))
  /\ (forall z y x z' y' x', inside3 g0 g1 g2 (z, y, x) -> inside3 g0 g1 g2 (z', y', x') ->
      ((exists r, In r N /\ r (z + g0 * (y + g1 * x)) = z' + g0 * (y' + g1 * x')) <-> near3 diag self (z, y, x) (z', y', x'))).
Proof.
  intros g0 g1 g2 diag self H0 H1 H2 N.
  assert (U : forall z y x, inside3 g0 g1 g2 (z,y,x) -> unravel3 g0 g1 (z + g0 * (y + g1 * x)) = (z,y,x) /\ 0 <= z + g0 * (y + g1 * x) < g0 * g1 * g2).
  { intros z y x I. pose proof (unravel_ravel3 g0 g1 g2 (z,y,x) H0 H1 I) as Q. pose proof (ravel3_range g0 g1 g2 (z,y,x) H0 H1 H2) as B. destruct I as (I & J & K). unfold ravel3 in Q, B. rewrite (Z.mod_small _ _ I), (Z.mod_small _ _ J), (Z.mod_small _ _ K) in Q, B. auto. }
  split; [destruct diag, self; reflexivity|]. split.
  - intros z y x r I J. apply in_map_iff in J as (f & <- & J). unfold iterate in J. cbn [Z.sub Z.to_nat Nat.iter] in J. apply in_map_iff in J as (o & <- & J).
    unfold final. cbv zeta. cbn [fst snd]. set (q := add3z _ _). destruct (oob3 g0 g1 g2 q) eqn:E; auto. right. apply oob3_spec in E.
    destruct q as [[z' y'] x']. exists z', y', x'. split; auto. destruct E as (E1 & E2 & E3). unfold ravel3. rewrite (Z.mod_small _ _ E1), (Z.mod_small _ _ E2), (Z.mod_small _ _ E3). auto.
  - intros z y x z' y' x' I I'. destruct (U z y x I) as [U1 R1]. destruct (U z' y' x' I') as [U2 R2].
    unfold N, grid_neighbors3. rewrite finish_hits by lia. change (iterate 1 ?l) with l. rewrite hits_base3 by auto. rewrite U1, U2. unfold step3. tauto.
Qed.
Print Assumptions C22_neighbors_3d.
Example C22_nonvacuous : map (fun r => r 4) (grid_neighbors2 3 4 1 false false false) = [1; 7; 3; 5] /\ map (fun r => r 0) (grid_neighbors2 3 4 1 true true true) = [0; 1; -1; 3; 4; -1; -1; -1; -1].
Proof. split; vm_compute; reflexivity. Qed.

(** higher orders: after order passes the column holds the cells reached by walks inside the grid of at most
    2^(order-1) steps; this is the documented neighbourhood for order <= 2 *)
Theorem C22_walks_2d : forall g0 g1 order diag self, 0 < g0 -> 0 < g1 -> forall y x y' x', inside2 g0 g1 (y, x) -> inside2 g0 g1 (y', x') ->
  ((exists r, In r (grid_neighbors2 g0 g1 order diag self false) /\ r (y + g0 * x) = y' + g0 * x') <->
   exists n, (1 <= n <= 2 ^ Z.to_nat (order - 1))%nat /\ walk (fun p q => inside2 g0 g1 q /\ near2 diag self p q) n (y, x) (y', x')).
Proof.
  intros g0 g1 order diag self H0 H1.
  assert (U : forall y x, inside2 g0 g1 (y,x) -> unravel2 g0 (y + g0 * x) = (y,x) /\ 0 <= y + g0 * x < g0 * g1).
  { intros y x I. pose proof (unravel_ravel2 g0 g1 (y,x) H0 I) as Q. pose proof (ravel2_range g0 g1 (y,x) H0 H1) as B. destruct I as [I J]. unfold ravel2 in Q, B. rewrite (Z.mod_small _ _ I), (Z.mod_small _ _ J) in Q, B. auto. }
  intros y x y' x' I I'. destruct (U y x I) as [U1 R1]. destruct (U y' x' I') as [U2 R2].
  unfold grid_neighbors2. rewrite finish_hits by lia. unfold iterate. rewrite hits_iter.
  split; intros (n & Hn & W); exists n; (split; [auto|]).
  - apply walk2 in W as [_ W]; auto. rewrite U1, U2 in W. exact W.
  - apply walk2; auto. rewrite U1, U2. split; auto.
Qed.
Print Assumptions C22_walks_2d.
Theorem C22_walks_3d : forall g0 g1 g2 order diag self, 0 < g0 -> 0 < g1 -> 0 < g2 -> forall z y x z' y' x', inside3 g0 g1 g2 (z, y, x) -> inside3 g0 g1 g2 (z', y', x') ->
  ((exists r, In r (grid_neighbors3 g0 g1 g2 order diag self false) /\ r (z + g0 * (y + g1 * x)) = z' + g0 * (y' + g1 * x')) <->
   exists n, (1 <= n <= 2 ^ Z.to_nat (order - 1))%nat /\ walk (fun p q => inside3 g0 g1 g2 q /\ near3 diag self p q) n (z, y, x) (z', y', x')).
Proof.
  intros g0 g1 g2 order diag self H0 H1 H2.
  assert (U : forall z y x, inside3 g0 g1 g2 (z,y,x) -> unravel3 g0 g1 (z + g0 * (y + g1 * x)) = (z,y,x) /\ 0 <= z + g0 * (y + g1 * x) < g0 * g1 * g2).
  { intros z y x I. pose proof (unravel_ravel3 g0 g1 g2 (z,y,x) H0 H1 I) as Q. pose proof (ravel3_range g0 g1 g2 (z,y,x) H0 H1 H2) as B. destruct I as (I & J & K). unfold ravel3 in Q, B. rewrite (Z.mod_small _ _ I), (Z.mod_small _ _ J), (Z.mod_small _ _ K) in Q, B. auto. }
  intros z y x z' y' x' I I'. destruct (U z y x I) as [U1 R1]. destruct (U z' y' x' I') as [U2 R2].
  unfold grid_neighbors3. rewrite finish_hits by lia. unfold iterate. rewrite hits_iter.
  split; intros (n & Hn & W); exists n; (split; [auto|]).
  - apply (walk3 g0 g1 g2) in W as [_ W]; auto. rewrite U1, U2 in W. exact W.
  - apply (walk3 g0 g1 g2); auto. rewrite U1, U2. split; auto.
Qed.
Print Assumptions C22_walks_3d.
(** order = 3 returns cells four steps away *)
Theorem C22_order3_refuted : (exists r, In r (grid_neighbors2 9 1 3 false false false) /\ r 0 = 4)
  /\ (forall n, (n <= 3)%nat -> ~ walk (fun p q => inside2 9 1 q /\ near2 false false p q) n (0, 0) (4, 0)).
Proof.
  split.
  - apply (finish_hits 3 (base2 9 1 false false)); [lia|]. unfold iterate. change (Z.to_nat (3 - 1)) with 2%nat. apply hits_iter. exists 4%nat. split; [change (2 ^ 2)%nat with 4%nat; lia|].
    assert (S : forall c, 0 <= c < 8 -> hits (base2 9 1 false false) c (c + 1)).
    { intros c Hc. exists (fun c => (ravel2 9 1 (add2z (unravel2 9 c) (1,0)), oob2 9 1 (add2z (unravel2 9 c) (1,0)))). split; [cbn; tauto|].
      assert (E : unravel2 9 c = (c, 0)) by (unfold unravel2; rewrite Z.mod_small, Z.div_small by lia; auto). rewrite E. unfold add2z, ravel2; cbn [fst snd].
      rewrite (Z.mod_small (c + 1)) by lia. rewrite Z.mod_1_r. f_equal; [lia|]. apply oob2_spec. unfold inside2; cbn [fst snd]. lia. }
    exists 1. split; [apply (S 0); lia|]. exists 2. split; [apply (S 1); lia|]. exists 3. split; [apply (S 2); lia|]. exists 4. split; [apply (S 3); lia|]. reflexivity.
  - assert (G : forall n p q, walk (fun p q => inside2 9 1 q /\ near2 false false p q) n p q -> fst q - fst p <= Z.of_nat n).
    { induction n as [|n IH]; intros p q W; cbn [walk] in W; [subst; lia|]. destruct W as (m & [_ S] & W). apply IH in W. unfold near2 in S. destruct S as [S|[[S _]|[S _]]]; try discriminate. lia. }
    intros n Hn W. apply G in W. cbn in W. lia.
Qed.
Print Assumptions C22_order3_refuted.
(** with include_self=False a cell is nevertheless listed as its own neighbour for order = 2 *)
Theorem C22_self_refuted : exists r, In r (grid_neighbors2 3 3 2 false false false) /\ r 4 = 4.
Proof. eexists. split; [cbn [grid_neighbors2 finish]; unfold finish; apply in_map; right; right; right; right; right; left; reflexivity|]. vm_compute. reflexivity. Qed.
(** output_unique only reorders the rows when every side has at least three cells *)
Theorem C22_unique_partial : forall diag self,
  (forall g0 g1, 3 <= g0 -> 3 <= g1 -> Permutation (grid_neighbors2 g0 g1 1 diag self true) (grid_neighbors2 g0 g1 1 diag self false))
  /\ (forall g0 g1 g2, 3 <= g0 -> 3 <= g1 -> 3 <= g2 -> Permutation (grid_neighbors3 g0 g1 g2 1 diag self true) (grid_neighbors3 g0 g1 g2 1 diag self false)).
Proof.
  intros diag self. split; intros; apply Permutation_map; apply unique_rows_perm; [apply base2_col0 | apply base3_col0]; auto.
Qed.
Print Assumptions C22_unique_partial.
(** on a 2 x 2 grid the default output_unique=True drops both neighbours of cell 0 *)
Theorem C22_unique_refuted : map (fun r => r 0) (grid_neighbors2 2 2 1 false false true) = [-1; -1] /\ map (fun r => r 0) (grid_neighbors2 2 2 1 false false false) = [-1; 2; -1; 1].
Proof. split; vm_compute; reflexivity. Qed.

(** *** C23 *)
Theorem C23_interpolate_2d : forall P nx ny h c, (0 < fst h)%R -> (0 < snd h)%R -> exists W, fd_interpolate2 P (nx, ny) h c = Ok W /\
  forall i p, nth_error P i = Some p ->
    (fst c <= fst p <= fst c + (IZR nx - 1) * fst h)%R -> (snd c <= snd p <= snd c + (IZR ny - 1) * snd h)%R ->
    let node j := (fst c + IZR (j mod nx) * fst h, snd c + IZR (j / nx) * snd h)%R in
    (forall j, 0 <= entry W (Z.of_nat i) j)%R
    /\ mulv (Z.to_nat (nx * ny)) W (fun _ => 1%R) (Z.of_nat i) = 1%R
    /\ mulv (Z.to_nat (nx * ny)) W (fun j => fst (node j)) (Z.of_nat i) = fst p
    /\ mulv (Z.to_nat (nx * ny)) W (fun j => snd (node j)) (Z.of_nat i) = snd p
    /\ (forall a bx by_ bxy, mulv (Z.to_nat (nx * ny)) W (fun j => a + bx * fst (node j) + by_ * snd (node j) + bxy * (fst (node j) * snd (node j)))%R (Z.of_nat i) = a + bx * fst p + by_ * snd p + bxy * (fst p * snd p))%R
    /\ (forall x y, 0 <= x < nx -> 0 <= y < ny -> entry W (Z.of_nat i) (x + nx * y) <> 0%R ->
        (Rabs (fst c + IZR x * fst h - fst p) < fst h /\ Rabs (snd c + IZR y * snd h - snd p) < snd h)%R).
Proof.
  intros P nx ny h c Hx Hy. exists (W2 P nx ny h c). split; [apply fd2_ok|].
  intros i p Hi B1 B2 node. assert (B : inbox2 nx ny h c p) by (split; auto).
  destruct (coord nx _ _ _ Hx B1) as (_ & _ & _ & E1). destruct (coord ny _ _ _ Hy B2) as (_ & _ & _ & E2).
  set (ix := flo ((fst p - fst c) / fst h)) in *. set (iy := flo ((snd p - snd c) / snd h)) in *.
  set (vx := ((fst p - (fst c + IZR ix * fst h)) / fst h)%R) in *. set (vy := ((snd p - (snd c + IZR iy * snd h)) / snd h)%R) in *.
  assert (A : forall F, mulv (Z.to_nat (nx * ny)) (W2 P nx ny h c) (fun j => F (j mod nx) (j / nx)) (Z.of_nat i)
     = ((1 - vy) * (1 - vx) * F ix iy + vy * (1 - vx) * F ix (iy + 1)%Z + (1 - vy) * vx * F (ix + 1)%Z iy + vy * vx * F (ix + 1)%Z (iy + 1)%Z)%R).
  { intros F. rewrite (W2_apply P nx ny h c Hx Hy F i p Hi B). cbn [sumf corners2 fst snd w01 Z.eqb]. fold ix iy. fold vx vy. rewrite !Z.add_0_r. ring. }
  assert (BL : forall a bx by_ bxy, mulv (Z.to_nat (nx * ny)) (W2 P nx ny h c) (fun j => a + bx * fst (node j) + by_ * snd (node j) + bxy * (fst (node j) * snd (node j)))%R (Z.of_nat i) = (a + bx * fst p + by_ * snd p + bxy * (fst p * snd p))%R).
  { intros a bx by_ bxy. unfold node; cbn [fst snd].
    rewrite (A (fun x y => a + bx * (fst c + IZR x * fst h) + by_ * (snd c + IZR y * snd h) + bxy * ((fst c + IZR x * fst h) * (snd c + IZR y * snd h)))%R).
    rewrite E1, E2, !plus_IZR. ring. }
  split; [intros j; apply (W2_entry_nonneg P nx ny h c Hx Hy i p j Hi B)|].
  assert (Q : forall f g, (forall j, f j = g j) -> mulv (Z.to_nat (nx * ny)) (W2 P nx ny h c) f (Z.of_nat i) = mulv (Z.to_nat (nx * ny)) (W2 P nx ny h c) g (Z.of_nat i)).
  { intros f g E. unfold mulv, sumn. apply sumf_ext. intros. rewrite E. auto. }
  split; [rewrite (Q _ (fun j => 1 + 0 * fst (node j) + 0 * snd (node j) + 0 * (fst (node j) * snd (node j)))%R) by (intros; ring); rewrite BL; ring|].
  split; [rewrite (Q _ (fun j => 0 + 1 * fst (node j) + 0 * snd (node j) + 0 * (fst (node j) * snd (node j)))%R) by (intros; ring); rewrite BL; ring|].
  split; [rewrite (Q _ (fun j => 0 + 0 * fst (node j) + 1 * snd (node j) + 0 * (fst (node j) * snd (node j)))%R) by (intros; ring); rewrite BL; ring|].
  split; [exact BL|]. intros x y Rx Ry. apply (W2_support P nx ny h c Hx Hy i p x y Hi B Rx Ry).
Qed.
Print Assumptions C23_interpolate_2d.
Theorem C23_interpolate_3d : forall P nx ny nz h c, (0 < X h)%R -> (0 < Y h)%R -> (0 < Zc h)%R -> exists W, fd_interpolate3 P (nx, ny, nz) h c = Ok W /\
  forall i p, nth_error P i = Some p ->
    (X c <= X p <= X c + (IZR nx - 1) * X h)%R -> (Y c <= Y p <= Y c + (IZR ny - 1) * Y h)%R -> (Zc c <= Zc p <= Zc c + (IZR nz - 1) * Zc h)%R ->
    let node j := (X c + IZR (j mod nx) * X h, Y c + IZR ((j / nx) mod ny) * Y h, Zc c + IZR (j / nx / ny) * Zc h)%R in
    let N := Z.to_nat (nx * ny * nz) in
    (forall j, 0 <= entry W (Z.of_nat i) j)%R
    /\ mulv N W (fun _ => 1%R) (Z.of_nat i) = 1%R
    /\ mulv N W (fun j => X (node j)) (Z.of_nat i) = X p /\ mulv N W (fun j => Y (node j)) (Z.of_nat i) = Y p /\ mulv N W (fun j => Zc (node j)) (Z.of_nat i) = Zc p
    /\ (forall a bx by_ bz, mulv N W (fun j => a + bx * X (node j) + by_ * Y (node j) + bz * Zc (node j))%R (Z.of_nat i) = a + bx * X p + by_ * Y p + bz * Zc p)%R
    /\ (forall x y z, 0 <= x < nx -> 0 <= y < ny -> 0 <= z < nz -> entry W (Z.of_nat i) (x + nx * (y + ny * z)) <> 0%R ->
        (Rabs (X c + IZR x * X h - X p) < X h /\ Rabs (Y c + IZR y * Y h - Y p) < Y h /\ Rabs (Zc c + IZR z * Zc h - Zc p) < Zc h)%R).
Proof.
  intros P nx ny nz h c Hx Hy Hz. exists (W3 P nx ny nz h c). split; [apply fd3_ok|].
  intros i p Hi B1 B2 B3 node N. assert (B : inbox3 nx ny nz h c p) by (split; auto).
  destruct (coord nx _ _ _ Hx B1) as (_ & _ & _ & E1). destruct (coord ny _ _ _ Hy B2) as (_ & _ & _ & E2). destruct (coord nz _ _ _ Hz B3) as (_ & _ & _ & E3).
  set (ix := flo ((X p - X c) / X h)) in *. set (iy := flo ((Y p - Y c) / Y h)) in *. set (iz := flo ((Zc p - Zc c) / Zc h)) in *.
  set (vx := ((X p - (X c + IZR ix * X h)) / X h)%R) in *. set (vy := ((Y p - (Y c + IZR iy * Y h)) / Y h)%R) in *. set (vz := ((Zc p - (Zc c + IZR iz * Zc h)) / Zc h)%R) in *.
  assert (BL : forall a bx by_ bz, mulv N (W3 P nx ny nz h c) (fun j => a + bx * X (node j) + by_ * Y (node j) + bz * Zc (node j))%R (Z.of_nat i) = (a + bx * X p + by_ * Y p + bz * Zc p)%R).
  { intros a bx by_ bz. 
    pose proof (W3_apply P nx ny nz h c Hx Hy Hz (fun x y z => a + bx * (X c + IZR x * X h) + by_ * (Y c + IZR y * Y h) + bz * (Zc c + IZR z * Zc h))%R i p Hi B) as A.
    etransitivity; [exact A|]. cbn [sumf corners3 w01 Z.eqb]. fold ix iy iz. fold vx vy vz. rewrite !Z.add_0_r, !plus_IZR, E1, E2, E3. ring. }
  split; [intros j; apply (W3_entry_nonneg P nx ny nz h c Hx Hy Hz i p j Hi B)|].
  assert (Q : forall f g, (forall j, f j = g j) -> mulv N (W3 P nx ny nz h c) f (Z.of_nat i) = mulv N (W3 P nx ny nz h c) g (Z.of_nat i)).
  { intros f g E. unfold mulv, sumn. apply sumf_ext. intros. rewrite E. auto. }
  split; [rewrite (Q _ (fun j => 1 + 0 * X (node j) + 0 * Y (node j) + 0 * Zc (node j))%R) by (intros; ring); rewrite BL; ring|].
  split; [rewrite (Q _ (fun j => 0 + 1 * X (node j) + 0 * Y (node j) + 0 * Zc (node j))%R) by (intros; ring); rewrite BL; ring|].
  split; [rewrite (Q _ (fun j => 0 + 0 * X (node j) + 1 * Y (node j) + 0 * Zc (node j))%R) by (intros; ring); rewrite BL; ring|].
  split; [rewrite (Q _ (fun j => 0 + 0 * X (node j) + 0 * Y (node j) + 1 * Zc (node j))%R) by (intros; ring); rewrite BL; ring|].
  split; [exact BL|]. intros x y z Rx Ry Rz. apply (W3_support P nx ny nz h c Hx Hy Hz i p x y z Hi B Rx Ry Rz).
Qed.
Print Assumptions C23_interpolate_3d.

(** fd_partial_derivative: row (x,y) of the staggered grid is the difference quotient of the nodes it sits between *)
Theorem C23_partial_2d : forall nx ny h, 1 <= nx -> 1 <= ny -> (0 < fst h)%R -> (0 < snd h)%R -> exists Dx Dy, fd_partial2 (nx, ny) h 0 = Ok Dx /\ fd_partial2 (nx, ny) h 1 = Ok Dy /\
  let N := Z.to_nat (nx * ny) in
  (forall f x y, 0 <= x < nx - 1 -> 0 <= y < ny -> mulv N Dx f (x + (nx - 1) * y) = ((f (x + 1 + nx * y)%Z - f (x + nx * y)%Z) / fst h)%R)
  /\ (forall f x y, 0 <= x < nx -> 0 <= y < ny - 1 -> mulv N Dy f (x + nx * y) = ((f (x + nx * (y + 1))%Z - f (x + nx * y)%Z) / snd h)%R).
Proof.
  intros nx ny h Hx Hy Px Py.
  set (js0 := map (fun c : Z * Z => snd c + nx * fst c) (cells ny (nx - 1))). set (js1 := map (fun c : Z * Z => snd c + nx * fst c) (cells (ny - 1) nx)).
  assert (B0 : forall j, In j js0 -> 0 <= j /\ j + 1 < nx * ny).
  { intros j I. apply in_map_iff in I as ([r c] & <- & I). apply in_cells in I. cbn in *. nia. }
  assert (B1 : forall j, In j js1 -> 0 <= j /\ j + nx < nx * ny).
  { intros j I. apply in_map_iff in I as ([r c] & <- & I). apply in_cells in I. cbn in *. nia. }
  exists (diff_trips js0 1 (fst h)), (diff_trips js1 nx (snd h)).
  split; [apply diff_ok; auto; [|lia]; unfold js0; rewrite map_length, cells_length; cbn [fst snd]; rewrite Nat2Z.inj_mul, !Z2Nat.id by lia; ring|].
  split; [apply diff_ok; auto; [|lia]; unfold js1; rewrite map_length, cells_length; cbn [fst snd]; rewrite Nat2Z.inj_mul, !Z2Nat.id by lia; ring|].
  intros N. split; intros f x y Rx Ry.
  - rewrite <- (Z2Nat.id (x + (nx - 1) * y)) by nia.
    rewrite (diff_mulv js0 1 (fst h) (nx * ny) f _ (x + nx * y)); [f_equal; f_equal; f_equal; lia | lia | exact B0 |].
    unfold js0. rewrite nth_error_map. replace (x + (nx - 1) * y) with (y * (nx - 1) + x) by ring. rewrite cells_nth by auto. reflexivity.
  - rewrite <- (Z2Nat.id (x + nx * y)) at 1 by nia.
    rewrite (diff_mulv js1 nx (snd h) (nx * ny) f _ (x + nx * y)); [f_equal; f_equal; f_equal; lia | lia | exact B1 |].
    unfold js1. rewrite nth_error_map. replace (x + nx * y) with (y * nx + x) by ring. rewrite cells_nth by auto. cbn. f_equal. ring.
Qed.
Print Assumptions C23_partial_2d.
Theorem C23_partial_3d : forall nx ny nz h, 1 <= nx -> 1 <= ny -> 1 <= nz -> exists Dx Dy Dz,
  fd_partial3 (nx, ny, nz) h 0 = Ok Dx /\ fd_partial3 (nx, ny, nz) h 1 = Ok Dy /\ fd_partial3 (nx, ny, nz) h 2 = Ok Dz /\
  let N := Z.to_nat (nx * ny * nz) in let at_ x y z := x + nx * (y + ny * z) in
  (forall f x y z, 0 <= x < nx - 1 -> 0 <= y < ny -> 0 <= z < nz -> mulv N Dx f (x + (nx - 1) * (y + ny * z)) = ((f (at_ (x + 1) y z)%Z - f (at_ x y z)) / X h)%R)
  /\ (forall f x y z, 0 <= x < nx -> 0 <= y < ny - 1 -> 0 <= z < nz -> mulv N Dy f (x + nx * (y + (ny - 1) * z)) = ((f (at_ x (y + 1) z)%Z - f (at_ x y z)) / Y h)%R)
  /\ (forall f x y z, 0 <= x < nx -> 0 <= y < ny -> 0 <= z < nz - 1 -> mulv N Dz f (x + nx * (y + ny * z)) = ((f (at_ x y (z + 1))%Z - f (at_ x y z)) / Zc h)%R).
Proof.
  intros nx ny nz h Hx Hy Hz.
  set (js := fun m0 m1 m2 => map (fun c => let '(x, y, z) := c in x + nx * (y + ny * z)) (nodes3 m0 m1 m2)).
  assert (B0 : forall j, In j (js (nx-1) ny nz) -> 0 <= j /\ j + 1 < nx * ny * nz).
  { intros j I. apply in_map_iff in I as ([[x y] z] & <- & I). apply in_nodes3 in I. assert (0 <= y + ny * z < ny * nz) by nia. nia. }
  assert (B1 : forall j, In j (js nx (ny-1) nz) -> 0 <= j /\ j + nx < nx * ny * nz).
  { intros j I. apply in_map_iff in I as ([[x y] z] & <- & I). apply in_nodes3 in I. assert (0 <= y + ny * z < ny * nz - 1) by nia. nia. }
  assert (B2 : forall j, In j (js nx ny (nz-1)) -> 0 <= j /\ j + nx * ny < nx * ny * nz).
  { intros j I. apply in_map_iff in I as ([[x y] z] & <- & I). apply in_nodes3 in I. assert (0 <= y + ny * z < ny * (nz - 1)) by nia. nia. }
  assert (L : forall m0 m1 m2, 0 <= m0 -> 0 <= m1 -> 0 <= m2 -> Z.of_nat (length (js m0 m1 m2)) = m0 * m1 * m2).
  { intros. unfold js. rewrite map_length, nodes3_length, !Nat2Z.inj_mul, !Z2Nat.id by lia. ring. }
  assert (NT : forall m0 m1 m2 x y z, 0 <= x < m0 -> 0 <= y < m1 -> 0 <= z < m2 -> nth_error (js m0 m1 m2) (Z.to_nat (x + m0 * (y + m1 * z))) = Some (x + nx * (y + ny * z))).
  { intros. unfold js. rewrite nth_error_map, nodes3_nth by auto. reflexivity. }
  exists (diff_trips (js (nx-1) ny nz) 1 (X h)), (diff_trips (js nx (ny-1) nz) nx (Y h)), (diff_trips (js nx ny (nz-1)) (nx * ny) (Zc h)).
  split; [apply diff_ok; auto; [apply L|]; lia|]. split; [apply diff_ok; auto; [apply L|]; lia|]. split; [apply diff_ok; auto; [apply L|]; nia|].
  intros N at_. split; [|split]; intros f x y z Rx Ry Rz.
  - rewrite <- (Z2Nat.id (x + (nx - 1) * (y + ny * z))) by nia.
    rewrite (diff_mulv _ 1 (X h) (nx * ny * nz) f _ (at_ x y z)); [f_equal; f_equal; f_equal; unfold at_; ring | lia | exact B0 | apply NT; auto].
  - assert (0 <= y + (ny - 1) * z) by nia. rewrite <- (Z2Nat.id (x + nx * (y + (ny - 1) * z))) by nia.
    rewrite (diff_mulv _ nx (Y h) (nx * ny * nz) f _ (at_ x y z)); [f_equal; f_equal; f_equal; unfold at_; ring | lia | exact B1 | apply NT; auto].
  - assert (0 <= y + ny * z) by nia. rewrite <- (Z2Nat.id (x + nx * (y + ny * z))) at 1 by nia.
    rewrite (diff_mulv _ (nx * ny) (Zc h) (nx * ny * nz) f _ (at_ x y z)); [f_equal; f_equal; f_equal; unfold at_; ring | nia | exact B2 | apply NT; auto].
Qed.
Print Assumptions C23_partial_3d.
(** fd_grad stacks the partial derivatives; on affine functions every row is the exact slope *)
Theorem C23_grad_2d : forall nx ny h, 1 <= nx -> 1 <= ny -> (0 < fst h)%R -> (0 < snd h)%R -> exists G, fd_grad2 (nx, ny) h = Ok G /\
  forall a bx by_ cx cy, let f j := (a + bx * (cx + IZR (j mod nx) * fst h) + by_ * (cy + IZR (j / nx) * snd h))%R in let N := Z.to_nat (nx * ny) in
  (forall r, 0 <= r < (nx - 1) * ny -> mulv N G f r = bx)
  /\ (forall r, (nx - 1) * ny <= r < (nx - 1) * ny + nx * (ny - 1) -> mulv N G f r = by_).
Proof.
  intros nx ny h Hx Hy Px Py. destruct (C23_partial_2d nx ny h Hx Hy Px Py) as (Dx & Dy & E0 & E1 & A).
  exists (Dx ++ shift_rows ((nx - 1) * ny) Dy). split; [unfold fd_grad2; rewrite E0, E1; reflexivity|].
  apply csr_rows in E0 as [R0 C0]. apply csr_rows in E1 as [R1 C1]. cbn [fst snd] in R0, R1, C0, C1.
  assert (I2 : forall x y, 0 <= x < nx -> (x + nx * y) mod nx = x /\ (x + nx * y) / nx = y).
  { intros x y Rx. rewrite (Z.mul_comm nx y), Z.mod_add, Z.div_add, Z.mod_small, Z.div_small by lia. lia. }
  intros a bx by_ cx cy f N. destruct A as [A0 A1]. split; intros r Hr.
  - unfold N. rewrite mulv_app_lt; auto; [|intros t I; apply R1 in I; lia|lia].
    assert (0 < nx - 1) by nia. pose proof (Z.div_mod r (nx - 1) ltac:(lia)) as DM. pose proof (Z.mod_pos_bound r (nx - 1) ltac:(lia)).
    assert (0 <= r / (nx - 1) < ny) by (split; [apply Z.div_pos; lia | apply Z.div_lt_upper_bound; lia]).
    set (x := r mod (nx - 1)) in *. set (y := r / (nx - 1)) in *. replace r with (x + (nx - 1) * y) by lia. unfold N in A0. rewrite A0 by auto. unfold f.
    destruct (I2 x y ltac:(lia)) as [-> ->]. destruct (I2 (x+1) y ltac:(lia)) as [-> ->]. rewrite plus_IZR. field. lra.
  - replace r with ((nx - 1) * ny + (r - (nx - 1) * ny)) by lia. unfold N. rewrite mulv_app_ge; auto; [|intros t I; apply R0 in I; lia|lia].
    set (s := r - (nx - 1) * ny) in *. assert (0 <= s < nx * (ny - 1)) by lia.
    pose proof (Z.div_mod s nx ltac:(lia)) as DM. pose proof (Z.mod_pos_bound s nx ltac:(lia)).
    assert (0 <= s / nx < ny - 1) by (split; [apply Z.div_pos; lia | apply Z.div_lt_upper_bound; lia]).
    set (x := s mod nx) in *. set (y := s / nx) in *. replace s with (x + nx * y) by lia. unfold N in A1. rewrite A1 by auto. unfold f.
    destruct (I2 x y ltac:(lia)) as [-> ->]. destruct (I2 x (y+1) ltac:(lia)) as [-> ->]. rewrite plus_IZR. field. lra.
Qed.
Print Assumptions C23_grad_2d.
Theorem C23_grad_3d : forall nx ny nz h, 1 <= nx -> 1 <= ny -> 1 <= nz -> (0 < X h)%R -> (0 < Y h)%R -> (0 < Zc h)%R -> exists G, fd_grad3 (nx, ny, nz) h = Ok G /\
  forall a bx by_ bz, let f j := (a + bx * (IZR (j mod nx) * X h) + by_ * (IZR ((j / nx) mod ny) * Y h) + bz * (IZR (j / nx / ny) * Zc h))%R in let N := Z.to_nat (nx * ny * nz) in
  let mx := (nx - 1) * ny * nz in let my := nx * (ny - 1) * nz in let mz := nx * ny * (nz - 1) in
  (forall r, 0 <= r < mx -> mulv N G f r = bx) /\ (forall r, mx <= r < mx + my -> mulv N G f r = by_) /\ (forall r, mx + my <= r < mx + my + mz -> mulv N G f r = bz).
Proof.
  intros nx ny nz h Hx Hy Hz Px Py Pz. destruct (C23_partial_3d nx ny nz h Hx Hy Hz) as (Dx & Dy & Dz & E0 & E1 & E2 & A).
  eexists. split; [unfold fd_grad3; rewrite E0, E1, E2; reflexivity|].
  apply csr_rows in E0 as [R0 C0]. apply csr_rows in E1 as [R1 C1]. apply csr_rows in E2 as [R2 C2].
  intros a bx by_ bz f N mx my mz. destruct A as (A0 & A1 & A2). cbv zeta in A0, A1, A2. fold N in A0, A1, A2, C0, C1, C2.
  fold mx in R0. fold my in R1. fold mz in R2.
  assert (I3 : forall x y z, 0 <= x < nx -> 0 <= y < ny -> let j := x + nx * (y + ny * z) in j mod nx = x /\ (j / nx) mod ny = y /\ j / nx / ny = z).
  { intros x y z Rx Ry j.
    assert (D : j / nx = y + ny * z) by (unfold j; rewrite (Z.mul_comm nx), Z.div_add, Z.div_small by lia; lia). rewrite D.
    split; [unfold j; rewrite (Z.mul_comm nx), Z.mod_add, Z.mod_small by lia; auto|].
    rewrite (Z.mul_comm ny z). rewrite Z.mod_add, Z.div_add, Z.mod_small, Z.div_small by lia. lia. }
  assert (DC : forall m0 m1 m2 r, 1 <= m0 -> 1 <= m1 -> 0 <= r < m0 * m1 * m2 -> exists x y z, 0 <= x < m0 /\ 0 <= y < m1 /\ 0 <= z < m2 /\ r = x + m0 * (y + m1 * z)).
  { intros m0 m1 m2 r H0 H1 Hr. exists (r mod m0), ((r / m0) mod m1), (r / m0 / m1).
    pose proof (Z.mod_pos_bound r m0 ltac:(lia)). pose proof (Z.mod_pos_bound (r / m0) m1 ltac:(lia)).
    assert (0 <= r / m0 < m1 * m2) by (split; [apply Z.div_pos; lia | apply Z.div_lt_upper_bound; lia]).
    split; auto. split; auto. split; [split; [apply Z.div_pos; lia | apply Z.div_lt_upper_bound; lia]|].
    pose proof (Z.div_mod r m0 ltac:(lia)). pose proof (Z.div_mod (r / m0) m1 ltac:(lia)). nia. }
  assert (CB : cols_in N (Dy ++ shift_rows my Dz)).
  { intros t I. apply in_app_iff in I as [I|I]; auto. apply in_map_iff in I as (u & <- & I). apply C2 in I. exact I. }
  assert (SH : forall f r, mulv N (Dx ++ shift_rows mx Dy ++ shift_rows (mx + my) Dz) f r = mulv N (Dx ++ shift_rows mx (Dy ++ shift_rows my Dz)) f r).
  { intros g r. f_equal. f_equal. unfold shift_rows. rewrite map_app, map_map. f_equal. apply map_ext. intros t. unfold trow, tcol, tval. cbn [fst snd]. f_equal. f_equal. lia. }
  split; [|split]; intros r Hr; unfold mx, my in SH; rewrite SH; fold mx my.
  - rewrite mulv_app_lt; auto; [|intros t I; apply in_app_iff in I as [I|I]; [apply R1 in I; lia | apply in_map_iff in I as (u & <- & I); apply R2 in I; unfold trow at 1; cbn [fst]; unfold my; nia]|lia].
    assert (1 <= nx - 1) by (unfold mx in Hr; nia). destruct (DC (nx-1) ny nz r) as (x & y & z & Rx & Ry & Rz & ->); try lia.
    rewrite A0 by auto. unfold f. destruct (I3 x y z) as (-> & -> & ->); try lia. destruct (I3 (x+1) y z) as (-> & -> & ->); try lia. rewrite plus_IZR. field. lra.
  - replace r with (mx + (r - mx)) by lia. rewrite mulv_app_ge; auto; [|intros t I; apply R0 in I; lia|lia].
    rewrite mulv_app_lt; auto; [|intros t I; apply R2 in I; lia|lia].
    assert (1 <= ny - 1) by (unfold my in Hr; nia). destruct (DC nx (ny-1) nz (r - mx)) as (x & y & z & Rx & Ry & Rz & E); try lia. rewrite E.
    rewrite A1 by auto. unfold f. destruct (I3 x y z) as (-> & -> & ->); try lia. destruct (I3 x (y+1) z) as (-> & -> & ->); try lia. rewrite plus_IZR. field. lra.
  - replace r with (mx + (my + (r - mx - my))) by lia. assert (0 <= my) by (unfold my; nia).
    rewrite mulv_app_ge; auto; [|intros t I; apply R0 in I; lia|lia]. rewrite mulv_app_ge; auto; [|intros t I; apply R1 in I; lia|lia].
    assert (1 <= nz - 1) by (unfold mz in Hr; nia). destruct (DC nx ny (nz-1) (r - mx - my)) as (x & y & z & Rx & Ry & Rz & E); try lia. rewrite E.
    rewrite A2 by auto. unfold f. destruct (I3 x y z) as (-> & -> & ->); try lia. destruct (I3 x y (z+1)) as (-> & -> & ->); try lia. rewrite plus_IZR. field. lra.
Qed.
Print Assumptions C23_grad_3d.
Example C23_nonvacuous : exists p : vec2, (0 <= fst p <= 0 + (IZR 3 - 1) * (1/2))%R /\ (0 <= snd p <= 0 + (IZR 2 - 1) * 1)%R /\ fst p = (3/4)%R.
Proof. exists (3/4, 1/2)%R. cbn. lra. Qed.
