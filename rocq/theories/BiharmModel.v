(** biharmonic_energy.py:47-85 and biharmonic_energy_intrinsic.py:46-70.  The curved_hessian option is C++ and not
    modelled.  Dense matrices with shapes as in ElastModel.v; exact reals. *)
From Coq Require Import Reals.
From Verif Require Import NumpyModel TopoModel.
From Verif Require Import PyExn Vec MatModel GeomModel ElastModel.
Open Scope R_scope.

(** M.power(-1) (:67): the stored entries are inverted; inverting a stored zero gives inf (NotANumber here) *)
Definition power_inv (n : nat) (M : list trip) : res mat :=
  if existsb (fun t => if Req_EM_T (entry M (trow t) (tcol t)) 0 then true else false) M then Err NotANumber
  else Ok (mkmat n n (fun i j => if existsb (fun t => (trow t =? Z.of_nat i)%Z && (tcol t =? Z.of_nat j)%Z) M then / entry M (Z.of_nat i) (Z.of_nat j) else 0)).
(** biharmonic_energy_intrinsic.py:63-70 *)
Definition mixedfem_energy (L : faces_lsq) (n : nat) : res mat :=
  do Lap <- cotangent_laplacian_intrinsic L (Z.of_nat n);
  do M <- massmatrix_intrinsic L (Z.of_nat n) Voronoi;
  do Minv <- power_inv n M;
  let Lm := of_trips n n Lap in
  do A <- mul (transpose Lm) Minv; mul A Lm.
(** biharmonic_energy.py:49-51 with the default bc *)
Definition biharmonic_energy_mixed (V : Z -> list R) (n : nat) (F : list tri) : res mat := mixedfem_energy (with_lsq V F) n.

(** M[:, idx] *)
Definition take_cols (M : mat) (idx : list nat) : mat := mkmat (nr M) (length idx) (fun i j => at_ M i (nth j idx 0%nat)).
(** np.setdiff1d(np.arange(n), b) *)
Definition interior_ids (n : nat) (b : list Z) : list nat := filter (fun k => negb (existsb (Z.eqb (Z.of_nat k)) b)) (seq 0 n).
Fixpoint tile {A} (l : list A) (k : nat) : list A := match k with O => [] | S k => l ++ tile l k end.
(** :83, products taken from the left *)
Definition product7 (G A D Mt : mat) : res mat :=
  do m1 <- mul (transpose G) A; do m2 <- mul m1 D; do m3 <- mul m2 Mt; do m4 <- mul m3 (transpose D); do m5 <- mul m4 A; mul m5 G.
(** :54-85 for dim = 2.  1/M_d of an unreferenced vertex is inf in Python; it never meets a stored entry of D. *)
Definition hessian_energy2 (V : Z -> vec2) (n : nat) (F : list tri) : res mat :=
  let m := length F in
  do b <- lift AssertionError (boundary_vertices F);                                        (* :62 *)
  let i := interior_ids n b in                                                              (* :63 *)
  let a := map (fun t => doublearea (fun j => row_of2 (V j)) t / 2) F in                    (* :66 *)
  let A := diag (tile a 2) in                                                               (* :67 *)
  do M <- massmatrix (fun j => row_of2 (V j)) (Z.of_nat n) F Voronoi;                       (* :70 *)
  let Mi := map (fun k => 1 / entry M (Z.of_nat k) (Z.of_nat k)) i in                       (* :70-71 *)
  let Mt := diag (tile Mi 4) in                                                             (* :72 *)
  do Gr <- grad2 V (Z.of_nat n) F;                                                          (* :75 *)
  let G := of_trips (2 * m) n Gr in
  let Gi := take_cols G i in                                                                (* :76 *)
  do Db <- hstack2 (slice Gi 0 m (nc Gi)) (slice Gi m (2 * m) (nc Gi));                     (* :77-80 *)
  product7 G A (block_diag2 Db Db) Mt.                                                      (* :81-83 *)
(** :54-85 for dim = 3 *)
Definition hessian_energy3 (V : Z -> vec3) (n : nat) (F : list tri) : res mat :=
  let m := length F in
  do b <- lift AssertionError (boundary_vertices F);
  let i := interior_ids n b in
  let a := map (fun t => doublearea (fun j => row_of3 (V j)) t / 2) F in
  let A := diag (tile a 3) in
  do M <- massmatrix (fun j => row_of3 (V j)) (Z.of_nat n) F Voronoi;
  let Mi := map (fun k => 1 / entry M (Z.of_nat k) (Z.of_nat k)) i in
  let Mt := diag (tile Mi 9) in
  do Gr <- grad3 V (Z.of_nat n) F;
  let G := of_trips (3 * m) n Gr in
  let Gi := take_cols G i in
  do Db <- hstack3 (slice Gi 0 m (nc Gi)) (slice Gi m (2 * m) (nc Gi)) (slice Gi (2 * m) (3 * m) (nc Gi));
  product7 G A (block_diag2 (block_diag2 Db Db) Db) Mt.
