(** stochastic_poisson_surface_reconstruction.py:127-370 for dim = 2 and 3 (other dimensions fail in fd_interpolate or np.meshgrid and are
    not modelled further).  Points are lists of coordinates, gs/h/corner lists with one entry per axis; gs is assumed
    to be an integer array and h, corner to be float arrays (an integer [corner] makes the += of :178 raise; not modelled).  Exact reals: casts to float32 are the
    identity.  Parameters: [blur gs image] is gaussian_filter on the flattened image, [bicg], [splu] and [argsort] the
    SciPy/numpy calls.  A zero in density + sigma_n^2 (numpy: a warning and inf) is not modelled faithfully.  verbose output is dropped. *)
From Coq Require Import Reals Lra ZArith List Bool.
From Verif Require Import NumpyModel PyExn Vec MatModel SubdivModel MatFunModel GridMeshModel GridNbModel FdModel KernelModel EigModel SolveModel.
Import ListNotations.
Open Scope R_scope.

Definition pt := list R.
Definition zipw {A B C} (f : A -> B -> C) (a : list A) (b : list B) : list C := map (fun p => f (fst p) (snd p)) (combine a b).
Definition lmax (l : list R) : R := match l with [] => 0 | x :: r => fold_right Rmax x r end.
Definition lmin (l : list R) : R := match l with [] => 0 | x :: r => fold_right Rmin x r end.
Definition axis (d : nat) (P : list pt) : list R := map (fun p => nth d p 0) P.
Definition zprod (l : list Z) : Z := fold_right Z.mul 1%Z l.
Definition small : R := 1 / 10 ^ 6.                                                        (* eps :157 *)

(** :132-146.  np.max/np.min of an empty axis raise ValueError *)
Definition psr_args (dim : nat) (P : list pt) (gs : option (list Z)) (h corner : option (list R)) : res (list Z * list R * list R) :=
  let hi := map (fun d => lmax (map (fun x => 3 / 2 * x) (axis d P))) (seq 0 dim) in
  let lo := map (fun d => lmin (map (fun x => 3 / 2 * x) (axis d P))) (seq 0 dim) in
  let gs := match gs, h, corner with None, None, None => Some (repeat 100%Z dim) | _, _, _ => gs end in       (* :132-134 *)
  do r <- match gs with
    | None => match h, corner with
              | Some h, Some c => match P with [] => Err ValueError | _ => Ok (zipw (fun a b => flo (a / b)) (zipw Rminus hi c) h, h, c) end   (* :138-140 *)
              | _, _ => Err AssertionError
              end
    | Some g => match h, corner with
              | Some h, Some c => Ok (g, h, c)
              | _, _ => match P with [] => Err ValueError | _ => Ok (g, zipw (fun a n => a / IZR n) (zipw Rminus hi lo) g, lo) end   (* :143-145 *)
              end
    end;
  if Nat.eqb (length (fst (fst r))) dim then Ok r else Err AssertionError.                 (* :146 *)

(** np.linspace(start, stop, n)[k] *)
Definition linsp (a b : R) (n k : Z) : R := if (n =? 1)%Z then a else a + IZR k * ((b - a) / IZR (n - 1)).
(** the coordinates along every axis :183, :186 *)
Definition axes (gs : list Z) (h corner : list R) : list (list R) :=
  zipw (fun g ch => map (linsp (fst ch) (fst ch + IZR (g - 1) * snd ch) g) (zseq g)) gs (combine corner h).
(** :182-187: first coordinate fastest (meshgrid in xy order flattened row by row in 2D, in ij order flattened in Fortran order in 3D) *)
Fixpoint grid_pts (ax : list (list R)) : list pt := match ax with [] => [[]] | a :: r => flat_map (fun t => map (fun x => x :: t) a) (grid_pts r) end.

(** :153-154 row by row; csn never fails for n = 3 *)
Definition kern_row (h : list R) (p q : pt) : R := match csn (zipw Rminus p q) 3 (3 / 2 * lmin h) None (-1) with Ok v => v | Err _ => 0 end.

(** fd_interpolate on lists *)
Definition interp (P : list pt) (gs : list Z) (h corner : list R) : res (list trip) :=
  match gs, h, corner with
  | [g0; g1], [h0; h1], [c0; c1] => fd_interpolate2 (map (fun p => (nth 0 p 0, nth 1 p 0)) P) (g0, g1) (h0, h1) (c0, c1)
  | [g0; g1; g2], [h0; h1; h2], [c0; c1; c2] => fd_interpolate3 (map (fun p => (nth 0 p 0, nth 1 p 0, nth 2 p 0)) P) (g0, g1, g2) (h0, h1, h2) (c0, c1, c2)
  | _, _, _ => Err IndexError
  end.
Definition fd_grad_l (gs : list Z) (h : list R) : res (list trip) :=
  match gs, h with
  | [g0; g1], [h0; h1] => fd_grad2 (g0, g1) (h0, h1)
  | [g0; g1; g2], [h0; h1; h2] => fd_grad3 (g0, g1, g2) (h0, h1, h2)
  | _, _ => Err IndexError
  end.
(** grid_neighbors(gs,include_diagonals=True,include_self=True,order=2) :198 *)
Definition nb_rows (gs : list Z) : list (Z -> Z) :=
  match gs with
  | [g0; g1] => grid_neighbors2 g0 g1 2 true true true
  | [g0; g1; g2] => grid_neighbors3 g0 g1 g2 2 true true true
  | _ => []
  end.

(** :160-164 *)
Definition density (blur : list Z -> list R -> list R) (P : list pt) (gs : list Z) (h corner : list R) : res (nat -> R) :=
  let gs1 := map (Z.add 1) gs in
  do W <- interp P gs1 h (zipw (fun c h => c - 1 / 2 * h) corner h);
  let n := Z.to_nat (zprod gs1) in
  let image := map (fun j => sumn (length P) (fun i => entry W (Z.of_nat i) (Z.of_nat j) * 1) / fold_right Rmult 1 h) (seq 0 n) in
  let b := blur gs1 image in
  Ok (fun i => mulv n W (fun j => nth (Z.to_nat j) b 0) (Z.of_nat i)).

(** :198-217 *)
Definition build_k1 (gs : list Z) (h : list R) (verts : list pt) : res (list trip) :=
  let N := zprod gs in let rows := nb_rows gs in
  do v <- match find (fun c => forallb (fun r => (0 <=? r c)%Z) rows) (zseq N) with Some c => Ok c | None => Err IndexError end;   (* :200-201 *)
  let vert j := nth (Z.to_nat j) verts [] in
  let vals := map (fun r : Z -> Z => kern_row h (vert v) (vert (r v))) rows in             (* :203-208 *)
  csr N N (flat_map (fun rv : (Z -> Z) * R => map (fun c => if (fst rv c <? 0)%Z then (c, 0%Z, 0) else (c, fst rv c, snd rv)) (zseq N)) (combine rows vals)).   (* :210-217 *)

(** :229-233: the flat index of the cell of a point; ravel_multi_index rejects positions outside *)
Definition inrange (g i : Z) : bool := (0 <=? i)%Z && (i <? g)%Z.
Fixpoint ravelF (gs idx : list Z) : Z := match gs, idx with g :: gs, i :: idx => (i + g * ravelF gs idx)%Z | _, _ => 0%Z end.
Definition cell_of (gs : list Z) (h corner : list R) (p : pt) : res Z :=
  let idx := zipw (fun a b => flo (a / b)) (zipw Rminus p corner) h in
  if forallb (fun gi => inrange (fst gi) (snd gi)) (combine gs idx) then Ok (ravelF gs idx) else Err ValueError.
Fixpoint mapX {A B} (f : A -> res B) (l : list A) : res (list B) := match l with [] => Ok [] | a :: r => do b <- f a; do bs <- mapX f r; Ok (b :: bs) end.
(** :236-242 *)
Definition around : list Z := map (fun k => k - 3)%Z (zseq 7).
Definition flat_offsets (gs : list Z) : list Z :=
  fold_left (fun nb dd2 => flat_map (fun a => map (fun b => a + b * zprod (firstn (dd2 + 1) gs))%Z around) nb) (seq 0 (length gs - 1)) around.
(** :229-251 *)
Definition build_k2 (P : list pt) (gs : list Z) (h corner : list R) (verts : list pt) : res (list trip) :=
  do cells <- mapX (cell_of gs h corner) P;
  let IJ := filter (fun ij : Z * Z => (0 <=? snd ij)%Z && (snd ij <? zprod gs)%Z)
    (flat_map (fun ic : Z * Z => map (fun o => (fst ic, (snd ic + o)%Z)) (flat_offsets gs)) (combine (lin_idx (length P)) cells)) in
  matrix_from_function_pattern (fun A B => zipw (kern_row h) A B) P verts (map fst IJ) (map snd IJ).

Definition upd {A} (d : nat) (f : A -> A) (l : list A) : list A := map (fun p => if Nat.eqb (fst p) d then f (snd p) else snd p) (combine (seq 0 (length l)) l).
(** :175-273 for one axis: number of staggered nodes, mean and covariance *)
Definition psr_axis (P Nrm : list pt) (gs : list Z) (h corner : list R) (kinv : nat -> R) (prior : option (list pt -> list pt)) (dd : nat)
  : res (nat * (nat -> R) * (nat -> nat -> R)) :=
  let corner_dd := upd dd (fun c => c + 1 / 2 * nth dd h 0) corner in                      (* :177-178 *)
  let gs_dd := upd dd (fun g => g - 1)%Z gs in                                             (* :179-180 *)
  let verts := grid_pts (axes gs_dd h corner_dd) in
  do k1 <- build_k1 gs_dd h verts;
  do k2 <- build_k2 P gs_dd h corner_dd verts;
  let n := length P in
  let e1 a b := entry k1 (Z.of_nat a) (Z.of_nat b) in let e2 i g := entry k2 (Z.of_nat i) (Z.of_nat g) in
  let normal i := nth dd (nth i Nrm []) 0 in
  let mean g := match prior with
    | None => sumn n (fun i => e2 i g * (kinv i * normal i))                               (* :266 *)
    | Some f => nth dd (nth g (f verts) []) 0 + sumn n (fun i => e2 i g * (kinv i * (normal i - nth dd (nth i (f P) []) 0)))   (* :271 *)
    end in
  Ok (Z.to_nat (zprod gs_dd), mean, fun a b => e1 a b - sumn n (fun i => e2 i a * (kinv i * e2 i b))).   (* :273 *)

(** np.concatenate(means) :277 *)
Fixpoint concat_v (bs : list (nat * (nat -> R) * (nat -> nat -> R))) (r : nat) : R :=
  match bs with [] => 0 | (n, f, _) :: t => if Nat.ltb r n then f r else concat_v t (r - n) end.
(** block_diag(covs) :279 *)
Fixpoint block_diag_v (bs : list (nat * (nat -> R) * (nat -> nat -> R))) (r s : nat) : R :=
  match bs with [] => 0 | (n, _, f) :: t => if Nat.ltb r n then (if Nat.ltb s n then f r s else 0) else if Nat.ltb s n then 0 else block_diag_v t (r - n) (s - n) end.

(** np.meshgrid in xy order :150: shape and entries of one of the arrays; [idx] is the position in the array *)
Definition swap01 {A} (l : list A) : list A := match l with a :: b :: r => b :: a :: r | _ => l end.
Definition meshgrid_xy (gs : list Z) (h corner : list R) (d : nat) : list Z * (list Z -> R) :=
  (swap01 gs, fun idx => linsp (nth d corner 0) (nth d corner 0 + IZR (nth d gs 0%Z - 1) * nth d h 0) (nth d gs 0%Z) (nth d (swap01 idx) 0%Z)).

Record psr_out := mkpsr { o_mean : list R; o_var : option (list R); o_grid : list (list Z * (list Z -> R)) }.

Definition stochastic_psr (blur : list Z -> list R -> list R) (bicg : nat -> matrix -> (nat -> R) -> (nat -> R) * Z) (splu : solver_t) (argsort : list R -> list nat)
  (dim dimN : nat) (P Nrm : list pt) (gs0 : option (list Z)) (h0 corner0 : option (list R)) (output_variance : bool) (sigma_n sigma : R) (subspace : nat)
  (prior : option (list pt -> list pt)) : res psr_out :=
  if negb (Nat.eqb dim dimN) then Err AssertionError else                                  (* :129 *)
  do r <- psr_args dim P gs0 h0 corner0;
  let '(gs, h, corner) := r in
  let grid_vertices := map (meshgrid_xy gs h corner) (seq 0 dim) in                        (* :150 *)
  do dens <- density blur P gs h corner;
  let kinv i := 1 / (dens i + sigma_n * sigma_n) in                                        (* :261 *)
  do blocks <- mapX (psr_axis P Nrm gs h corner kinv prior) (seq 0 dim);
  let v := concat_v blocks in
  let m := fold_right (fun b s => (fst (fst b) + s)%nat) 0%nat blocks in
  do G <- fd_grad_l gs h;                                                                  (* :292 *)
  let n := Z.to_nat (zprod gs) in
  let g r j := entry G (Z.of_nat r) (Z.of_nat j) in
  let A : matrix := fun i j => sumn m (fun r => g r i * g r j) + small * (if Nat.eqb i j then 1 else 0) in   (* :296, :298 *)
  let '(u, info) := bicg n A (fun j => sumn m (fun r => g r j * v r)) in                   (* :294, :298 *)
  if negb (info =? 0)%Z then Err AssertionError else                                       (* :299 *)
  do W <- interp P gs h corner;                                                            (* :301 *)
  let shift := sumn (length P) (fun i => mulv n W (fun j => u (Z.to_nat j)) (Z.of_nat i)) / INR (length P) in   (* :302 *)
  let mean := map (fun j => u j - shift) (seq 0 n) in                                      (* :303 *)
  if negb output_variance then Ok (mkpsr mean None grid_vertices) else
  let S a b := sigma * sigma * block_diag_v blocks a b in                                  (* :279 *)
  let M : matrix := fun i j => sumn m (fun r => sumn m (fun s => g r i * S r s * g s j)) in (* :312 *)
  do var <- (if Nat.ltb 0 subspace then
      let len d := IZR (nth d gs 0%Z) * nth d h 0 in                                       (* :148 *)
      let gn d := Z.to_nat (nth d gs 0%Z) in
      let '(_, K, E) := if Nat.eqb dim 2 then eigenfunctions2 argsort subspace (gn 0%nat) (gn 1%nat) (len 0%nat) (len 1%nat)
                        else eigenfunctions3 argsort subspace (gn 0%nat) (gn 1%nat) (gn 2%nat) (len 0%nat) (len 1%nat) (len 2%nat) in   (* :322 *)
      let vals k := sumn n (fun j => sumn n (fun i => E i k * A i j) * E j k) in           (* :328 *)
      let B k l := sumn n (fun j => sumn n (fun i => E i k * M i j) * E j l) in            (* :333 *)
      let D k l := B k l / vals k in                                                       (* :338, the matrix is diagonal *)
      let C k l := D l k / vals k in                                                       (* :341 *)
      Ok (fun i => sumn K (fun l => sumn K (fun k => E i k * C k l) * E i l))              (* :345 *)
    else
      do lu <- splu n A;                                                                   (* :353 *)
      let D i j := lu (fun k => M k j) i in                                                (* :354 *)
      let C i j := lu (fun k => D j k) i in                                                (* :355 *)
      Ok (fun i => C i i));                                                                (* :356 *)
  let vs := map var (seq 0 n) in
  Ok (mkpsr mean (Some (map (fun x => x - lmin vs + sigma_n * sigma_n + small) vs)) grid_vertices).   (* :359 *)
