(** fd_interpolate.py, fd_partial_derivative.py, fd_grad.py.  Exact reals; gs, h, corner are passed as tuples. *)
From Verif Require Import NumpyModel PyExn Vec MatModel SubdivModel GridMeshModel.
Open Scope Z_scope.

(** np.floor(.).astype(int) *)
Definition flo (x : R) : Z := Int_part x.
Definition w01 (d : Z) (v : R) : R := if d =? 0 then (1 - v)%R else v.

(** corners of a cell in the order of J and vals (:70, :87) as (dx,dy) *)
Definition corners2 : list (Z * Z) := [(0,0); (0,1); (1,0); (1,1)].
(** :65-107 with dim = 2: indeces :65, vij :77-79, J :68-70, vals :82-87, filtering :103-105, shape :88,106 *)
Definition fd_interpolate2 (P : list vec2) (gs : Z * Z) (h corner : vec2) : res (list trip) :=
  let ix (p : vec2) := flo ((fst p - fst corner) / fst h) in
  let iy (p : vec2) := flo ((snd p - snd corner) / snd h) in
  let vx (p : vec2) := ((fst p - (fst corner + IZR (ix p) * fst h)) / fst h)%R in
  let vy (p : vec2) := ((snd p - (snd corner + IZR (iy p) * snd h)) / snd h)%R in
  let block o := map (fun q => let '(i, p) := q in
     (i, (ix p + fst gs * iy p) + fst o + snd o * fst gs, (w01 (snd o) (vy p) * w01 (fst o) (vx p))%R)) (enum P) in
  let mat_dim := fst gs * snd gs in
  csr (Z.of_nat (length P)) mat_dim (filter (fun t => (0 <=? tcol t) && (tcol t <? mat_dim)) (flat_map block corners2)).

(** corners (dx,dy,dz) in the order of :74, :99 *)
Definition corners3 : list (Z * Z * Z) := [(0,0,0); (0,1,0); (1,0,0); (1,1,0); (0,0,1); (0,1,1); (1,0,1); (1,1,1)].
(** dim = 3: :72-74, :90-100 *)
Definition fd_interpolate3 (P : list vec3) (gs : Z * Z * Z) (h corner : vec3) : res (list trip) :=
  let '(nx, ny, nz) := gs in
  let ix (p : vec3) := flo ((X p - X corner) / X h) in
  let iy (p : vec3) := flo ((Y p - Y corner) / Y h) in
  let iz (p : vec3) := flo ((Zc p - Zc corner) / Zc h) in
  let vx (p : vec3) := ((X p - (X corner + IZR (ix p) * X h)) / X h)%R in
  let vy (p : vec3) := ((Y p - (Y corner + IZR (iy p) * Y h)) / Y h)%R in
  let vz (p : vec3) := ((Zc p - (Zc corner + IZR (iz p) * Zc h)) / Zc h)%R in
  let block o := map (fun q => let '(i, p) := q in let '(dx, dy, dz) := o in
     (i, ((iy p + ny * iz p) * nx + ix p) + dx + dy * nx + dz * (ny * nx), (w01 dy (vy p) * w01 dx (vx p) * w01 dz (vz p))%R)) (enum P) in
  let mat_dim := nx * ny * nz in
  csr (Z.of_nat (length P)) mat_dim (filter (fun t => (0 <=? tcol t) && (tcol t <? mat_dim)) (flat_map block corners3)).

(** fd_partial_derivative.py:62-91; [direction] 2 in 2D is an IndexError (line 72), other directions leave next_ind undefined *)
Definition fd_partial2 (gs : Z * Z) (h : vec2) (direction : Z) : res (list trip) :=
  let build (m0 m1 next : Z) (hd : R) :=
    let js := map (fun c => snd c + fst gs * fst c) (cells m1 m0) in
    csr (m0 * m1) (fst gs * snd gs)
      (map (fun q => (fst q, snd q, (-1 / hd)%R)) (enum js) ++ map (fun q => (fst q, snd q + next, (1 / hd)%R)) (enum js)) in
  match direction with
  | 0 => build (fst gs - 1) (snd gs) 1 (fst h)
  | 1 => build (fst gs) (snd gs - 1) (fst gs) (snd h)
  | 2 => Err IndexError
  | _ => Err UnboundLocalError
  end.
(** the nodes (x,y,z) of a grid in Fortran order *)
Definition nodes3 (m0 m1 m2 : Z) : list (Z * Z * Z) := flat_map (fun z => map (fun c => (snd c, fst c, z)) (cells m1 m0)) (zseq m2).
Definition fd_partial3 (gs : Z * Z * Z) (h : vec3) (direction : Z) : res (list trip) :=
  let '(nx, ny, nz) := gs in
  let build (m0 m1 m2 next : Z) (hd : R) :=
    let js := map (fun c => let '(x, y, z) := c in x + nx * (y + ny * z)) (nodes3 m0 m1 m2) in
    csr (m0 * m1 * m2) (nx * ny * nz)
      (map (fun q => (fst q, snd q, (-1 / hd)%R)) (enum js) ++ map (fun q => (fst q, snd q + next, (1 / hd)%R)) (enum js)) in
  match direction with
  | 0 => build (nx - 1) ny nz 1 (X h)
  | 1 => build nx (ny - 1) nz nx (Y h)
  | 2 => build nx ny (nz - 1) (nx * ny) (Zc h)
  | _ => Err UnboundLocalError
  end.
(** scipy.sparse.vstack *)
Definition shift_rows (k : Z) (M : list trip) : list trip := map (fun t => (trow t + k, tcol t, tval t)) M.
(** fd_grad.py:40-46 *)
Definition fd_grad2 (gs : Z * Z) (h : vec2) : res (list trip) :=
  bind (fd_partial2 gs h 0) (fun Dx => bind (fd_partial2 gs h 1) (fun Dy => Ok (Dx ++ shift_rows ((fst gs - 1) * snd gs) Dy))).
Definition fd_grad3 (gs : Z * Z * Z) (h : vec3) : res (list trip) :=
  let '(nx, ny, nz) := gs in
  bind (fd_partial3 gs h 0) (fun Dx => bind (fd_partial3 gs h 1) (fun Dy => bind (fd_partial3 gs h 2) (fun Dz =>
    Ok (Dx ++ shift_rows ((nx - 1) * ny * nz) Dy ++ shift_rows ((nx - 1) * ny * nz + nx * (ny - 1) * nz) Dz)))).
