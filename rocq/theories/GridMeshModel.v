(** regular_square_mesh.py, torus.py, cylinder.py, cone.py, regular_cube_mesh.py.
    Coordinates are exact reals; integer arguments are assumed to be integers (numpy would raise
    TypeError otherwise). *)
From Verif Require Import NumpyModel PyExn TopoModel Vec.
Open Scope Z_scope.

(** np.arange(n) *)
Definition zseq (n : Z) : list Z := map Z.of_nat (seq 0 (Z.to_nat n)).
(** np.linspace(a,b,n)[i], n >= 2 *)
Definition lin (a b : R) (n i : Z) : R := (a + IZR i * ((b - a) / (IZR n - 1)))%R.
(** np.linspace(a,b,n,endpoint=False)[i] *)
Definition lin_open (a b : R) (n i : Z) : R := (a + IZR i * ((b - a) / IZR n))%R.
(** all (row, col) pairs in ravel order *)
Definition cells (rows cols : Z) : list (Z * Z) := flat_map (fun r => map (fun c => (r, c)) (zseq cols)) (zseq rows).

(** i0 = inds[:-1,:-1], i1 = inds[:-1,1:], i2 = inds[1:,:-1], i3 = inds[1:,1:] of an index array
    with rows+1 rows and cols+1 columns; faces (i0,i3,i2) then (i0,i1,i3).
    regular_square_mesh.py:48-55, torus.py:92-99, cylinder.py:57-64, cone.py:57-64 *)
Definition grid_faces (inds : Z -> Z -> Z) (rows cols : Z) : list tri :=
  map (fun p => let '(r, c) := p in (inds r c, inds (r + 1) (c + 1), inds (r + 1) c)) (cells rows cols) ++
  map (fun p => let '(r, c) := p in (inds r c, inds r (c + 1), inds (r + 1) (c + 1))) (cells rows cols).

(** regular_square_mesh.py:39-57 *)
Definition regular_square_mesh (nx ny : Z) : list (R * R) * list tri :=
  (map (fun p => (lin (-1) 1 nx (snd p), lin (-1) 1 ny (fst p))) (cells ny nx),
   grid_faces (fun r c => r * nx + c) (ny - 1) (nx - 1)).

(** an index array with its first column (row) appended: column n is column 0 *)
Definition wrap (n x : Z) : Z := if x =? n then 0 else x.

(** torus.py:74-101 *)
Definition torus (nR nr : Z) (RR rr : R) : res (list vec3 * list tri) :=
  if (nR <? 3) || (nr <? 3) then Err AssertionError else
  if Rlt_dec 0 RR then if Rlt_dec 0 rr then
  Ok (map (fun p => let ph := lin_open 0 (2 * PI) nR (snd p) in let th := lin_open 0 (2 * PI) nr (fst p) in
        ((RR + rr * cos th) * cos ph, (RR + rr * cos th) * sin ph, rr * sin th)%R) (cells nr nR),
      grid_faces (fun r c => wrap nr r * nR + wrap nR c) nr nR)
  else Err AssertionError else Err AssertionError.

(** cylinder.py:43-66 *)
Definition cylinder (nx nz : Z) : res (list vec3 * list tri) :=
  if (nx <? 3) || (nz <? 2) then Err AssertionError else
  Ok (map (fun p => let ph := lin_open 0 (2 * PI) nx (snd p) in (cos ph, sin ph, lin 0 1 nz (fst p))) (cells nz nx),
      grid_faces (fun r c => r * nx + wrap nx c) (nz - 1) nx).

(** cone.py:38-73; nz is decremented on line 42 *)
Definition cone (nx nz0 : Z) : res (list vec3 * list tri) :=
  if (nx <? 3) || (nz0 <? 2) then Err AssertionError else
  let nz := nz0 - 1 in
  Ok (map (fun p => let ph := lin_open 0 (2 * PI) nx (snd p) in let z := lin 0 1 (nz + 1) (fst p) in
        (cos ph * (1 - z), sin ph * (1 - z), z)%R) (cells nz nx) ++ [(0, 0, 1)%R],
      grid_faces (fun r c => r * nx + wrap nx c) (nz - 1) nx ++
      map (fun c => (nx * (nz - 1) + c, nx * (nz - 1) + wrap nx (c + 1), nx * nz)) (zseq nx)).

(** ** regular_cube_mesh.py *)
Inductive cube_type := Five | Reflectional | Rotational | Hex | OtherType.
(** corner numbering v1..v8 as offsets (k,i,j) in (z,x,y), :68-75 *)
Definition voff (v : Z) : Z * Z * Z :=
  match v with
  | 1 => (0,0,0) | 2 => (0,1,0) | 5 => (1,0,0) | 6 => (1,1,0)
  | 3 => (0,0,1) | 4 => (0,1,1) | 7 => (1,0,1) | _ => (1,1,1)
  end.
(** :77-99 *)
Definition patterns (t : cube_type) : list (Z * Z * Z * Z) :=
  match t with
  | Five => [(5,3,2,1); (3,2,8,5); (3,4,8,2); (3,8,7,5); (2,6,8,5)]
  | Reflectional => [(3,4,7,1); (4,5,7,1); (4,8,7,5); (2,6,8,5); (4,2,8,5); (4,2,5,1)]
  | Rotational => [(1,3,7,8); (1,8,7,5); (1,3,8,4); (1,4,8,2); (1,6,8,5); (1,2,8,6)]
  | _ => []
  end.
(** idx[k,i,j], :65 (shape (nz,nx,ny), Fortran order) *)
Definition cidx (nx nz : Z) (p : Z * Z * Z) : Z := let '(k, i, j) := p in k + nz * (i + nx * j).
Definition addp (p q : Z * Z * Z) : Z * Z * Z :=
  let '(a, b, c) := p in let '(a', b', c') := q in (a + a', b + b', c + c').
(** the grid cells (k,i,j) in C order (reshape of a (nz-1,nx-1,ny-1) array) *)
Definition cubes (nx ny nz : Z) : list (Z * Z * Z) :=
  flat_map (fun k => flat_map (fun i => map (fun j => (k, i, j)) (zseq (ny - 1))) (zseq (nx - 1))) (zseq (nz - 1)).
Definition tet_of (nx nz : Z) (pat : Z * Z * Z * Z) (cell : Z * Z * Z) : Z * Z * Z * Z :=
  let v w := cidx nx nz (addp cell (voff w)) in
  let '(a, b, c, d) := pat in (v a, v b, v c, v d).
(** position of vertex index p, :64-66 *)
Definition cube_vertex (nx ny nz p : Z) : vec3 :=
  (lin 0 1 nx ((p / nz) mod nx), lin 0 1 ny (p / (nz * nx)), lin 0 1 nz (p mod nz)).
(** an unknown type leaves T undefined (:102); 'hex' returns 8 columns, modelled separately *)
Definition regular_cube_mesh (nx ny nz : Z) (t : cube_type) : res (list vec3 * list (Z * Z * Z * Z)) :=
  match t with
  | OtherType => Err UnboundLocalError
  | Hex => Err TypeError (* not this function: see regular_hex_mesh *)
  | _ => Ok (map (cube_vertex nx ny nz) (zseq (nx * ny * nz)),
             flat_map (fun pat => map (tet_of nx nz pat) (cubes nx ny nz)) (patterns t))
  end.
(** :100-101 *)
Definition hex_pattern : list Z := [1; 2; 4; 3; 5; 6; 8; 7].
Definition regular_hex_mesh (nx ny nz : Z) : list vec3 * list (list Z) :=
  (map (cube_vertex nx ny nz) (zseq (nx * ny * nz)),
   map (fun cell => map (fun w => cidx nx nz (addp cell (voff w))) hex_pattern) (cubes nx ny nz)).
