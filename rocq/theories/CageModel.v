(** copyleft/lazy_cage.py, copyleft/mesh_boolean.py, copyleft/do_meshes_intersect.py, decimate.py, barycenters.py.
    The C++ bindings are the fields of [tools] (igl::offset_surface, igl::decimate / qslim, CGAL booleans and intersection test); meshes are vertex and face lists, exact reals, astype conversions are the identity.  Importing the bindings always succeeds. *)
From Coq Require Import Reals List ZArith Bool String.
From Verif Require Import Vec PyExn SubdivModel.
Import ListNotations.
Open Scope R_scope.

Definition tmesh : Type := list vec3 * list (list Z).
Record tools := {
  c_offset : tmesh -> R -> Z -> tmesh;
  c_decimate : tmesh -> Z -> Z -> tmesh * (list Z * list Z);        (* number of faces, method *)
  c_union : tmesh -> tmesh -> tmesh; c_intersection : tmesh -> tmesh -> tmesh; c_difference : tmesh -> tmesh -> tmesh;
  c_intersect : tmesh -> tmesh -> list Z }.

(** mesh_boolean.py:53-66: dictionary.get(boolean_type,-1) and the three branches; without a branch v is unbound at the return *)
Definition dictionary : list (string * Z) := [("union"%string, 0%Z); ("intersection"%string, 1%Z); ("difference"%string, 2%Z); ("minus"%string, 2%Z)].
Definition btype (s : string) : Z := match find (fun p => String.eqb (fst p) s) dictionary with Some p => snd p | None => (-1)%Z end.
Definition mesh_boolean (t : tools) (m1 m2 : tmesh) (boolean_type : string) : res tmesh :=
  if Z.eqb (btype boolean_type) 0 then Ok (c_union t m1 m2)
  else if Z.eqb (btype boolean_type) 1 then Ok (c_intersection t m1 m2)
  else if Z.eqb (btype boolean_type) 2 then Ok (c_difference t m1 m2)
  else Err UnboundLocalError.
(** do_meshes_intersect.py:45-51 *)
Definition do_meshes_intersect (t : tools) (m1 m2 : tmesh) : bool * option (list Z) :=
  let inters := c_intersect t m1 m2 in
  if Nat.ltb 0 (length inters) then (true, Some inters) else (false, None).
(** decimate.py:55-70; raise Exception(..) is ValueError here *)
Definition decimate (t : tools) (m : tmesh) (face_ratio : R) (num_faces : option Z) (method : string) : res (tmesh * (list Z * list Z)) :=
  let num := match num_faces with None => Int_part (face_ratio * INR (length (snd m))) | Some k => k end in
  if String.eqb method "shortest_edge" then Ok (c_decimate t m num 0)
  else if String.eqb method "qslim" then Ok (c_decimate t m num 1)
  else Err ValueError.
(** np.max / np.min of one column *)
Definition col_max (l : list R) : res R := match l with [] => Err ValueError | x :: r => Ok (fold_left Rmax r x) end.
Definition col_min (l : list R) : res R := match l with [] => Err ValueError | x :: r => Ok (fold_left Rmin r x) end.
(** lazy_cage.py:51 *)
Definition max_bb (V : list vec3) : res R :=
  do x1 <- col_max (map X V); do x0 <- col_min (map X V); do y1 <- col_max (map Y V); do y0 <- col_min (map Y V); do z1 <- col_max (map Zc V); do z0 <- col_min (map Zc V);
  Ok (Rmax (Rmax (Rabs (x1 - x0)) (Rabs (y1 - y0))) (Rabs (z1 - z0)) / 2).
(** lazy_cage.py:55-76; [best] is (U,G), [last] is (clean_vertices, clean_faces) *)
Fixpoint bisect (t : tools) (m : tmesh) (grid nf : Z) (k : nat) (lo hi : R) (best last : option tmesh) : res (option tmesh * option tmesh) :=
  match k with
  | O => Ok (best, last)
  | S k' =>
    let d := (lo + hi) / 2 in
    do r <- decimate t (c_offset t m d grid) 0.1 (Some nf) "shortest_edge";
    let dm := fst r in
    do clean <- mesh_boolean t dm dm "union";
    if fst (do_meshes_intersect t clean m) then bisect t m grid nf k' d hi best (Some clean)
    else bisect t m grid nf k' lo d (Some clean) (Some clean)
  end.
(** lazy_cage.py:49-82 *)
Definition lazy_cage (t : tools) (m : tmesh) (grid max_iter nf : Z) (force : bool) : res (option tmesh) :=
  do w <- max_bb (fst m);
  do r <- bisect t m grid nf (Z.to_nat max_iter) 0 w None None;
  match fst r with
  | Some c => Ok (Some c)
  | None => if force then match snd r with Some c => Ok (Some c) | None => Err UnboundLocalError end else Ok None
  end.
(** barycenters.py:32-36; negative indices wrap around as in numpy *)
Fixpoint mapE {A B} (f : A -> res B) (l : list A) : res (list B) :=
  match l with [] => Ok [] | x :: r => do y <- f x; do ys <- mapE f r; Ok (y :: ys) end.
Definition barycenters (V : list vec3) (F : list (list Z)) : res (list vec3) :=
  mapE (fun f => do ps <- mapE (fun i => lift IndexError (getZ V i)) f; Ok (scal3 (/ INR (length f)) (fold_left add3 ps zero3))) F.
