(** icosphere.py:65-107.  Exact reals; a row of norm zero would be divided to NaN and is an error here. *)
From Coq Require Import Reals.
From Verif Require Import NumpyModel TopoModel.
From Verif Require Import PyExn Vec SubdivModel SubdivSpec.
Open Scope R_scope.

(** :67-78 *)
Definition ico_V : list vec3 :=
  [(0, 0, 1);
   (0.723606797749979, -0.525731112119134, 0.447213595499958);
   (0.723606797749979, 0.525731112119134, 0.447213595499958);
   (-0.276393202250021, 0.85065080835204, 0.447213595499958);
   (-0.894427190999916, 0, 0.447213595499958);
   (-0.276393202250021, -0.85065080835204, 0.447213595499958);
   (0.894427190999916, 0, -0.447213595499958);
   (0.276393202250021, 0.85065080835204, -0.447213595499958);
   (-0.723606797749979, 0.525731112119134, -0.447213595499958);
   (-0.723606797749979, -0.525731112119133, -0.447213595499958);
   (0.276393202250021, -0.85065080835204, -0.447213595499958);
   (0, 0, -1)].
(** :82-101 *)
Definition ico_F : list tri :=
  [(0,1,2); (0,2,3); (0,3,4); (0,4,5); (0,5,1); (1,6,2); (2,7,3); (3,8,4); (4,9,5); (5,10,1);
   (6,7,2); (7,8,3); (8,9,4); (9,10,5); (10,6,1); (6,11,7); (7,11,8); (8,11,9); (9,11,10); (10,11,6)]%Z.
(** :79  V -= np.mean(V, axis=0) *)
Definition center_rows (V : list vec3) : list vec3 :=
  let mean := scal3 (/ INR (length V)) (fold_right add3 zero3 V) in map (fun v => sub3 v mean) V.
(** :80, :105  V /= np.linalg.norm(V, axis=-1) *)
Definition normalize_rows (V : list vec3) : res (list vec3) :=
  if existsb (fun v => if Req_EM_T (norm3 v) 0 then true else false) V then Err NotANumber
  else Ok (map (fun v => scal3 (/ norm3 v) v) V).
(** :103-105  one pass of the loop; subdivide(V,F) is one upsampling step *)
Fixpoint ico_loop (n : nat) (V : list vec3) (F : list tri) : res (list vec3 * list tri) :=
  match n with
  | O => Ok (V, F)
  | S n => do (Vu, Fu, _) <- upsample_triangle_mesh mid3 V F; do Vn <- normalize_rows Vu; ico_loop n Vn Fu
  end.
Definition icosphere (n : Z) : res (list vec3 * list tri) :=
  if (n <? 0)%Z then Err AssertionError else                                        (* :65 *)
  do V <- normalize_rows (center_rows ico_V); ico_loop (Z.to_nat n) V ico_F.
