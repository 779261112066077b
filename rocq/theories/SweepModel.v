(** swept_volume.py:75-146.  The C++ sweep (:96) and decimate (:99) are parameters; mesh, eps, num_seeds are inside them.  Exact reals; normalising a zero velocity (NaN) is an error here.
    A transformation is the list of its four rows. *)
From Coq Require Import Reals List Arith.
From Verif Require Import Vec PyExn NumpyModel RotModel.
Import ListNotations.
Open Scope R_scope.

Definition tiny : R := / 100000000.
Definition kmat (v : vec3) : mat3 := ((0, - Zc v, Y v), (Zc v, 0, - X v), (- Y v, X v, 0)).
(** rotation_matrix_from_vectors, :127-146 *)
Definition rot_between (vec1 vec2 : vec3) : mat3 :=
  let a := normalized3 vec1 in let b := normalized3 vec2 in
  let v := cross3 a b in let s := norm3 v in let c := dot3 a b in
  if Rlt_dec tiny s then madd (madd eye3 (kmat v)) (mscal ((1 - c) / (s * s)) (mmul (kmat v) (kmat v)))     (* :133-135 *)
  else if Rlt_dec 0 c then eye3                                                                             (* :136-137 *)
  else let axis := cross3 a (1, 0, 0) in
       let axis := if Rlt_dec (norm3 axis) tiny then cross3 a (0, 1, 0) else axis in                        (* :141-143 *)
       let axis := normalized3 axis in
       madd eye3 (mscal 2 (mmul (kmat axis) (kmat axis))).                                                  (* :146 *)
(** :110-117 *)
Definition velocity (tr : list vec3) (i : nat) : res vec3 :=
  let num := length tr in
  let get k := lift IndexError (nth_error tr k) in
  do vel <- (if Nat.eqb i 0 then do q <- get 1%nat; do p <- get 0%nat; Ok (sub3 q p)
             else if Nat.eqb i (num - 1) then do q <- get (num - 1)%nat; do p <- get (num - 2)%nat; Ok (sub3 q p)
             else do q <- get (i + 1)%nat; do p <- get (i - 1)%nat; Ok (sub3 q p));
  if Req_EM_T (norm3 vel) 0 then Err NotANumber else Ok (normalized3 vel).
Fixpoint mapM {A B} (f : A -> res B) (l : list A) : res (list B) :=
  match l with [] => Ok [] | x :: l => do y <- f x; do ys <- mapM f l; Ok (y :: ys) end.
(** :119-124 *)
Fixpoint chain (R0 : mat3) (v0 : vec3) (vs : list vec3) : list mat3 :=
  R0 :: match vs with [] => [] | v :: vs => chain (mmul (rot_between v0 v) R0) v vs end.
Definition velocity_alignment_rotations (tr : list vec3) : res (list mat3) :=
  do vels <- mapM (velocity tr) (seq 0 (length tr));
  match vels with [] => Err IndexError | v0 :: vs => Ok (chain (rot_between (1, 0, 0) v0) v0 vs) end.
(** :85-93 *)
Definition homogeneous (M : mat3) (t : vec3) : list (list R) :=
  [[X (fst (fst M)); Y (fst (fst M)); Zc (fst (fst M)); X t]; [X (snd (fst M)); Y (snd (fst M)); Zc (snd (fst M)); Y t]; [X (snd M); Y (snd M); Zc (snd M); Zc t]; [0; 0; 0; 1]].
Definition keyframe (rotations : option (list mat3)) (vrot : option (list mat3)) (scales : option (list R)) (p : nat * vec3) : res (list (list R)) :=
  let '(i, t) := p in
  do M <- match rotations with
          | Some rs => lift IndexError (nth_error rs i)
          | None => match vrot with Some rs => lift IndexError (nth_error rs i) | None => Ok eye3 end end;
  do M <- match scales with Some sc => do s <- lift IndexError (nth_error sc i); Ok (mscal s M) | None => Ok M end;
  Ok (homogeneous M t).
(** :75-95 *)
Definition sweep_keyframes (transformations : option (list (list (list R)))) (rotations : option (list mat3)) (translations : option (list vec3)) (scales : option (list R)) (align : bool)
  : res (list (list (list R))) :=
  match translations with
  | Some tr =>
    do vr <- match rotations with
             | Some _ => Ok None
             | None => if align then do r <- velocity_alignment_rotations tr; Ok (Some r) else Ok None end;
    mapM (keyframe rotations vr scales) (combine (seq 0 (length tr)) tr)
  | None => match transformations with Some ts => Ok ts | None => Err TypeError end
  end.
Definition swept_volume {mesh} (cpp : list (list R) -> mesh) (decimate : mesh -> nat -> mesh) (transformations : option (list (list (list R)))) (rotations : option (list mat3))
    (translations : option (list vec3)) (scales : option (list R)) (align : bool) (num_faces : option nat) : res mesh :=
  do ts <- sweep_keyframes transformations rotations translations scales align;
  match ts with
  | [] => Err ValueError                                                                                     (* np.vstack of nothing *)
  | _ => let m := cpp (concat ts) in Ok (match num_faces with Some k => decimate m k | None => m end)        (* :95-102 *)
  end.
