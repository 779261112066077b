(** linear_elasticity.py:73-99, planar meshes.  Displacements, velocities, forces and prescribed displacements are lists of 2-vectors (numpy arrays of shape (rows,2)).
    Exact reals; min_quad_with_fixed is the model of SolveModel.v (its factorisation [splu] and the contents [garbage] of np.empty are parameters). *)
From Coq Require Import Reals.
From Verif Require Import MatModel NumpyModel PyExn Vec GeomModel TopoModel ElastModel SolveModel.
Open Scope R_scope.

(** np.reshape(U,(-1,1),order='F') *)
Definition flatF (U : list vec2) : list R := map fst U ++ map snd U.
Definition madd (A B : mat) : res mat :=
  if Nat.eqb (nr A) (nr B) && Nat.eqb (nc A) (nc B) then Ok (mkmat (nr A) (nc A) (fun i j => at_ A i j + at_ B i j)) else Err ValueError.
Definition mscale (s : R) (A : mat) : mat := mkmat (nr A) (nc A) (fun i j => s * at_ A i j).
Definition vadd (a b : list R) : res (list R) := if Nat.eqb (length a) (length b) then Ok (map (fun p => fst p + snd p) (combine a b)) else Err ValueError.
Definition mulvec (A : mat) (v : list R) : res (list R) :=
  if Nat.eqb (nc A) (length v) then Ok (map (fun i => sumn (nc A) (fun j => at_ A i j * nth j v 0)) (seq 0 (nr A))) else Err ValueError.
(** :77-80 *)
Definition stack_constraints (n : nat) (bb : option (list Z)) (bc : option (list vec2)) : res (option (list Z) * arg) :=
  match bb, bc with
  | Some b, Some c => Ok (Some (b ++ map (fun i => (i + Z.of_nat n)%Z) b), AVec (map fst c ++ map snd c))
  | Some _, None => Err TypeError
  | None, Some c => Ok (None, AMat (length c) 2 (fun i j => if Nat.eqb j 0 then fst (nth i c (0, 0)) else snd (nth i c (0, 0))))
  | None, None => Ok (None, ANone)
  end.
(** :92-96 for one face *)
Definition sigma_v (m : nat) (s : list R) (r : nat) : R :=
  let s11 := nth r s 0 in let s22 := nth (m + r) s 0 in let s12 := nth (2 * m + r) s 0 in
  sqrt (0.5 * (s11 * s11 - s11 * s22 + s22 * s22 + 3 * s12 * s12)).
Definition linear_elasticity (splu : solver_t) (garbage : matrix) (V : Z -> vec2) (n : nat) (F : list tri) (U0 : list vec2) (dt : R)
    (bb : option (list Z)) (bc : option (list vec2)) (Ud0 fext : option (list vec2)) (Kb mu : R) (volumes : option (list R)) (mass : option mat)
  : res (list R * list R) :=
  let Ud := match Ud0 with Some u => u | None => repeat (0, 0) n end in           (* :73-74 *)
  let fe := match fext with Some f => f | None => repeat (0, 0) n end in          (* :75-76 *)
  do (k, y) <- stack_constraints n bb bc;                                         (* :77-80 *)
  do (KK, C, strain, Ar, M) <- linear_elasticity_stiffness V n F Kb mu volumes mass;   (* :82 *)
  do A <- madd M (mscale (dt ^ 2) KK);                                            (* :85 *)
  do s1 <- vadd (map (Rmult (dt ^ 2)) (flatF fe)) (flatF U0);                     (* :86 *)
  do s2 <- vadd s1 (map (Rmult dt) (flatF Ud));
  do B <- mulvec M s2;
  do (p, u) <- min_quad_with_fixed splu garbage (nr A) (nc A) (at_ A) None k (AVec (map (Rmult (-1)) B)) ANone y;   (* :88 *)
  let U := map (fun i => u i 0%nat) (seq 0 (nr A)) in
  do CS <- mul C strain;                                                          (* :91 *)
  do fs <- mulvec CS U;
  Ok (U, map (sigma_v (length F) fs) (seq 0 (length F))).                         (* :92-99 *)
