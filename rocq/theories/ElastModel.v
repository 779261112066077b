(** linear_elasticity_stiffness.py:60-95 for planar meshes (dim==2; dim==3 is announced as unsupported and then fails).
    Dense matrices with shapes; scipy's shape checks of hstack/vstack/product are kept. Exact reals. *)
From Verif Require Import MatModel NumpyModel TopoModel Vec GeomModel.
Open Scope R_scope.

Record mat := mkmat { nr : nat; nc : nat; at_ : nat -> nat -> R }.
Definition of_trips (rows cols : nat) (M : list trip) : mat := mkmat rows cols (fun i j => entry M (Z.of_nat i) (Z.of_nat j)).
(** G[r0:r1, 0:c1] (python slices are cut at the end) *)
Definition slice (M : mat) (r0 r1 c1 : nat) : mat :=
  mkmat (Nat.min r1 (nr M) - r0) (Nat.min c1 (nc M)) (fun i j => at_ M (r0 + i)%nat j).
Definition hstack2 (A B : mat) : res mat :=
  if Nat.eqb (nr A) (nr B) then Ok (mkmat (nr A) (nc A + nc B) (fun i j => if Nat.ltb j (nc A) then at_ A i j else at_ B i (j - nc A)%nat)) else Err ValueError.
Definition vstack2 (A B : mat) : res mat :=
  if Nat.eqb (nc A) (nc B) then Ok (mkmat (nr A + nr B) (nc A) (fun i j => if Nat.ltb i (nr A) then at_ A i j else at_ B (i - nr A)%nat j)) else Err ValueError.
Definition hstack3 (A B C : mat) : res mat := do x <- hstack2 A B; hstack2 x C.
Definition vstack3 (A B C : mat) : res mat := do x <- vstack2 A B; vstack2 x C.
Definition mul (A B : mat) : res mat :=
  if Nat.eqb (nc A) (nr B) then Ok (mkmat (nr A) (nc B) (fun i j => sumn (nc A) (fun k => at_ A i k * at_ B k j))) else Err ValueError.
Definition transpose (A : mat) : mat := mkmat (nc A) (nr A) (fun i j => at_ A j i).
Definition diag (v : list R) : mat := mkmat (length v) (length v) (fun i j => if Nat.eqb i j then nth i v 0 else 0).
Definition ident (s : R) (m : nat) : mat := mkmat m m (fun i j => if Nat.eqb i j then s else 0).   (* s * identity(m) *)
Definition zeros (r c : nat) : mat := mkmat r c (fun _ _ => 0).
Definition block_diag2 (A B : mat) : mat :=
  mkmat (nr A + nr B) (nc A + nc B) (fun i j => if Nat.ltb i (nr A) then if Nat.ltb j (nc A) then at_ A i j else 0 else if Nat.ltb j (nc A) then 0 else at_ B (i - nr A)%nat (j - nc A)%nat).

(** :60-95; V maps vertex numbers to points, n = V.shape[0]; returns (K, C, strain, A, M) *)
Definition linear_elasticity_stiffness (V : Z -> vec2) (n : nat) (F : list tri) (K mu : R) (volumes : option (list R)) (mass : option mat)
  : res (mat * mat * mat * mat * mat) :=
  let l := K - (2 / 3) * mu in                                                   (* :60 *)
  let m := length F in
  let Zm := zeros m n in                                                         (* :61 *)
  do Gr <- grad3 (fun i => (fst (V i), snd (V i), 0)) (Z.of_nat n) F;            (* :67 *)
  let G := slice (of_trips (3 * m) n Gr) 0 (2 * m) (2 * m) in                    (* :68 *)
  let G0 := slice G 0 m (nc G) in                                                (* :69 *)
  let G1 := slice G m (2 * m) (nc G) in                                          (* :70 *)
  do strain0 <- hstack2 G0 Zm;                                                   (* :71 *)
  do strain1 <- hstack2 Zm G1;                                                   (* :72 *)
  do strain2 <- hstack2 G1 G0;                                                   (* :73 *)
  do strain <- vstack3 strain0 strain1 strain2;                                  (* :74 *)
  do c0 <- hstack3 (ident (l + 2 * mu) m) (ident l m) (ident 0 m);               (* :75 *)
  do c1 <- hstack3 (ident l m) (ident (l + 2 * mu) m) (ident 0 m);
  do c2 <- hstack3 (ident 0 m) (ident 0 m) (ident mu m);
  do C <- vstack3 c0 c1 c2;
  let A := match volumes with
           | None => diag (map (fun t => doublearea (fun i => row_of2 (V i)) t * (1 / 2)) F)   (* :77 *)
           | Some v => diag v end in                                             (* :79 *)
  let A := block_diag2 (block_diag2 A A) A in                                    (* :80 *)
  do M <- match mass with
          | None => do Mt <- massmatrix (fun i => row_of2 (V i)) (Z.of_nat n) F Voronoi; Ok (of_trips n n Mt)   (* :82 *)
          | Some M => Ok M end;
  let M := block_diag2 M M in                                                    (* :86 *)
  let D := transpose strain in                                                   (* :91 *)
  do DA <- mul D A; do DAC <- mul DA C; do KK <- mul DAC strain;                 (* :92 *)
  Ok (KK, C, strain, A, M).
