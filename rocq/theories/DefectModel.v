(** angle_defect_intrinsic.py:38-53, angle_defect.py:33-35.  Exact reals; the assertions on the shapes
    are carried by the types, l_sq >= 0 is not checked again (the angle formula is total). *)
From Verif Require Import TopoModel AngleModel.
From Verif Require Import PyExn Vec MatModel GeomModel.
Open Scope R_scope.

(** F.ravel() and alpha.ravel(), side by side *)
Definition ravel3 (p : tri * r3) : list (Z * R) :=
  let '((a, b, c), w) := p in [(a, X w); (b, Y w); (c, Zc w)].
(** np.bincount(x, weights, minlength=n): negative entries raise; the length is max(n, max(x)+1) *)
Definition bincount (l : list (Z * R)) (n : Z) : res (list R) :=
  if existsb (fun p => (fst p <? 0)%Z) l then Err ValueError
  else let len := fold_right (fun p m => Z.max (fst p + 1) m) n l in
       Ok (map (fun k => sumf (fun p => if (fst p =? Z.of_nat k)%Z then snd p else 0) l) (seq 0 (Z.to_nat len))).
(** k[b] = 0. for an array b of non-negative indices *)
Definition zero_at (k : list R) (b : list Z) : list R :=
  map (fun p => if existsb (fun j => (j =? Z.of_nat (fst p))%Z) b then 0 else snd p) (combine (seq 0 (length k)) k).
(** angle_defect_intrinsic.py:42-53; n = None is n = 0 (:42-43) *)
Definition angle_defect_intrinsic (approx : bool) (small : R) (L : faces_lsq) (n : option Z) : res (list R) :=
  let n := match n with None => 0%Z | Some n => n end in
  do asum <- bincount (flat_map (fun p => ravel3 (fst p, tip_angles_intrinsic approx small (snd p))) L) n;   (* :45-47 *)
  let k := map (fun s => 2 * PI - s) asum in                                                                (* :49 *)
  do b <- lift AssertionError (boundary_vertices (map fst L));                                              (* :50 *)
  Ok (zero_at k b).                                                                                         (* :51 *)
(** angle_defect.py:33-35, V has n rows *)
Definition angle_defect (V : Z -> list R) (n : Z) (F : list tri) (approx : bool) (small : R) : res (list R) :=
  angle_defect_intrinsic approx small (with_lsq V F) (Some n).
