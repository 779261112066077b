(** Vocabulary for C78 (stochastic Poisson surface reconstruction): fields on regular grids of any dimension.  A grid position
    is a list of integers, a field a function of positions; nothing here refers to flat indices or sparse matrices. *)
From Coq Require Import Reals ZArith List.
From Verif Require Import MatModel KernelSpec.
Import ListNotations.
Open Scope R_scope.

(** positions of a grid with gs_d nodes along axis d *)
Definition on_grid (gs idx : list Z) : Prop := Forall2 (fun g i => (0 <= i < g)%Z) gs idx.
(** sum of a field over all positions *)
Fixpoint grid_sum (gs : list Z) (f : list Z -> R) : R :=
  match gs with [] => f [] | g :: r => sumn (Z.to_nat g) (fun i => grid_sum r (fun t => f (Z.of_nat i :: t))) end.
(** the node at a position *)
Fixpoint node (corner h : list R) (idx : list Z) : list R :=
  match corner, h, idx with c :: cs, e :: hs, i :: r => (c + IZR i * e) :: node cs hs r | _, _, _ => [] end.
(** the grid whose nodes are the midpoints of the edges along axis d: one node fewer and half a step further along that axis *)
Fixpoint fewer (d : nat) (gs : list Z) : list Z := match gs, d with [], _ => [] | g :: r, O => (g - 1)%Z :: r | g :: r, S d => g :: fewer d r end.
Fixpoint half_step (d : nat) (corner h : list R) : list R :=
  match corner, h, d with c :: cs, e :: hs, O => (c + e / 2) :: cs | c :: cs, e :: hs, S d => c :: half_step d cs hs | cs, _, _ => cs end.
Fixpoint next (d : nat) (idx : list Z) : list Z := match idx, d with [], _ => [] | i :: r, O => (i + 1)%Z :: r | i :: r, S d => i :: next d r end.
(** forward difference along axis d *)
Definition diff (d : nat) (h : list R) (u : list Z -> R) (idx : list Z) : R := (u (next d idx) - u idx) / nth d h 0.
(** cubic B-spline kernel of width s *)
Fixpoint spline_kernel (s : R) (p q : list R) : R :=
  match p, q with a :: p, b :: q => bspline 3 ((a - b) / s) / s * spline_kernel s p q | _, _ => 1 end.
(** smallest spacing *)
Definition is_least (m : R) (l : list R) : Prop := In m l /\ forall x, In x l -> m <= x.
(** sum over the axes and over the staggered grid of each axis *)
Definition edge_sum (gs : list Z) (f : nat -> list Z -> R) : R := sumn (length gs) (fun d => grid_sum (fewer d gs) (f d)).
(** the bilinear form of the screened Poisson problem *)
Definition poisson (e : R) (gs : list Z) (h : list R) (u w : list Z -> R) : R :=
  edge_sum gs (fun d idx => diff d h u idx * diff d h w idx) + e * grid_sum gs (fun idx => u idx * w idx).
(** place of a position in a list of node values, first axis fastest *)
Fixpoint pos (gs idx : list Z) : Z := match gs, idx with g :: gs, i :: idx => (i + g * pos gs idx)%Z | _, _ => 0%Z end.
Definition val_at (gs : list Z) (l : list R) (idx : list Z) : R := nth (Z.to_nat (pos gs idx)) l 0.
(** multilinear interpolation at p of a field on the nodes *)
Fixpoint lerp (corner h p : list R) (F : list Z -> R) : R :=
  match corner, h, p with
  | c :: cs, e :: hs, x :: ps => let k := Int_part ((x - c) / e) in let t := (x - c) / e - IZR k in
      (1 - t) * lerp cs hs ps (fun r => F (k :: r)) + t * lerp cs hs ps (fun r => F ((k + 1)%Z :: r))
  | _, _, _ => F []
  end.
Definition delta (idx k : list Z) : R := if list_eq_dec Z.eq_dec k idx then 1 else 0.
Fixpoint volume (h : list R) : R := match h with [] => 1 | e :: r => e * volume r end.
(** number of samples per unit volume, spread to the surrounding nodes *)
Definition splat (corner h : list R) (P : list (list R)) (idx : list Z) : R := sumn (length P) (fun i => lerp corner h (nth i P []) (delta idx)) / volume h.
(** the box spanned by the nodes, and the part of it at least half a step away from the lower faces *)
Fixpoint in_box (gs : list Z) (h corner p : list R) : Prop :=
  match gs, h, corner, p with
  | [], [], [], [] => True
  | g :: gs, e :: h, c :: cs, x :: p => (c <= x <= c + IZR (g - 1) * e) /\ in_box gs h cs p
  | _, _, _, _ => False
  end.
Fixpoint lower (corner h : list R) : list R := match corner, h with c :: cs, e :: hs => (c - e / 2) :: lower cs hs | _, _ => [] end.
Fixpoint well_inside (gs : list Z) (h corner p : list R) : Prop :=
  match gs, h, corner, p with
  | [], [], [], [] => True
  | g :: gs, e :: h, c :: cs, x :: p => (c + e / 2 <= x <= c + IZR (g - 1) * e) /\ well_inside gs h cs p
  | _, _, _, _ => False
  end.
(** the sampling density: splat on a grid with one node more per axis, shifted by half a step, blurred, interpolated back at the samples *)
Definition is_density (blur : list Z -> list R -> list R) (gs : list Z) (h corner : list R) (P : list (list R)) (dens : nat -> R) : Prop :=
  let gs1 := map (fun g => g + 1)%Z gs in let c' := lower corner h in
  exists img, length img = Z.to_nat (fold_right Z.mul 1%Z gs1) /\ (forall idx, on_grid gs1 idx -> val_at gs1 img idx = splat c' h P idx)
  /\ forall i p, nth_error P i = Some p -> dens i = lerp c' h p (val_at gs1 (blur gs1 img)).
(** a blur with non-negative weights and a positive weight at the centre *)
Definition blurs (blur : list Z -> list R -> list R) : Prop :=
  forall gs, exists k, 0 < k /\ forall img, (forall x, In x img -> 0 <= x) -> forall j, k * nth j img 0 <= nth j (blur gs img) 0.
(** posterior mean of component d of the vector field at q, with prior mean [prior], and posterior covariance between q and q' *)
Definition gp_mean (s noise : R) (dens : nat -> R) (P Nrm : list (list R)) (prior : list R -> list R) (d : nat) (q : list R) : R :=
  nth d (prior q) 0 + sumn (length P) (fun i => spline_kernel s (nth i P []) q * (nth d (nth i Nrm []) 0 - nth d (prior (nth i P [])) 0) / (dens i + noise * noise)).
Definition gp_cov (s noise : R) (dens : nat -> R) (P : list (list R)) (q q' : list R) : R :=
  spline_kernel s q q' - sumn (length P) (fun i => spline_kernel s (nth i P []) q * spline_kernel s (nth i P []) q' / (dens i + noise * noise)).
(** variance of a linear functional of the field: quadratic form of a covariance that is independent between the axes *)
Definition cov_form (gs : list Z) (h : list R) (C : nat -> list Z -> list Z -> R) (u w : list Z -> R) : R :=
  edge_sum gs (fun d a => grid_sum (fewer d gs) (fun b => C d a b * diff d h u a * diff d h w b)).
