(** grid_neighbors.py.  A row of [neighbor_rows]/[out_of_bounds] is a function from the column
    (cell index, 0 <= c < prod(gs)) to the pair (entry, flag). *)
From Verif Require Import NumpyModel.
Open Scope Z_scope.

Definition nrow := Z -> Z * bool.
(** one pass of the loop body for rows f (= row i) and g: neighbor_rows[:,neighbor_rows[i,:]] with its flags, :92-95 *)
Definition comp_row (f g : nrow) : nrow := fun c => let (d, b) := f c in let (e, b') := g d in (e, b || b').
(** :87-101 *)
Definition double (rows : list nrow) : list nrow := rows ++ flat_map (fun f => map (comp_row f) rows) rows.
(** :84-104, [order - 1] passes *)
Definition iterate (order : Z) (rows : list nrow) : list nrow := Nat.iter (Z.to_nat (order - 1)) double rows.
(** :106-109 *)
Definition unique_rows (rows : list nrow) : list nrow :=
  map (fun i => nth i rows (fun _ => (0, true))) (np_unique_index (map (fun f : nrow => fst (f 0)) rows)).
(** :112 *)
Definition final (r : nrow) : Z -> Z := fun c => if snd (r c) then -1 else fst (r c).
Definition finish (order : Z) (uniq : bool) (rows : list nrow) : list (Z -> Z) :=
  let rows := iterate order rows in
  map final (if uniq then unique_rows rows else rows).

(** ** dim = 2, gs = (g0, g1); a position is (idy, idx), cell index idy + g0*idx (order='F') *)
Definition unravel2 (g0 : Z) (c : Z) : Z * Z := (c mod g0, c / g0).
(** ravel_multi_index(mode='wrap', order='F'), :55 *)
Definition ravel2 (g0 g1 : Z) (p : Z * Z) : Z := fst p mod g0 + g0 * (snd p mod g1).
(** :52 *)
Definition oob2 (g0 g1 : Z) (p : Z * Z) : bool := ((snd p <? 0) || (g1 <=? snd p)) || ((fst p <? 0) || (g0 <=? fst p)).
(** :43-50, offsets (dy, dx) *)
Definition offs2 (diag self : bool) : list (Z * Z) :=
  (if self then [(0, 0)] else []) ++ [(0, -1); (0, 1); (-1, 0); (1, 0)] ++ (if diag then [(-1, -1); (1, -1); (-1, 1); (1, 1)] else []).
Definition add2z (p q : Z * Z) : Z * Z := (fst p + fst q, snd p + snd q).
Definition base2 (g0 g1 : Z) (diag self : bool) : list nrow :=
  map (fun o c => let q := add2z (unravel2 g0 c) o in (ravel2 g0 g1 q, oob2 g0 g1 q)) (offs2 diag self).
Definition grid_neighbors2 (g0 g1 order : Z) (diag self uniq : bool) : list (Z -> Z) := finish order uniq (base2 g0 g1 diag self).

(** ** dim = 3, gs = (g0, g1, g2); a position is (idz, idy, idx), index idz + g0*(idy + g1*idx) *)
Definition unravel3 (g0 g1 : Z) (c : Z) : Z * Z * Z := (c mod g0, (c / g0) mod g1, c / g0 / g1).
Definition ravel3 (g0 g1 g2 : Z) (p : Z * Z * Z) : Z := let '(z, y, x) := p in z mod g0 + g0 * (y mod g1 + g1 * (x mod g2)).
(** :80 *)
Definition oob3 (g0 g1 g2 : Z) (p : Z * Z * Z) : bool := let '(z, y, x) := p in
  ((x <? 0) || (g2 <=? x)) || ((y <? 0) || (g1 <=? y)) || ((z <? 0) || (g0 <=? z)).
(** :58-78, offsets (dz, dy, dx) *)
Definition offs3 (diag self : bool) : list (Z * Z * Z) :=
  (if self then [(0, 0, 0)] else []) ++
  [(0,0,-1); (0,0,1); (0,-1,0); (0,1,0); (-1,0,0); (1,0,0)] ++
  (if diag then
    [(-1,-1,-1); (0,-1,-1); (1,-1,-1); (-1,0,-1); (1,0,-1); (-1,1,-1); (0,1,-1); (1,1,-1);
     (-1,-1,0); (1,-1,0); (-1,1,0); (1,1,0);
     (-1,-1,1); (0,-1,1); (1,-1,1); (-1,0,1); (1,0,1); (-1,1,1); (0,1,1); (1,1,1)] else []).
Definition add3z (p q : Z * Z * Z) : Z * Z * Z := let '(a, b, c) := p in let '(a', b', c') := q in (a + a', b + b', c + c').
Definition base3 (g0 g1 g2 : Z) (diag self : bool) : list nrow :=
  map (fun o c => let q := add3z (unravel3 g0 g1 c) o in (ravel3 g0 g1 g2 q, oob3 g0 g1 g2 q)) (offs3 diag self).
Definition grid_neighbors3 (g0 g1 g2 order : Z) (diag self uniq : bool) : list (Z -> Z) := finish order uniq (base3 g0 g1 g2 diag self).
