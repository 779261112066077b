(** Independent specification of the kernels: the centred uniform B-splines in truncated-power form.
    [bspline n] is the (n+1)-fold convolution of the unit box with itself. *)
From Coq Require Import Reals Lra List.
Import ListNotations.
Open Scope R_scope.
Definition pospart (x : R) : R := Rmax x 0.
(** second-to-last argument lists: sum over (coefficient, knot) of c * (x - knot)_+^p *)
Definition tpow (p : nat) (l : list (R * R)) (x : R) : R :=
  fold_right (fun ck s => fst ck * pospart (x - snd ck) ^ p + s) 0 l.
Definition knots (n : nat) : list (R * R) :=
  match n with
  | 1%nat => [(1, -1); (-2, 0); (1, 1)]
  | 2%nat => [(1, -(3/2)); (-3, -(1/2)); (3, 1/2); (-1, 3/2)]
  | 3%nat => [(1, -2); (-4, -1); (6, 0); (-4, 1); (1, 2)]
  | 4%nat => [(1, -(5/2)); (-5, -(3/2)); (10, -(1/2)); (-10, 1/2); (5, 3/2); (-1, 5/2)]
  | _ => []
  end.
Definition bspline (n : nat) (x : R) : R := tpow n (knots n) x / INR (fact n).
(** first and second derivative where they exist *)
Definition bspline1 (n : nat) (x : R) : R := tpow (n - 1) (knots n) x / INR (fact (n - 1)).
Definition bspline2 (n : nat) (x : R) : R := tpow (n - 2) (knots n) x / INR (fact (n - 2)).
Definition half_support (n : nat) : R := (INR n + 1) / 2.
