(** grid_laplacian_eigenfunctions.py:46-115.  Exact reals; gs and num_modes are natural numbers; np.argsort is a parameter (any valid ordering; ties unspecified).  Other dimensions than 2 and 3
    end in an IndexError in the code and are not modelled. *)
From Coq Require Import Reals List Arith.
Import ListNotations.
Open Scope R_scope.

(** np.linspace(0,l,g)[k] *)
Definition linspace0 (l : R) (g k : nat) : R := if Nat.eqb g 1 then 0 else INR k * l / INR (g - 1).
(** :48-55 at one point *)
Definition psi (N : list nat) (l v : list R) : R :=
  fold_left (fun out p => out * cos (INR (fst p) * PI * snd (snd p) / fst (snd p))) (combine N (combine l v)) 1.
(** :73-74, :100-101 for one candidate *)
Definition eigval (l : list R) (N : list nat) : R := fold_left (fun val p => val + PI ^ 2 * (INR (fst p) / snd p) ^ 2) (combine N l) 0.
(** :76-80, :102-106: entry (r,s) of vecs; the array starts out filled with ones *)
Definition eig_core (argsort : list R -> list nat) (cands : list (list nat)) (l : list R) (pts : list (list R)) (K r s : nat) : R :=
  let order := argsort (map (eigval l) cands) in
  match nth_error (firstn K order) s with
  | Some i => psi (nth i cands []) l (nth r pts [])
  | None => 1
  end.
(** :85-87: meshgrid in xy order, rows stacked *)
Definition grid2 (g0 g1 : nat) (l0 l1 : R) : list (list R) := map (fun r => [linspace0 l0 g0 (r mod g0); linspace0 l1 g1 (r / g0)]) (seq 0 (g0 * g1)).
(** :89-94 *)
Definition cands2 (q : nat) : list (list nat) := map (fun i => [i / q; i mod q]%nat) (seq 0 (q * q)).
Definition eigenfunctions2 (argsort : list R -> list nat) (K g0 g1 : nat) (l0 l1 : R) : nat * nat * (nat -> nat -> R) :=
  ((g0 * g1)%nat, K, eig_core argsort (cands2 K) [l0; l1] (grid2 g0 g1 l0 l1) K).
(** :59-60: meshgrid in ij order, reshaped in Fortran order *)
Definition grid3 (g0 g1 g2 : nat) (l0 l1 l2 : R) : list (list R) :=
  map (fun r => [linspace0 l0 g0 (r mod g0); linspace0 l1 g1 (r / g0 mod g1); linspace0 l2 g2 (r / (g0 * g1))]) (seq 0 (g0 * g1 * g2)).
(** :62  round(np.sqrt(num_modes//8)); the root of an integer is never half way between two integers *)
Definition modes_per_dim (K : nat) : nat := let k := (K / 8)%nat in let s := Nat.sqrt k in if Nat.leb (k - s * s) s then s else S s.
(** :65-67 *)
Definition cands3 (q : nat) : list (list nat) := map (fun i => [i / (q * q); i / q mod q; i mod q]%nat) (seq 0 (q * q * q)).
Definition eigenfunctions3 (argsort : list R -> list nat) (K g0 g1 g2 : nat) (l0 l1 l2 : R) : nat * nat * (nat -> nat -> R) :=
  ((g0 * g1 * g2)%nat, K, eig_core argsort (cands3 (modes_per_dim K)) [l0; l1; l2] (grid3 g0 g1 g2 l0 l1 l2) K).
