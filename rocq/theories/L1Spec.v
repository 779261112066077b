(** Specification for C72 (min_l1_with_fixed): the documented optimisation problem, and the contracts of the two conic solvers. *)
From Coq Require Import Reals.
From Verif Require Import MatModel NumpyModel PyExn ElastModel L1Model.
Open Scope R_scope.

(** (M u)_i *)
Definition mv (M : mat) (u : list R) (i : nat) : R := sumn (nc M) (fun j => at_ M i j * nth j u 0).
(** Euclidean norm of k numbers *)
Definition enorm (k : nat) (v : nat -> R) : R := sqrt (sumn k (fun j => v j * v j)).
(** u^T Q u *)
Definition quadratic (Q : mat) (u : list R) : R := sumn (nr Q) (fun i => nth i u 0 * mv Q u i).
Definition symmetric (Q : mat) : Prop := forall i j, at_ Q i j = at_ Q j i.

(** |Gu|_{d,1}: the sum over consecutive groups of d entries of their Euclidean norms *)
Definition mixed_norm (d m : nat) (v : nat -> R) : R := sumn m (fun i => enorm d (fun j => v (d * i + j)%nat)).
Definition the_G (a : l1_args) (n : nat) : mat := match aG a with Some G => G | None => mkmat n n (fun i j => if Nat.eqb i j then 1 else 0) end.
(** |Gu|_{d,1} + 1/2 u^T Q u + c^T u.  A factor L stands for Q = L L^T. *)
Definition objective (a : l1_args) (n : nat) (u : list R) : R :=
  mixed_norm (ad a) (nr (the_G a n) / ad a) (mv (the_G a n) u)
  + / 2 * match aQ a, aL a with Some Q, _ => quadratic Q u | None, Some L => sumn (nc L) (fun j => (sumn (nr L) (fun i => at_ L i j * nth i u 0)) ^ 2) | None, None => 0 end
  + match ac a with Some c => sumn n (fun i => nth i c 0 * nth i u 0) | None => 0 end.
(** u[k] = y and A u = b *)
Definition feasible (a : l1_args) (u : list R) : Prop :=
  (forall k y, ak a = Some k -> ay a = Some y -> forall j, (j < length k)%nat -> nth (Z.to_nat (nth j k 0%Z)) u 0 = nth j y 0)
  /\ (forall A b, aA a = Some A -> ab a = Some b -> forall i, (i < nr A)%nat -> mv A u i = at_ b i 0%nat).
Definition minimiser (a : l1_args) (n : nat) (u : list R) : Prop :=
  length u = n /\ feasible a u /\ forall u', length u' = n -> feasible a u' -> objective a n u <= objective a n u'.

(** arguments of matching shapes for n unknowns *)
Record valid (a : l1_args) (n : nat) : Prop := {
  v_d : (0 < ad a)%nat;
  v_G : nc (the_G a n) = n /\ exists m, nr (the_G a n) = (ad a * m)%nat;
  v_Q : forall Q, aQ a = Some Q -> nr Q = n /\ nc Q = n /\ symmetric Q;
  v_QL : aQ a = None \/ aL a = None;
  v_L : forall L, aL a = Some L -> nr L = n;
  v_c : forall c, ac a = Some c -> length c = n;
  v_ky : match ak a, ay a with Some k, Some y => length k = length y /\ Forall (fun i => (0 <= i < Z.of_nat n)%Z) k | None, None => True | _, _ => False end;
  v_Ab : match aA a, ab a with Some A, Some b => nc A = n /\ nr b = nr A /\ nc b = 1%nat | None, None => True | _, _ => False end;
  (** something tells the number of unknowns; alone, k counts as fixing all of 0..max k *)
  v_n : aG a <> None \/ aQ a <> None \/ (exists L, aL a = Some L /\ nc L = n) \/ aL a = None /\ (ac a <> None \/ aA a <> None \/ exists k, ak a = Some k /\ In (Z.of_nat n - 1)%Z k) }.

(** ** SCS: minimise 1/2 x^T P x + c^T x subject to A x + s = b, s in {0}^z x R_+^l x second-order cones of sizes q; only the upper triangle of P is read *)
Definition slack (p : scsp) (x : list R) (i : nat) : R := nth i (s_b p) 0 - mv (s_A p) x i.
Fixpoint in_socs (off : nat) (q : list nat) (s : nat -> R) : Prop :=
  match q with [] => True | k :: q => enorm (k - 1) (fun j => s (off + 1 + j)%nat) <= s off /\ in_socs (off + k) q s end.
Definition scs_feasible (p : scsp) (x : list R) : Prop :=
  length x = nc (s_A p) /\ (forall i, (i < s_z p)%nat -> slack p x i = 0) /\ (forall i, (i < s_l p)%nat -> 0 <= slack p x (s_z p + i)%nat) /\ in_socs (s_z p + s_l p) (s_q p) (slack p x).
Definition upper_quadratic (P : mat) (x : list R) : R :=
  sumn (nr P) (fun i => at_ P i i * nth i x 0 * nth i x 0) + 2 * sumn (nr P) (fun i => sumn i (fun j => at_ P j i * nth j x 0 * nth i x 0)).
Definition scs_value (p : scsp) (x : list R) : R :=
  / 2 * match s_P p with Some P => upper_quadratic P x | None => 0 end + sumn (length (s_c p)) (fun i => nth i (s_c p) 0 * nth i x 0).
Definition scs_optimal (p : scsp) (x : list R) : Prop := scs_feasible p x /\ forall x', scs_feasible p x' -> scs_value p x <= scs_value p x'.
(** the dimensions SCS insists on *)
Definition scs_well_formed (p : scsp) : Prop :=
  length (s_b p) = nr (s_A p) /\ length (s_c p) = nc (s_A p) /\ (forall P, s_P p = Some P -> nr P = nc (s_A p) /\ nc P = nc (s_A p))
  /\ (s_z p + s_l p + fold_right Nat.add 0 (s_q p) = nr (s_A p))%nat /\ Forall (fun k => (0 < k)%nat) (s_q p).
(** status 1 is only reported for optimal points of well-formed programs, and always when there is one *)
Definition scs_contract (scs : scsp -> list R * Z) : Prop :=
  forall p, scs_well_formed p -> (snd (scs p) = 1%Z -> scs_optimal p (fst (scs p))) /\ ((exists x, scs_optimal p x) -> snd (scs p) = 1%Z).

(** ** MOSEK: minimise c^T x with bounds on variables and on rows of A x, and rows of F x + g in (rotated) quadratic cones *)
Definition afe (p : mskp) (x : list R) (i : nat) : R := mv (k_F p) x i + nth i (k_g p) 0.
Definition in_cone (w : nat -> R) (c : cone) : Prop :=
  match c with
  | Quad (t :: l) => enorm (length l) (fun j => w (nth j l 0%nat)) <= w t
  | RQuad (s :: t :: l) => 0 <= w s /\ 0 <= w t /\ sumn (length l) (fun j => w (nth j l 0%nat) * w (nth j l 0%nat)) <= 2 * w s * w t
  | _ => False end.
Definition vb_ok (b : vbound) (x : R) : Prop := match b with Free => True | Low l => l <= x | Fixed v => x = v end.
Definition cb_ok (b : cbound) (x : R) : Prop := match b with CFix v => x = v | CUp u => x <= u end.
Definition msk_feasible (p : mskp) (x : list R) : Prop :=
  length x = k_n p /\ (forall i, (i < k_n p)%nat -> vb_ok (nth i (k_vb p) Free) (nth i x 0)) /\
  (forall i, (i < nr (k_A p))%nat -> cb_ok (nth i (k_cb p) (CFix 0)) (mv (k_A p) x i)) /\ Forall (in_cone (afe p x)) (k_cones p).
Definition msk_value (p : mskp) (x : list R) : R := sumn (k_n p) (fun i => nth i (k_c p) 0 * nth i x 0).
Definition msk_optimal (p : mskp) (x : list R) : Prop := msk_feasible p x /\ forall x', msk_feasible p x' -> msk_value p x <= msk_value p x'.
Definition msk_well_formed (p : mskp) : Prop :=
  length (k_c p) = k_n p /\ length (k_vb p) = k_n p /\ nc (k_A p) = k_n p /\ length (k_cb p) = nr (k_A p) /\ nc (k_F p) = k_n p /\ length (k_g p) = nr (k_F p)
  /\ Forall (fun c => match c with Quad l | RQuad l => Forall (fun i => (i < nr (k_F p))%nat) l end) (k_cones p).
Definition msk_contract (msk : mskp -> list R * bool) : Prop :=
  forall p, msk_well_formed p -> (snd (msk p) = true -> msk_optimal p (fst (msk p))) /\ ((exists x, msk_optimal p x) -> snd (msk p) = true).
(** Cholesky: Lt^T Lt = Q *)
Definition chol_contract (chol : mat -> res mat) (Q : mat) : Prop :=
  exists Lt, chol Q = Ok Lt /\ nc Lt = nr Q /\ forall i j, (i < nr Q)%nat -> (j < nr Q)%nat -> sumn (nr Lt) (fun k => at_ Lt k i * at_ Lt k j) = at_ Q i j.
