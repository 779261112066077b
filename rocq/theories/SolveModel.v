(** min_quad_with_fixed.py and fixed_dof_solve.py.  Matrices are functions of (row, column) with explicit sizes, exact reals.
    The sparse factorisation (cholmod.cholesky or scipy splu) is a parameter [splu N M]: it raises or returns a solve function. *)
From Verif Require Import MatModel.
Open Scope R_scope.

Definition matrix := nat -> nat -> R.
Definition solver_t := nat -> matrix -> res ((nat -> R) -> nat -> R).

(** optional right-hand sides: None, scalar, 1-D array, 2-D array (rows, columns, entries) *)
Inductive arg := ANone | AScalar (s : R) | AVec (v : list R) | AMat (r p : nat) (f : matrix).
(** cp, min_quad_with_fixed.py:314-319, fixed_dof_solve.py:214-219 *)
Definition cp (a : arg) : nat := match a with AMat _ p _ => p | _ => 0%nat end.
(** the shape assertions :322-324 / :222-223.  A scalar where none is allowed hits `.shape` of a float (AttributeError); merged with AssertionError here. *)
Definition check (n p : nat) (scalar_ok : bool) (a : arg) : res unit :=
  match a with
  | ANone => Ok tt
  | AScalar _ => if scalar_ok then Ok tt else Err AssertionError
  | AVec v => if Nat.eqb p 0 && Nat.eqb (length v) n then Ok tt else Err AssertionError
  | AMat r q _ => if negb (Nat.eqb p 0) && Nat.eqb r n && Nat.eqb q p then Ok tt else Err AssertionError
  end.
(** np.full expansion :327-347 / :226-239; (row, column) entry; 1-D data has the single column 0 *)
Definition expand (a : arg) : matrix :=
  match a with ANone => fun _ _ => 0 | AScalar s => fun _ _ => s | AVec v => fun i _ => nth i v 0 | AMat _ _ f => f end.

(** k checks :180-188 / :131-139 (np.min of an empty array raises ValueError; np.unique(k).shape == k.shape) *)
Fixpoint nodupb (l : list Z) : bool := match l with [] => true | x :: r => negb (existsb (Z.eqb x) r) && nodupb r end.
Definition check_k (n : nat) (k : option (list Z)) : res (list nat) :=
  match k with
  | None => Ok []
  | Some [] => Err ValueError
  | Some k => if forallb (fun x => (0 <=? x)%Z && (x <? Z.of_nat n)%Z) k && nodupb k then Ok (map Z.to_nat k) else Err AssertionError
  end.
(** np.setdiff1d(np.arange(0,n), k) *)
Definition setdiff (n : nat) (k : list nat) : list nat := filter (fun i => negb (existsb (Nat.eqb i) k)) (seq 0 n).
Definition sub_mat (M : matrix) (r c : list nat) : matrix := fun i j => M (nth i r 0%nat) (nth j c 0%nat).
(** u[idx] = vals *)
Definition assign (idx : list nat) (vals : nat -> R) (u : nat -> R) : nat -> R :=
  fold_left (fun u p => fun i => if Nat.eqb i (fst p) then vals (snd p) else u i) (combine idx (seq 0 (length idx))) u.

(** fixed_dof_solve_precompute.__init__ :126-155.  [po] is the list k (empty when k is None) *)
Record fds := mkfds { f_n : nat; f_k : list nat; f_ki : list nat; f_extra : matrix; f_solver : (nat -> R) -> nat -> R }.
Definition fixed_dof_solve_precompute (splu : solver_t) (rows cols : nat) (A : matrix) (k : option (list Z)) : res fds :=
  if negb (Nat.eqb rows cols) then Err AssertionError else                    (* :127 *)
  if Nat.eqb rows 0 then Err AssertionError else                              (* :128 *)
  do ks <- check_k rows k;                                                    (* :131-139 *)
  match ks with
  | [] => do s <- splu rows A; Ok (mkfds rows [] [] A s)                      (* :142-146, :154 *)
  | _ => let ki := setdiff rows ks in                                         (* :148 *)
         if negb (Nat.eqb (length ki) (rows - length ks)) then Err AssertionError else   (* :150 *)
         do s <- splu (length ki) (sub_mat A ki ki);                          (* :151, :154 *)
         Ok (mkfds rows ks ki (sub_mat A ki ks) s)                            (* :152 *)
  end.
(** fixed_dof_solve_precompute.solve :214-261.  Returns (p, u); [garbage] is what np.empty contains *)
Definition fds_solve (garbage : matrix) (P : fds) (b y : arg) : res (nat * matrix) :=
  let p := Nat.max (cp b) (cp y) in                                           (* :220 *)
  let o := length (f_k P) in
  do _ <- check (f_n P) p true b;                                             (* :222 *)
  do _ <- check o p (Nat.ltb 0 o) y;                                          (* :223 *)
  Ok (p, fun i col =>
    match f_k P with
    | [] => f_solver P (fun i => expand b i col) i                            (* :243, :247, :250 *)
    | _ => let rhs := fun i => expand b (nth i (f_ki P) 0%nat) col - sumn o (fun j => f_extra P i j * expand y j col) in   (* :245-246 *)
           let ured := f_solver P rhs in                                      (* :247 *)
           assign (f_k P) (fun j => expand y j col) (assign (f_ki P) ured (fun i => garbage i col)) i   (* :253-259 *)
    end).
Definition fixed_dof_solve splu garbage rows cols A k b y : res (nat * matrix) :=      (* :64 *)
  do P <- fixed_dof_solve_precompute splu rows cols A k; fds_solve garbage P b y.

(** :192-193: symmetrise when some entry differs from its transpose *)
Definition is_symmetric (n : nat) (Q : matrix) : bool :=
  forallb (fun i => forallb (fun j => if Req_EM_T (Q i j) (Q j i) then true else false) (seq 0 n)) (seq 0 n).
Definition symmetrize (n : nat) (Q : matrix) : matrix := if is_symmetric n Q then Q else fun i j => 0.5 * (Q i j + Q j i).
(** bmat [[Q, A'],[A, None]] :236 *)
Definition kkt (nr m : nat) (Q A : matrix) : matrix :=
  fun i j => if Nat.ltb i nr then if Nat.ltb j nr then Q i j else A (j - nr)%nat i else if Nat.ltb j nr then A (i - nr)%nat j else 0.

(** min_quad_with_fixed_precompute.__init__ :167-240; A = (rows, columns, entries) *)
Record mqf := mkmqf { q_n : nat; q_m : nat; q_k : list nat; q_ki : list nat; q_nred : nat; q_Qextra : matrix; q_Aextra : matrix; q_solver : (nat -> R) -> nat -> R }.
Definition min_quad_with_fixed_precompute (splu : solver_t) (rows cols : nat) (Q : matrix) (A : option (nat * nat * matrix)) (k : option (list Z)) : res mqf :=
  if negb (Nat.eqb rows cols) then Err AssertionError else                    (* :168 *)
  if Nat.eqb rows 0 then Err AssertionError else                              (* :169 *)
  do mA <- match A with
           | None => Ok (0%nat, fun _ _ => 0)                                 (* :172-174 *)
           | Some (m, c, Am) => if Nat.eqb c rows then Ok (m, Am) else Err AssertionError end;   (* :176-177 *)
  do ks <- check_k rows k;                                                    (* :180-188 *)
  let (m, Am) := mA in
  let Qs := symmetrize rows Q in                                              (* :192-193 *)
  match ks with
  | [] => do s <- (if Nat.eqb m 0 then splu rows Qs else splu (rows + m)%nat (kkt rows m Qs Am));   (* :200-204, :213-240 *)
          Ok (mkmqf rows m [] [] rows Qs Am s)
  | _ => let ki := setdiff rows ks in                                         (* :206 *)
         if negb (Nat.eqb (length ki) (rows - length ks)) then Err AssertionError else    (* :208 *)
         let nr := length ki in
         let Qred := sub_mat Qs ki ki in                                      (* :209 *)
         let Amod := fun i j => Am i (nth j ki 0%nat) in                      (* :231 *)
         do s <- (if Nat.eqb m 0 then splu nr Qred else splu (nr + m)%nat (kkt nr m Qred Amod));
         Ok (mkmqf rows m ks ki nr (sub_mat Qs ki ks) (fun i j => Am i (nth j ks 0%nat)) s)   (* :210, :232 *)
  end.
(** min_quad_with_fixed_precompute.solve :314-382 *)
Definition mqf_solve (garbage : matrix) (P : mqf) (c b y : arg) : res (nat * matrix) :=
  let p := Nat.max (cp c) (Nat.max (cp b) (cp y)) in                          (* :320 *)
  let o := length (q_k P) in
  let m := q_m P in
  do _ <- check (q_n P) p true c;                                             (* :322 *)
  do _ <- check m p (Nat.ltb 0 m) b;                                          (* :323 *)
  do _ <- check o p (Nat.ltb 0 o) y;                                          (* :324 *)
  Ok (p, fun i col =>
    let cmod := match q_k P with
                | [] => fun i => expand c i col                               (* :351 *)
                | _ => fun i => expand c (nth i (q_ki P) 0%nat) col + sumn o (fun j => q_Qextra P i j * expand y j col) end in   (* :353-354 *)
    let bmod := match q_k P with
                | [] => fun r => expand b r col
                | _ => fun r => expand b r col - sumn o (fun j => q_Aextra P r j * expand y j col) end in   (* :362 *)
    let rhs := if Nat.eqb m 0 then fun i => - cmod i                          (* :359 *)
               else fun i => if Nat.ltb i (q_nred P) then - cmod i else bmod (i - q_nred P)%nat in   (* :363 *)
    let ured := q_solver P rhs in                                             (* :364, :367 *)
    match q_k P with
    | [] => ured i                                                            (* :371 *)
    | _ => assign (q_k P) (fun j => expand y j col) (assign (q_ki P) ured (fun i => garbage i col)) i   (* :374-380 *)
    end).
Definition min_quad_with_fixed splu garbage rows cols Q A k c b y : res (nat * matrix) :=   (* :87 *)
  do P <- min_quad_with_fixed_precompute splu rows cols Q A k; mqf_solve garbage P c b y.
