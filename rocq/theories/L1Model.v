(** min_l1_with_fixed.py.  Dense matrices with shapes as in ElastModel.v (scipy's shape checks of hstack/vstack/product are kept), exact reals.
    The conic solvers are parameters: SCS receives the program of :503-514 and returns (x, status_val); MOSEK receives the task of :300-365 and
    returns (xx, whether the status is optimal).  Simplifications: d is a natural number; n inferred from a negative maximum of k counts as 0;
    parameters/verbosity are dropped; MOSEK's Cholesky factorisation of Q (:197-210) is a parameter returning Lt. *)
From Coq Require Import Reals.
From Verif Require Import MatModel NumpyModel PyExn ElastModel.
Open Scope R_scope.

Record l1_args := { aG : option mat; aQ : option mat; aL : option mat; ac : option (list R); ak : option (list Z); ay : option (list R); aA : option mat; ab : option mat; ad : nat }.
Definition Zmax_list (l : list Z) : option Z := match l with [] => None | x :: r => Some (fold_left Z.max r x) end.
(** :160-180 = :404-424 *)
Definition infer_n (a : l1_args) : res nat :=
  match aG a with Some G => Ok (nc G) | None =>
  match aQ a with Some Q => Ok (nc Q) | None =>
  match aL a with Some L => Ok (nc L) | None =>
  match ac a with Some c => Ok (length c) | None =>
  match aA a with Some A => Ok (nc A) | None =>
  match ak a with Some k => do mx <- lift ValueError (Zmax_list k); Ok (Z.to_nat (mx + 1)) | None => Err ValueError end end end end end end.
(** :183-186 = :427-430 *)
Definition def_G (a : l1_args) (n : nat) : mat := match aG a with Some G => G | None => ident 1 n end.
Definition def_c (a : l1_args) (n : nat) : list R := match ac a with Some c => c | None => repeat 0 n end.
Definition assert_ (b : bool) : res unit := if b then Ok tt else Err AssertionError.
Definition is_none {A} (o : option A) : bool := match o with None => true | _ => false end.
(** :229-241 = :445-457 *)
Definition check_shapes (a : l1_args) (n d m : nat) (G : mat) (c : list R) : res unit :=
  do _ <- assert_ (Nat.eqb (length c) n);
  do _ <- assert_ (Nat.eqb (nr G mod d) 0);
  do _ <- assert_ (Nat.eqb (nr G) (d * m) && Nat.eqb (nc G) n);
  do _ <- assert_ (Bool.eqb (is_none (ay a)) (is_none (ak a)));
  do _ <- assert_ (match ak a, ay a with Some k, Some y => Nat.eqb (length k) (length y) | _, _ => true end);
  do _ <- assert_ (match aA a with
                   | Some A => match ab a with Some b => Nat.eqb (nc A) n && Nat.eqb (nr A) (nr b) && Nat.eqb (nc b) 1 | None => false end
                   | None => is_none (ab a) end);
  Ok tt.
Definition sq_shape (Q : option mat) (n : nat) : bool := match Q with Some Q => Nat.eqb (nr Q) n && Nat.eqb (nc Q) n | None => true end.
Definition neg (A : mat) : mat := mkmat (nr A) (nc A) (fun i j => - at_ A i j).

(** ** SCS, :387-531 *)
Record scsp := { s_P : option mat; s_A : mat; s_b : list R; s_c : list R; s_z : nat; s_l : nat; s_q : list nat }.
(** a row of block_array whose second block is None *)
Definition blk (m n : nat) (o : option mat) : res mat := match o with Some X => hstack2 X (zeros (nr X) m) | None => Ok (zeros 0 (n + m)) end.
(** :468-470; indices outside 0..n-1 are a ValueError of csr_array *)
Definition k_rows (n : nat) (k : list Z) : res mat :=
  if forallb (fun x => (0 <=? x)%Z && (x <? Z.of_nat n)%Z) k
  then Ok (mkmat (length k) n (fun i j => if Nat.eqb (Z.to_nat (nth i k 0%Z)) j then 1 else 0)) else Err ValueError.
(** scs_Gperm, :485 *)
Definition gperm (d m : nat) : list nat := flat_map (fun i => (d * m + i)%nat :: map (fun j => (d * i + j)%nat) (seq 0 d)) (seq 0 m).
Definition pick_rows (l : list nat) (M : mat) : mat := mkmat (length l) (nc M) (fun i j => at_ M (nth i l 0%nat) j).
Definition scs_build (a : l1_args) : res (nat * scsp) :=
  do n <- infer_n a;
  let G := def_G a n in let c := def_c a n in let d := ad a in
  if Nat.eqb d 0 then Err ZeroDivisionError else
  let m := (nr G / d)%nat in                                                       (* :432 *)
  do _ <- assert_ (is_none (aQ a) || is_none (aL a));                              (* :435-436 *)
  do Q <- match aL a with Some L => do q <- mul L (transpose L); Ok (Some q) | None => Ok (aQ a) end;   (* :437-438 *)
  do _ <- check_shapes a n d m G c;                                                (* :445-457 *)
  do _ <- assert_ (sq_shape Q n);                                                  (* :458-459 *)
  let P := match Q with Some Q => Some (block_diag2 Q (zeros m m)) | None => None end in                (* :462-464 *)
  do kI <- match ak a with Some k => do x <- k_rows n k; Ok (Some x) | None => Ok None end;             (* :467-469 *)
  do r0 <- blk m n (aA a); do r1 <- blk m n kI; do r2 <- hstack2 (zeros m n) (neg (ident 1 m));         (* :472-474 *)
  do A0 <- vstack3 r0 r1 r2;
  do r3 <- (if Nat.eqb d 1 then do g0 <- hstack2 G (neg (ident 1 m)); do g1 <- hstack2 (neg G) (neg (ident 1 m)); vstack2 g0 g1   (* :477-479 *)
            else if Nat.eqb m 0 then Err ValueError else Ok (pick_rows (gperm d m) (neg (block_diag2 G (ident 1 m)))));              (* :484-488 *)
  do A1 <- vstack2 A0 r3;
  let b0 := (match ab a with Some b => map (fun i => at_ b i 0%nat) (seq 0 (nr b)) | None => [] end)
         ++ (match ay a with Some y => y | None => [] end) in                      (* :491-495 *)
  Ok (n, {| s_P := P; s_A := A1; s_b := b0 ++ repeat 0 (nr A1 - length b0); s_c := c ++ repeat 1 m;     (* :496, :504-508 *)
            s_z := (match aA a with Some A => nr A | None => 0 end + match ak a with Some k => length k | None => 0 end)%nat;   (* :499 *)
            s_l := (m + (if Nat.eqb d 1 then 2 * m else 0))%nat;                   (* :500 *)
            s_q := if Nat.eqb d 1 then [] else repeat (d + 1)%nat m |}).           (* :501, :511-512 *)
Definition min_l1_scs (scs : scsp -> list R * Z) (a : l1_args) : res (list R) :=
  do (n, p) <- scs_build a;
  let '(x, st) := scs p in if (st =? 1)%Z then Ok (firstn n x) else Err ValueError.     (* :514-531 *)

(** ** MOSEK, :140-385 *)
Inductive vbound := Free | Low (b : R) | Fixed (b : R).       (* boundkey fr, lo, fx *)
Inductive cbound := CFix (b : R) | CUp (b : R).               (* boundkey fx, up *)
Inductive cone := Quad (l : list nat) | RQuad (l : list nat).  (* accs over rows of F x + g *)
Record mskp := { k_n : nat; k_c : list R; k_vb : list vbound; k_A : mat; k_cb : list cbound; k_F : mat; k_g : list R; k_cones : list cone }.
(** :334-335; the last write to a variable wins *)
Definition fix_vars (n : nat) (k : list Z) (y : list R) (vb : list vbound) : res (list vbound) :=
  if forallb (fun x => (0 <=? x)%Z && (x <? Z.of_nat (length vb))%Z) k
  then Ok (fold_left (fun vb p => firstn (Z.to_nat (fst p)) vb ++ Fixed (snd p) :: skipn (S (Z.to_nat (fst p))) vb) (combine k y) vb) else Err IndexError.
Definition msk_build (chol : mat -> res mat) (a : l1_args) : res (nat * mskp) :=
  do n <- infer_n a;
  let G := def_G a n in let c := def_c a n in let d := ad a in
  if Nat.eqb d 0 then Err ZeroDivisionError else
  let m := (nr G / d)%nat in                                                       (* :188 *)
  do Lt0 <- match aQ a with Some Q => do _ <- assert_ (is_none (aL a)); do l <- chol Q; Ok (Some l) | None => Ok None end;   (* :193-212 *)
  let Lt := match aL a with Some L => Some (transpose L) | None => Lt0 end in      (* :213-215 *)
  let lt := match Lt with Some L => nr L | None => 0%nat end in
  let ash := match aA a with Some A => nr A | None => 0%nat end in                 (* :217-219 *)
  do _ <- check_shapes a n d m G c;                                                (* :229-241 *)
  do _ <- assert_ (sq_shape (aQ a) n);
  do _ <- assert_ (match Lt with Some L => Nat.eqb (nc L) n | None => true end);   (* :244-245 *)
  let extra := if Nat.eqb lt 0 then 0%nat else 1%nat in
  let N := (n + m + extra)%nat in
  let A := match aA a with Some A => if Nat.eqb ash 0 then zeros 0 n else A | None => zeros 0 n end in
  let b := match ab a with Some b => map (fun i => at_ b i 0%nat) (seq 0 ash) | None => [] end in
  do A1 <- hstack2 A (zeros (nr A) (m + extra));                                   (* :256, :263, :267 *)
  do A2 <- (if Nat.eqb d 1 then do g0 <- hstack3 (neg G) (neg (ident 1 m)) (zeros (nr G) extra); do g1 <- hstack3 G (neg (ident 1 m)) (zeros (nr G) extra); vstack2 g0 g1
            else Ok (zeros 0 N));                                                  (* :249-263 *)
  do A3 <- vstack2 A1 A2;
  do Fg <- (if Nat.eqb d 1 then Ok (zeros 0 N) else do f0 <- hstack2 G (zeros (nr G) (m + extra)); do f1 <- hstack3 (zeros m n) (ident 1 m) (zeros m extra); vstack2 f0 f1);   (* :281-295 *)
  do Fl <- match Lt with
           | Some L => if Nat.eqb lt 0 then Ok (zeros 0 N)
                       else do l0 <- hstack2 L (zeros (nr L) (m + extra)); do l1 <- hstack2 (zeros 1 (n + m)) (ident 1 1); vstack3 l0 l1 (zeros 1 N)
           | None => Ok (zeros 0 N) end;
  do F <- vstack2 Fg Fl;
  do vb <- match ak a, ay a with                                                   (* :313-317, :333-335 *)
           | Some k, Some y => fix_vars n k y (repeat Free n ++ repeat (Low 0) (m + extra))
           | _, _ => Ok (repeat Free n ++ repeat (Low 0) (m + extra)) end;
  let fr := nr F in
  Ok (n, {| k_n := N; k_c := c ++ repeat 1 m ++ repeat 1 extra;                    (* :273-277 *)
            k_vb := vb; k_A := A3; k_cb := map CFix b ++ repeat (CUp 0) (nr A2);   (* :326-330 *)
            k_F := F; k_g := if Nat.eqb lt 0 then repeat 0 fr else repeat 0 (fr - 1) ++ [1];   (* :344 *)
            k_cones := (if Nat.eqb lt 0 then [] else [RQuad ((fr - 1)%nat :: (fr - 2)%nat :: seq (fr - lt - 2) lt)])   (* :347-350 *)
                    ++ (if Nat.eqb d 1 then [] else map (fun i => Quad ((d * m + i)%nat :: map (fun j => (d * i + j)%nat) (seq 0 d))) (seq 0 m)) |}).   (* :353-358 *)
Definition min_l1_mosek (chol : mat -> res mat) (msk : mskp -> list R * bool) (a : l1_args) : res (list R) :=
  do (n, p) <- msk_build chol a;
  let '(x, ok) := msk p in if ok then Ok (firstn n x) else Err ValueError.         (* :377-385 *)
