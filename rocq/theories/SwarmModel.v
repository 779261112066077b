(** particle_swarm.py (Python path :65-122) and src/cpp/particle_swarm.cpp:7-113, metropolis_hastings.py:52-77.
    Simplifications: exact reals; the random draws are parameters (one pair per particle and iteration, the initial positions and
    velocities as arrays); the objective returns a finite real; the evaluated points are recorded in a trace, latest first. *)
From Coq Require Import Reals Lra ZArith List Bool.
From Verif Require Import NumpyModel PyExn Vec LoopsModel SubdivModel AabbModel.
Import ListNotations.
Open Scope R_scope.

Inductive topology := Full | Ring | OtherTopology.
Record swarm := { sx : list vec; sv : list vec; sbx : list vec; sbf : list R; scx : vec; scf : R; str : list vec }.

Section Swarm.
  Variable cpp : bool.                    (* which implementation *)
  Variable topo : topology.
  Variable fn : vec -> R.
  Variable lb ub : vec.
  Variable momentum phi : R.

  (** particle_swarm.py:80-82: the first particle with the smallest value *)
  Fixpoint first_best (cx : vec) (cf : R) (xs : list vec) : vec * R :=
    match xs with
    | [] => (cx, cf)
    | x :: r => if Rlt_dec (fn x) cf then first_best x (fn x) r else first_best cx cf r
    end.
  (** particle_swarm.py:67-87, particle_swarm.cpp:24-58; without particles current_best_x is never bound *)
  Definition swarm_init (x0 v0 : list vec) : res swarm :=
    match x0 with
    | [] => Err UnboundLocalError
    | x :: r => let b := first_best x (fn x) r in
        Ok {| sx := x0; sv := v0; sbx := x0; sbf := map fn x0; scx := fst b; scf := snd b; str := rev x0 |}
    end.
  (** particle_swarm.py:100-103: argmin over [i-1,i,i+1] (first smallest); particle_swarm.cpp:69-81: i, then prev, then next *)
  Definition ring_index (bf : list R) (n i : nat) : res nat :=
    let p := ((i + n - 1) mod n)%nat in let q := ((i + 1) mod n)%nat in
    do fp <- lift IndexError (nth_error bf p); do fi <- lift IndexError (nth_error bf i); do fq <- lift IndexError (nth_error bf q);
    if cpp then let (k, v) := if Rlt_dec fp fi then (p, fp) else (i, fi) in Ok (if Rlt_dec fq v then q else k)
    else let (k, v) := if Rlt_dec fi fp then (i, fi) else (p, fp) in Ok (if Rlt_dec fq v then q else k).
  (** particle_swarm.py:96-103, particle_swarm.cpp:65-84 *)
  Definition best_neighbor (s : swarm) (i : nat) : res vec :=
    match topo with
    | Full => Ok (scx s)
    | Ring => do k <- ring_index (sbf s) (length (sbx s)) i; lift IndexError (nth_error (sbx s) k)
    | OtherTopology => if cpp then Ok (scx s) else Err UnboundLocalError
    end.
  (** particle_swarm.py:104 *)
  Definition new_velocity (rp rg : R) (v x bx nb : vec) : vec :=
    map2 Rplus (map2 Rplus (map (Rmult momentum) v) (map (Rmult (phi * rp)) (map2 Rminus bx x))) (map (Rmult (phi * rg)) (map2 Rminus nb x)).
  (** particle_swarm.py:106-109 *)
  Definition clamp (x : vec) : vec := map2 Rmin (map2 Rmax x lb) ub.
  (** particle_swarm.py:92-118, particle_swarm.cpp:61-104 *)
  Definition swarm_step (s : swarm) (i : nat) (rp rg : R) : res swarm :=
    do nb <- best_neighbor s i;
    do v <- lift IndexError (nth_error (sv s) i); do x <- lift IndexError (nth_error (sx s) i);
    do bx <- lift IndexError (nth_error (sbx s) i); do bf <- lift IndexError (nth_error (sbf s) i);
    let v' := new_velocity rp rg v x bx nb in
    let x' := clamp (map2 Rplus x v') in
    let f := fn x' in
    let better := if Rlt_dec f bf then true else false in
    let best := if Rlt_dec f bf then (if Rlt_dec f (scf s) then true else false) else false in
    Ok {| sx := set_nth (sx s) i x'; sv := set_nth (sv s) i v';
          sbx := if better then set_nth (sbx s) i x' else sbx s; sbf := if better then set_nth (sbf s) i f else sbf s;
          scx := if best then x' else scx s; scf := if best then f else scf s; str := x' :: str s |}.
  (** particle_swarm.py:91 *)
  Fixpoint sweep (draws : nat -> R * R) (is : list nat) (s : swarm) : res swarm :=
    match is with
    | [] => Ok s
    | i :: r => do s' <- swarm_step s i (fst (draws i)) (snd (draws i)); sweep draws r s'
    end.
  (** particle_swarm.py:90 *)
  Fixpoint iterate (draws : nat -> nat -> R * R) (iters : list nat) (n : nat) (s : swarm) : res swarm :=
    match iters with
    | [] => Ok s
    | k :: r => do s' <- sweep (draws k) (seq 0 n) s; iterate draws r n s'
    end.
  (** the returned pair and the evaluated points *)
  Definition particle_swarm (x0 v0 : list vec) (max_iter : nat) (draws : nat -> nat -> R * R) : res (vec * R * list vec) :=
    do s <- swarm_init x0 v0;
    do s' <- iterate draws (seq 0 max_iter) (length x0) s;
    Ok (scx s', scf s', str s').
End Swarm.

(** metropolis_hastings.py:59-76: the loop; the state is the current sample, its value and the filled rows (latest first).
    The k-th trip uses proposal k and draw k; fuel bounds the number of trips (the code may loop forever). *)
Section MH.
  Variable distr : vec -> R.
  Variable next_sample : nat -> vec -> vec.
  Variable draw : nat -> R.
  Fixpoint mh_loop (fuel k : nat) (missing : nat) (x0 : vec) (f0 : R) (S_ : list vec) (F_ : list R) : res (list vec * list R) :=
    match missing with
    | O => Ok (rev S_, rev F_)
    | S m =>
      match fuel with
      | O => Err OutOfFuel
      | S fuel' =>
        let x1 := next_sample k x0 in                                              (* :61 *)
        let f1 := distr x1 in                                                      (* :64 *)
        if Rlt_dec (draw k) (f1 / f0)                                              (* :67-69 *)
        then mh_loop fuel' (S k) m x1 f1 (x1 :: S_) (f1 :: F_)                     (* :72-76 *)
        else mh_loop fuel' (S k) missing x0 f0 S_ F_
      end
    end.
  (** :52-58; S[0,:] on an empty S raises, F[0] keeps its zero *)
  Definition metropolis_hastings (fuel : nat) (x0 : vec) (num_samples : nat) : res (list vec * list R) :=
    match num_samples with
    | O => Err IndexError
    | S m => mh_loop fuel 0 m x0 (distr x0) [x0] [0]
    end.
End MH.
