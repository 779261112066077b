(** The search for the time at which a moving shape is closest to a point: src/cpp/swept_volume/gradient_descent_test.cpp:5-99, called by swept_volume.cpp:277 with the distance f and
    its derivative gf.  Numbers are rationals (no rounding).  [moved x p] is the test abs(x - prev_x) > tol of line 29, whatever overload of abs is chosen.  The vectors intervals,
    values, minima are one list: entry m is intervals[2m], intervals[2m+1], values[m], minima[m].  The assertions (lines 28, 60) are compiled out, as in a release build.
    [junk]: the caller's uninitialised fx. *)
From Coq Require Import QArith List Bool.
Import ListNotations.
Open Scope Q_scope.

(** :34, 61, 64: the comparisons *)
Definition lt (a b : Q) : bool := negb (Qle_bool b a).
(** :30-31, 62, 87-88: std::min, std::max *)
Definition smin (a b : Q) : Q := if lt b a then b else a.
Definition smax (a b : Q) : Q := if lt a b then b else a.
(** :5, 81-84: one discovered interval *)
Record entry := { lo : Q; hi : Q; val : Q; mn : Q }.
Section Descent.
Variables f gf : Q -> Q.
Variable moved : Q -> Q -> bool.
Variable junk : Q.
(** :34 *)
Definition inside (x : Q) (e : entry) : bool := Qle_bool (lo e - (1 # 1000000)) x && Qle_bool x (hi e + (1 # 1000000)).
(** :33-41 *)
Fixpoint find_interval (x : Q) (s : list entry) : option nat :=
  match s with [] => None | e :: r => if inside x e then Some O else option_map S (find_interval x r) end.
(** :61 *)
Definition step (x tau g : Q) : Q := x - tau * ((if lt 0 g then 1 else 0) - (if lt g 0 then 1 else 0)).
(** :62 *)
Definition clamp (x : Q) : Q := smax (smin x 1) 0.
(** :58-75, k tries left; the last result: stop *)
Fixpoint line_search (k : nat) (tau x fx g : Q) (iter : nat) : Q * Q * nat * bool :=
  match k with
  | O => (x, fx, iter, true)
  | S k' =>
    let c := clamp (step x tau g) in
    if lt (f c - fx) ((1 # 2) * (c - x) * g) then (c, f c, S iter, false) else line_search k' ((1 # 2) * tau) x fx g (S iter)
  end.
(** :29-76; the result: fx, x, xmin, xmax, in_existing_interval.  Every round adds to iter, 100 rounds are enough *)
Fixpoint rounds (fuel : nat) (s : list entry) (x fx xmin xmax prev : Q) (iter : nat) (stop : bool) : Q * Q * Q * Q * option nat :=
  match fuel with
  | O => (fx, x, xmin, xmax, None)
  | S k =>
    if Nat.ltb iter 100 && negb stop && moved x prev then
      let xmin := smin xmin x in
      let xmax := smax xmax x in
      match find_interval x s with
      | Some m => match nth_error s m with Some e => (val e, mn e, xmin, xmax, Some m) | None => (fx, x, xmin, xmax, None) end
      | None =>
        let fx := if Nat.eqb iter 0 then f x else fx in
        let '(x', fx', iter', stop') := line_search 9 (1 # 50) x fx (gf x) iter in
        rounds k s x' fx' xmin xmax x iter' stop'
      end
    else (fx, x, xmin, xmax, None)
  end.
(** :87-88 *)
Fixpoint grow (m : nat) (a b : Q) (s : list entry) : list entry :=
  match s, m with
  | [], _ => []
  | e :: r, O => {| lo := smin (lo e) a; hi := smax (hi e) b; val := val e; mn := mn e |} :: r
  | e :: r, S k => e :: grow k a b r
  end.
(** :5-99: fx, x, the intervals *)
Definition descend (x0 : Q) (s : list entry) : Q * Q * list entry :=
  let '(fx, x, xmin, xmax, found) := rounds 100 s x0 junk x0 x0 10000000 0 false in
  (fx, x, match found with Some m => grow m xmin xmax s | None => (s ++ [{| lo := xmin; hi := xmax; val := fx; mn := x |}])%list end).
End Descent.
