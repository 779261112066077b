(** Exact real 2- and 3-vectors. *)
From Coq Require Export Reals Lra List ZArith.
Open Scope R_scope.

Definition vec2 := (R * R)%type.
Definition vec3 := (R * R * R)%type.
Definition X (v : vec3) : R := fst (fst v).
Definition Y (v : vec3) : R := snd (fst v).
Definition Zc (v : vec3) : R := snd v.
Definition sub3 (a b : vec3) : vec3 := (X a - X b, Y a - Y b, Zc a - Zc b).
Definition add3 (a b : vec3) : vec3 := (X a + X b, Y a + Y b, Zc a + Zc b).
Definition scal3 (s : R) (a : vec3) : vec3 := (s * X a, s * Y a, s * Zc a).
Definition dot3 (a b : vec3) : R := X a * X b + Y a * Y b + Zc a * Zc b.
Definition cross3 (a b : vec3) : vec3 :=
  (Y a * Zc b - Zc a * Y b, Zc a * X b - X a * Zc b, X a * Y b - Y a * X b).
Definition norm3 (a : vec3) : R := sqrt (dot3 a a).
Definition zero3 : vec3 := (0, 0, 0).
Definition sub2 (a b : vec2) : vec2 := (fst a - fst b, snd a - snd b).
Definition add2 (a b : vec2) : vec2 := (fst a + fst b, snd a + snd b).
Definition scal2 (s : R) (a : vec2) : vec2 := (s * fst a, s * snd a).
Definition dot2 (a b : vec2) : R := fst a * fst b + snd a * snd b.
Definition det2 (a b : vec2) : R := fst a * snd b - snd a * fst b.
Definition norm2 (a : vec2) : R := sqrt (dot2 a a).

Lemma vec3_eq (a b : vec3) : X a = X b -> Y a = Y b -> Zc a = Zc b -> a = b.
Proof. destruct a as [[? ?] ?], b as [[? ?] ?]; cbn; congruence. Qed.

(** rows of an array with any number of columns *)
Fixpoint dotl (a b : list R) : R :=
  match a, b with x :: a', y :: b' => x * y + dotl a' b' | _, _ => 0 end.
Fixpoint subl (a b : list R) : list R :=
  match a, b with x :: a', y :: b' => (x - y) :: subl a' b' | _, _ => nil end.
Definition row_of2 (v : vec2) : list R := fst v :: snd v :: nil.
Definition row_of3 (v : vec3) : list R := X v :: Y v :: Zc v :: nil.
