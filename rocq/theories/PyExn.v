(** Python results: a value or a raised exception. *)
(** [NotANumber] is used where the code silently produces NaN entries; [OutOfFuel] where it would loop. *)
Inductive exn := AssertionError | ValueError | IndexError | TypeError | ZeroDivisionError | UnboundLocalError | KeyError | NotANumber | OutOfFuel.
Inductive res (A : Type) := Ok (a : A) | Err (e : exn).
Arguments Ok {A} a.
Arguments Err {A} e.
Definition bind {A B} (x : res A) (f : A -> res B) : res B :=
  match x with Ok a => f a | Err e => Err e end.
Notation "'do' x <- a ; b" := (bind a (fun x => b)) (at level 200, x pattern, a at level 100, b at level 200).
Definition lift {A} (e : exn) (x : option A) : res A := match x with Some a => Ok a | None => Err e end.
