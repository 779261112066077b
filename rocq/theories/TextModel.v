(** Text files as strings; Python's str.split/str.join on single characters, line iteration, decimal integers. *)
From Coq Require Import String Ascii List ZArith Bool DecimalString.
Import ListNotations.
Open Scope string_scope.

Definition NL : ascii := "010"%char.
Definition SP : ascii := " "%char.
Definition SLASH : ascii := "/"%char.
(** str.split(c): always at least one piece *)
Fixpoint split_on (c : ascii) (s : string) : list string :=
  match s with
  | EmptyString => [EmptyString]
  | String a r => if Ascii.eqb a c then EmptyString :: split_on c r
                  else match split_on c r with p :: ps => String a p :: ps | [] => [String a EmptyString] end
  end.
(** c.join(xs) *)
Fixpoint join (c : ascii) (xs : list string) : string :=
  match xs with
  | [] => EmptyString
  | [x] => x
  | x :: r => x ++ String c (join c r)
  end.
Fixpoint cat (xs : list string) : string := match xs with [] => EmptyString | x :: r => x ++ cat r end.
(** [s for s in row if s] *)
Definition nonempty (s : string) : bool := match s with EmptyString => false | _ => true end.
Definition fields (line : string) : list string := filter nonempty (split_on SP line).
(** f'{z}' and int(s); only the canonical decimal form of the writer (optional minus sign, digits) is parsed, other spellings int() accepts (+, _, blanks) are rejected *)
Definition show_int (z : Z) : string := NilZero.string_of_int (Z.to_int z).
Definition parse_int (s : string) : option Z := option_map Z.of_int (NilZero.int_of_string s).
Fixpoint mem_char (c : ascii) (s : string) : bool :=
  match s with EmptyString => false | String a r => Ascii.eqb a c || mem_char c r end.
