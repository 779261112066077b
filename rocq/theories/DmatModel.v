(** read_dmat.py:30-63.  The file is a string of bytes; [parse] is float() on a stripped token, [unpack] is struct.unpack('<d').
    np.empty((rows,cols)) is a partial function of the index pair; the two loops assign it entry by entry. *)
From Coq Require Import String Ascii List ZArith Bool.
From Verif Require Import PyExn TextModel.
Import ListNotations.
Open Scope string_scope.

Definition is_blank (a : ascii) : bool := existsb (Ascii.eqb a) [" "; "009"; "010"; "011"; "012"; "013"]%char.
(** bytes.readline: the text up to the newline (dropped here; strip() removes it anyway) and the rest *)
Fixpoint readline (s : string) : string * string :=
  match s with
  | EmptyString => (EmptyString, EmptyString)
  | String a r => if Ascii.eqb a NL then (EmptyString, r) else let (l, rest) := readline r in (String a l, rest)
  end.
(** str.strip() *)
Fixpoint lstrip (s : string) : string := match s with String a r => if is_blank a then lstrip r else s | EmptyString => EmptyString end.
Fixpoint rstrip (s : string) : string :=
  match s with
  | EmptyString => EmptyString
  | String a r => match rstrip r with EmptyString => if is_blank a then EmptyString else String a EmptyString | t => String a t end
  end.
Definition strip (s : string) : string := rstrip (lstrip s).
(** f.read(k): at most k bytes *)
Fixpoint readn (k : nat) (s : string) : string * string :=
  match k, s with
  | O, _ => (EmptyString, s)
  | _, EmptyString => (EmptyString, EmptyString)
  | S k', String a r => let (l, rest) := readn k' r in (String a l, rest)
  end.
Section Dmat.
Context {Val : Type}.
Variable parse : string -> option Val.
Variable unpack : string -> option Val.
(** :33, :38: cols, rows = map(int, header.split()) (blanks other than the space are not separators here) *)
Definition header (line : string) : res (Z * Z) :=
  match fields (strip line) with
  | [c; r] => do c <- lift ValueError (parse_int c); do r <- lift ValueError (parse_int r); Ok (c, r)
  | _ => Err ValueError
  end.
Definition data := nat -> nat -> option Val.
Definition assign (d : data) (i j : nat) (v : Val) : data := fun i' j' => if Nat.eqb i' i && Nat.eqb j' j then Some v else d i' j'.
(** :60 / :45-46 *)
Definition next_ascii (s : string) : res (Val * string) := let (l, r) := readline s in do v <- lift ValueError (parse (strip l)); Ok (v, r).
Definition next_binary (s : string) : res (Val * string) := let (l, r) := readn 8 s in do v <- lift ValueError (unpack l); Ok (v, r).
(** :43-47 / :53-61 *)
Fixpoint row_loop (next : string -> res (Val * string)) (is : list nat) (j : nat) (d : data) (s : string) : res (data * string) :=
  match is with
  | [] => Ok (d, s)
  | i :: is' => do (v, s') <- next s; row_loop next is' j (assign d i j v) s'
  end.
(** :42 / :52 *)
Fixpoint col_loop (next : string -> res (Val * string)) (rows : nat) (js : list nat) (d : data) (s : string) : res (data * string) :=
  match js with
  | [] => Ok (d, s)
  | j :: js' => do (d', s') <- row_loop next (seq 0 rows) j d s; col_loop next rows js' d' s'
  end.
Definition fill (next : string -> res (Val * string)) (rows cols : Z) (s : string) : res (nat * nat * data) :=
  if ((rows <? 0) || (cols <? 0))%Z then Err ValueError                                  (* np.empty *)
  else do (d, _) <- col_loop next (Z.to_nat rows) (seq 0 (Z.to_nat cols)) (fun _ _ => None) s;
  Ok (Z.to_nat rows, Z.to_nat cols, d).
(** :30-63; returns (rows, cols, data) *)
Definition read_dmat (s : string) : res (nat * nat * data) :=
  let (l, rest) := readline s in
  do (cols, rows) <- header l;                                                            (* :32-33 *)
  if ((cols =? 0) && (rows =? 0))%Z then                                                  (* :35 *)
    let (l2, rest2) := readline rest in
    do (cols, rows) <- header l2;                                                         (* :37-38 *)
    fill next_binary rows cols rest2                                                      (* :41-47 *)
  else fill next_ascii rows cols rest.                                                    (* :51-61 *)
End Dmat.
