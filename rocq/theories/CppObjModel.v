(** The C++ OBJ reader and writer, the default engine of read_mesh / write_mesh when the bindings are installed: src/cpp/read_obj.cpp:1-337 and src/cpp/write_obj.cpp:10-96.
    A file is a string; opening it (code -5) is not modelled.  std::getline is [split_on NL]: it differs from it only by empty lines, which the reader skips (:174).  Doubles are an abstract type; [stod] stands for std::stod (Invalid / Range: std::invalid_argument / std::out_of_range) and [show] for operator<< with 17 digits.  int counters do not overflow; stream.imbue (:169) is not modelled (stod and getline do not use the stream's locale; a missing en_US.UTF-8 locale throws there). *)
From Coq Require Import String Ascii List ZArith Bool.
From Verif Require Import TextModel.
Import ListNotations.
Open Scope string_scope.

Definition TAB : ascii := "009"%char.
Definition blank (a : ascii) : bool := Ascii.eqb a SP || Ascii.eqb a TAB.
Inductive conv (A : Type) := Val (x : A) | Invalid | Range.
Arguments Val {A} x. Arguments Invalid {A}. Arguments Range {A}.
(** a returned value, an error code, an exception that leaves the function *)
Inductive outcome (A : Type) := Ret (a : A) | Code (z : Z) | Throw.
Arguments Ret {A} a. Arguments Code {A} z. Arguments Throw {A}.
Definition obind {A B} (x : outcome A) (f : A -> outcome B) : outcome B := match x with Ret a => f a | Code z => Code z | Throw => Throw end.

(** * scanning *)
(** read_obj.cpp:10-30, first loop *)
Fixpoint skip_blank (s : string) : string := match s with EmptyString => EmptyString | String a r => if blank a then skip_blank r else s end.
(** :22-28, second loop *)
Fixpoint take_word (s : string) : string * string := match s with EmptyString => (EmptyString, EmptyString) | String a r => if blank a then (EmptyString, s) else let '(w, t) := take_word r in (String a w, t) end.
(** :10-30: the first word and the rest of the line; ("", "") if there is none *)
Definition non_space (s : string) : string * string := take_word (skip_blank s).
(** :33-49; every step consumes a character, so the length of the line is enough fuel *)
Fixpoint count_words (fuel : nat) (s : string) : nat := match fuel with O => O | Datatypes.S k => let '(w, t) := non_space s in match w with EmptyString => O | _ => Datatypes.S (count_words k t) end end.
Definition count_non_spaces (s : string) : nat := count_words (String.length s) s.
(** the next position, e.g. :202-204: after the blank that ends the word; unchanged if the word ends the line *)
Definition next_at (at_ : string) : string := match snd (non_space at_) with EmptyString => at_ | String _ r => r end.
(** std::find(..., '/') : the part before the slash and, if there is one, the part after it *)
Fixpoint cut (s : string) : string * option string := match s with EmptyString => (EmptyString, None) | String a r => if Ascii.eqb a SLASH then (EmptyString, Some r) else let '(x, y) := cut r in (String a x, y) end.

(** * std::stoi in base 10: leading white space, a sign, the longest run of digits; the value must fit into an int *)
Definition is_space (a : ascii) : bool := let n := nat_of_ascii a in Nat.eqb n 32 || (Nat.leb 9 n && Nat.leb n 13).
Fixpoint skip_space (s : string) : string := match s with EmptyString => EmptyString | String a r => if is_space a then skip_space r else s end.
Definition digit (a : ascii) : option Z := let n := nat_of_ascii a in if Nat.leb 48 n && Nat.leb n 57 then Some (Z.of_nat (n - 48)) else None.
Fixpoint digits (acc : Z) (s : string) : Z := match s with EmptyString => acc | String a r => match digit a with Some d => digits (10 * acc + d)%Z r | None => acc end end.
Definition number (s : string) : option Z := match s with EmptyString => None | String a _ => match digit a with Some _ => Some (digits 0 s) | None => None end end.
Definition int32 (z : Z) : bool := ((-2147483648 <=? z) && (z <=? 2147483647))%Z.
Definition stoi (s : string) : conv Z :=
  let s := skip_space s in
  let v := match s with
           | String a r => if Ascii.eqb a "-"%char then option_map Z.opp (number r) else if Ascii.eqb a "+"%char then number r else number s
           | EmptyString => None
           end in
  match v with None => Invalid | Some z => if int32 z then Val z else Range end.
(** :67-79; INT_MIN - 1 is not wrapped *)
Definition it_to_int (s : string) : option Z := match stoi s with Val z => Some (z - 1)%Z | Invalid => Some (-1)%Z | Range => None end.

(** * Eigen matrices *)
Record mat (A : Type) := { rws : list (list A); mcols : nat }.
Arguments Build_mat {A} rws mcols. Arguments rws {A} m. Arguments mcols {A} m.
Definition nrows {A} (M : mat A) : nat := List.length (rws M).
Definition empty {A} : mat A := {| rws := []; mcols := 0 |}.
Definition size0 {A} (M : mat A) : bool := Nat.eqb (nrows M) 0 || Nat.eqb (mcols M) 0.
(** conservativeResize: new entries are [junk] *)
Definition resize {A} (junk : A) (r c : nat) (M : mat A) : mat A :=
  {| rws := app (firstn r (map (fun row => app (firstn c row) (repeat junk (c - List.length row))) (rws M))) (repeat (repeat junk c) (r - nrows M)); mcols := c |}.
(** the assignments of one row *)
Definition put {A} (i : nat) (row : list A) (M : mat A) : mat A := {| rws := app (firstn i (rws M)) (row :: skipn (Datatypes.S i) (rws M)); mcols := mcols M |}.

Section Reader.
Context {Num : Type}.
Variable stod : string -> conv Num.
Variables nan junk : Num.
Variable junkZ : Z.
(** :52-64 *)
Definition tup_it_to_double (w : string) : option Num := match stod w with Val x => Some x | Invalid => Some nan | Range => None end.
(** :199-205: the columns of one row *)
Fixpoint read_row (k : nat) (at_ : string) : option (list Num) :=
  match k with
  | O => Some []
  | Datatypes.S k' => match tup_it_to_double (fst (non_space at_)), read_row k' (next_at at_) with Some x, Some r => Some (x :: r) | _, _ => None end
  end.
(** :93-130 and :192-206 (and the same for UV, N): a matrix and the number of its rows in use; the first row fixes the number of columns, later the capacity doubles *)
Definition num_line (Mn : mat Num * nat) (rest : string) : outcome (mat Num * nat) :=
  let '(M, n) := Mn in
  let '(M, n) := if size0 M then (resize junk 1 (count_non_spaces rest) M, 1%nat)
                 else (if Nat.ltb (nrows M) (Datatypes.S n) then resize junk (2 * nrows M) (mcols M) M else M, Datatypes.S n) in
  match read_row (mcols M) rest with Some row => Ret (put (n - 1) row M, n) | None => Throw end.
(** :286-301: one corner; [t] and [n] are the entries of Ft and Fn before it *)
Definition corner (return_UV return_N : bool) (tok : string) (t n : Z) : option (Z * Z * Z) :=
  let '(a, rest) := cut tok in
  match it_to_int a, match rest with
        | None => Some (t, n)
        | Some r => let '(b, c) := cut r in
                    match (if return_UV && nonempty b then it_to_int b else Some t), (match c with Some c => if return_N && nonempty c then it_to_int c else Some n | None => Some n end) with
                    | Some t, Some n => Some (t, n) | _, _ => None end
        end with
  | Some f, Some (t, n) => Some (f, t, n) | _, _ => None end.
(** :284-305 *)
Fixpoint read_face (u nn : bool) (k : nat) (at_ : string) (ts ns : list Z) : option (list Z * list Z * list Z) :=
  match k with
  | O => Some ([], [], [])
  | Datatypes.S k' => match corner u nn (fst (non_space at_)) (hd (-1)%Z ts) (hd (-1)%Z ns), read_face u nn k' (next_at at_) (tl ts) (tl ns) with
                      | Some (f, t, n), Some (fs, ts', ns') => Some (f :: fs, t :: ts', n :: ns') | _, _ => None end
  end.

Record state := { sV : mat Num * nat; sUV : mat Num * nat; sN : mat Num * nat; sF : mat Z; sFt : mat Z; sFn : mat Z; sm : nat }.
Definition fill (z : Z) (M : mat Z) : mat Z := {| rws := map (map (fun _ => z)) (rws M); mcols := mcols M |}.
(** :135-163 and :272-305; Ft and Fn grow with F, their new rows are -1 *)
Definition face_line (u nn : bool) (st : state) (rest : string) : outcome state :=
  let go F Ft Fn m :=
    match read_face u nn (mcols F) rest (nth (m - 1) (rws Ft) []) (nth (m - 1) (rws Fn) []) with
    | Some (f, t, n) => Ret {| sV := sV st; sUV := sUV st; sN := sN st; sF := put (m - 1) f F; sFt := if u then put (m - 1) t Ft else Ft; sFn := if nn then put (m - 1) n Fn else Fn; sm := m |}
    | None => Throw
    end in
  if size0 (sF st) then
    let k := count_non_spaces rest in
    if negb (Nat.eqb k 3) then Code (-8)
    else go (resize junkZ 1 k (sF st)) (if u then fill (-1) (resize junkZ 1 k (sFt st)) else sFt st) (if nn then fill (-1) (resize junkZ 1 k (sFn st)) else sFn st) 1%nat
  else
    let m := Datatypes.S (sm st) in
    let grow := Nat.ltb (nrows (sF st)) m in
    let r := (2 * nrows (sF st))%nat in
    go (if grow then resize junkZ r (mcols (sF st)) (sF st) else sF st)
       (if grow && u then resize (-1)%Z r (mcols (sFt st)) (sFt st) else sFt st)
       (if grow && nn then resize (-1)%Z r (mcols (sFn st)) (sFn st) else sFn st) m.
(** :173-313 *)
Definition read_line (u nn : bool) (st : state) (line : string) : outcome state :=
  match line with
  | EmptyString => Ret st                                                                        (* :174-176 *)
  | String a r =>
    if Ascii.eqb a "#"%char then Ret st                                                          (* :178-182 *)
    else if Ascii.eqb a "v"%char then
      match r with
      | EmptyString => Code (-7)                                                                 (* :185-187 *)
      | String b r' =>
        if Ascii.eqb b SP then obind (num_line (sV st) r) (fun M => Ret {| sV := M; sUV := sUV st; sN := sN st; sF := sF st; sFt := sFt st; sFn := sFn st; sm := sm st |})           (* :189-208 *)
        else if Ascii.eqb b "t"%char then if u then obind (num_line (sUV st) r') (fun M => Ret {| sV := sV st; sUV := M; sN := sN st; sF := sF st; sFt := sFt st; sFn := sFn st; sm := sm st |}) else Ret st   (* :209-231 *)
        else if Ascii.eqb b "n"%char then if nn then obind (num_line (sN st) r') (fun M => Ret {| sV := sV st; sUV := sUV st; sN := M; sF := sF st; sFt := sFt st; sFn := sFn st; sm := sm st |}) else Ret st  (* :232-255 *)
        else Ret st                                                                              (* :256-260 *)
      end
    else if Ascii.eqb a "f"%char then
      match r with
      | EmptyString => Code (-7)                                                                 (* :265-267 *)
      | String b _ => if negb (Ascii.eqb b SP) then Ret st else face_line u nn st r              (* :268-306 *)
      end
    else Ret st                                                                                  (* :308-312 *)
  end.
Fixpoint read_lines (u nn : bool) (st : state) (ls : list string) : outcome state :=
  match ls with [] => Ret st | l :: r => obind (read_line u nn st l) (fun st => read_lines u nn st r) end.
(** :316-334 *)
Definition shrink {A} (j : A) (n : nat) (M : mat A) : mat A := if Nat.ltb n (nrows M) then resize j n (mcols M) M else M.
Record output := { oV : mat Num; oF : mat Z; oUV : mat Num; oFt : mat Z; oN : mat Num; oFn : mat Z }.
(** :81-337 *)
Definition read_obj (u nn : bool) (text : string) : outcome output :=
  obind (read_lines u nn {| sV := (empty, 0%nat); sUV := (empty, 0%nat); sN := (empty, 0%nat); sF := empty; sFt := empty; sFn := empty; sm := 0%nat |} (split_on NL text))
    (fun st => Ret {| oV := shrink junk (snd (sV st)) (fst (sV st)); oF := shrink junkZ (sm st) (sF st); oUV := shrink junk (snd (sUV st)) (fst (sUV st));
                      oFt := shrink junkZ (sm st) (sFt st); oN := shrink junk (snd (sN st)) (fst (sN st)); oFn := shrink junkZ (sm st) (sFn st) |}).
End Reader.

(** * write_obj.cpp *)
Section Writer.
Context {Num : Type}.
Variable show : Num -> string.
(** :36-43 (and :45-61): one row; a matrix without columns (the code reads entry -1) is not modelled *)
Definition write_row (identifier : string) (x : list string) : string := identifier ++ String SP (join SP x ++ String NL EmptyString).
(** :64-83 *)
Definition element (t n : option Z) (f : Z) : string :=
  show_int (f + 1) ++ (match t, n with None, None => "" | _, _ => String SLASH "" end)
  ++ (match t with Some t => show_int (t + 1) | None => "" end) ++ (match n with Some n => String SLASH (show_int (n + 1)) | None => "" end).
(** entries (i, 0), (i, 1), ... of F, with those of the matrices written next to it *)
Fixpoint elements (f : list Z) (t n : option (list Z)) : list string :=
  match f with [] => [] | a :: f' => element (option_map (hd (-1)%Z) t) (option_map (hd (-1)%Z) n) a :: elements f' (option_map (@tl Z) t) (option_map (@tl Z) n) end.
(** :10-96 *)
Definition write_obj (V : mat Num) (F : mat Z) (UV : mat Num) (Ft : mat Z) (N : mat Num) (Fn : mat Z) : outcome string :=
  let use_default_ft := Nat.eqb (nrows Ft) 0 && Nat.eqb (nrows UV) (nrows V) in
  let use_default_fn := Nat.eqb (nrows Fn) 0 && Nat.eqb (nrows N) (nrows V) in
  let write_t := Nat.ltb 0 (nrows Ft) || use_default_ft in
  let write_n := Nat.ltb 0 (nrows Fn) || use_default_fn in
  if write_t && negb use_default_ft && (negb (Nat.eqb (nrows Ft) (nrows F)) || negb (Nat.eqb (mcols Ft) (mcols F))) then Code (-11) else
  if write_n && negb use_default_fn && (negb (Nat.eqb (nrows Fn) (nrows F)) || negb (Nat.eqb (mcols Fn) (mcols F))) then Code (-12) else
  let sel (w d : bool) (X : mat Z) (i : nat) := if w then Some (nth i (rws (if d then F else X)) []) else None in
  Ret (cat (app (map (fun r => write_row "v" (map show r)) (rws V)) (app (map (fun r => write_row "vt" (map show r)) (rws UV)) (app (map (fun r => write_row "vn" (map show r)) (rws N))
    (map (fun i => write_row "f" (elements (nth i (rws F) []) (sel write_t use_default_ft Ft i) (sel write_n use_default_fn Fn i))) (seq 0 (nrows F))))))).
End Writer.
