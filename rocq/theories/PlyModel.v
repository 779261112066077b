(** The PLY reader and writer of read_mesh / write_mesh: src/cpp/tinyply/tinyply_wrappers.cpp:71-350 over src/cpp/tinyply/tinyply.h, src/cpp/binding_read_ply.cpp,
    src/cpp/binding_write_ply.cpp, src/gpytoolbox/read_mesh.py:250-258, src/gpytoolbox/write_mesh.py:185-205.
    A file is a string of bytes; opening it is not modelled, the machine is little endian.  Numbers are bit patterns, 0 <= z < 256^(bytes of the type); [to64] is the conversion
    from single to double precision.  [geta t] is operator>> for a number of type t (the bit pattern and what is left, [None] when failbit is set), [showa t] operator<<.
    Memory that is not initialised holds the byte [junk].  The hash of an element-property name (tinyply.h:242-249) is replaced by the name, the concatenation of the two names.
    Signs and overflow in the header's element counts are not modelled. Matrices have 3 (C: 4) columns. *)
From Coq Require Import String Ascii List ZArith Bool.
From Verif Require Import TextModel.
From Verif Require CppObjModel StlModel.
Import ListNotations.
Open Scope string_scope.

(** a value, an exception that leaves the function, undefined behaviour or abort *)
Inductive outcome (A : Type) := Ret (a : A) | Throw | Crash.
Arguments Ret {A} a. Arguments Throw {A}. Arguments Crash {A}.
Definition obind {A B} (x : outcome A) (f : A -> outcome B) : outcome B := match x with Ret a => f a | Throw => Throw | Crash => Crash end.

(** ** types and names *)
(** tinyply.h:61-73 *)
Inductive ptype := INVALID | INT8 | UINT8 | INT16 | UINT16 | INT32 | UINT32 | FLOAT32 | FLOAT64.
Scheme Equality for ptype.
(** :83-94 *)
Definition stride (t : ptype) : nat := match t with INVALID => 0 | INT8 | UINT8 => 1 | INT16 | UINT16 => 2 | INT32 | UINT32 | FLOAT32 => 4 | FLOAT64 => 8 end.
Definition type_name (t : ptype) : string :=
  match t with INVALID => "INVALID" | INT8 => "char" | UINT8 => "uchar" | INT16 => "short" | UINT16 => "ushort" | INT32 => "int" | UINT32 => "uint" | FLOAT32 => "float" | FLOAT64 => "double" end.
(** :251-262 *)
Definition type_of (s : string) : ptype :=
  if String.eqb s "int8" || String.eqb s "char" then INT8 else if String.eqb s "uint8" || String.eqb s "uchar" then UINT8
  else if String.eqb s "int16" || String.eqb s "short" then INT16 else if String.eqb s "uint16" || String.eqb s "ushort" then UINT16
  else if String.eqb s "int32" || String.eqb s "int" then INT32 else if String.eqb s "uint32" || String.eqb s "uint" then UINT32
  else if String.eqb s "float32" || String.eqb s "float" then FLOAT32 else if String.eqb s "float64" || String.eqb s "double" then FLOAT64 else INVALID.
(** :122-146; listCount is part of the first pass below *)
Record prop := { pname : string; pty : ptype; plist : option ptype }.
Record element := { ename : string; esize : nat; eprops : list prop }.
Inductive format := Text | Little | Big.
(** :264-312: what the lookup table is indexed by *)
Definition key (e : element) (p : prop) : string := ename e ++ pname p.

(** ** bytes *)
Notation byte := StlModel.byte.
Notation value := StlModel.value.
Notation drop := StlModel.drop.
Notation rep := StlModel.rep.
Fixpoint take (n : nat) (s : string) : string := match n, s with S k, String a r => String a (take k r) | _, _ => EmptyString end.
Fixpoint backwards (s : string) : string := match s with EmptyString => EmptyString | String a r => backwards r ++ String a EmptyString end.
(** n bytes, the least significant first *)
Fixpoint le (n : nat) (z : Z) : string := match n with O => EmptyString | S k => String (byte (z mod 256)) (le k (z / 256)) end.
Fixpoint num (n : nat) (s : string) : Z := match n, s with S k, String a r => (value a + 256 * num k r)%Z | _, _ => 0%Z end.
(** :222-240, :353-361: every n bytes reversed *)
Fixpoint swap_chunks (count n : nat) (s : string) : string := match count with O => s | S k => backwards (take n s) ++ swap_chunks k n (drop n s) end.

(** ** the header *)
(** std::getline *)
Fixpoint getline (s : string) : option (string * string) :=
  match s with EmptyString => None | String a r => if Ascii.eqb a NL then Some (EmptyString, r) else match getline r with Some (l, t) => Some (String a l, t) | None => Some (String a EmptyString, EmptyString) end end.
(** operator>> on strings *)
Fixpoint take_word (s : string) : string * string :=
  match s with EmptyString => (EmptyString, EmptyString) | String a r => if CppObjModel.is_space a then (EmptyString, s) else let '(w, t) := take_word r in (String a w, t) end.
Definition token (s : string) : string * string := take_word (CppObjModel.skip_space s).
(** tinyply.h:341-344, :449-452 *)
Definition read_element (s : string) : element :=
  let '(n, r) := token s in {| ename := n; esize := Z.to_nat (CppObjModel.digits 0 (CppObjModel.skip_space r)); eprops := [] |}.
(** :326-339 *)
Definition read_property (s : string) : prop :=
  let '(t, r) := token s in
  if String.eqb t "list" then let '(ct, r1) := token r in let '(pt, r2) := token r1 in {| pname := fst (token r2); pty := type_of pt; plist := Some (type_of ct) |}
  else {| pname := fst (token r); pty := type_of t; plist := None |}.
(** :454-458 *)
Definition add_property (p : prop) (es : list element) : outcome (list element) :=
  match es with [] => Throw | e :: r => Ret ({| ename := ename e; esize := esize e; eprops := (eprops e ++ [p])%list |} :: r) end.
(** :441-447 *)
Definition read_format (s : string) (f : format) : format :=
  let w := fst (token s) in
  if String.eqb w "binary_little_endian" then match f with Text => Little | _ => f end else if String.eqb w "binary_big_endian" then Big else f.
(** :416-434; the elements in reverse order.  Comments, obj_info and unexpected fields have no effect on what is read.  The stream fails when the header does not end. *)
Fixpoint header_lines (fuel : nat) (s : string) (f : format) (es : list element) : outcome (format * list element * option string) :=
  match fuel with
  | O => Ret (f, es, None)
  | S k =>
    match getline s with
    | None => Ret (f, es, None)
    | Some (line, r) =>
      let '(t, a) := token line in
      if String.eqb t "format" then header_lines k r (read_format a f) es
      else if String.eqb t "element" then header_lines k r f (read_element a :: es)
      else if String.eqb t "property" then obind (add_property (read_property a) es) (fun es' => header_lines k r f es')
      else if String.eqb t "end_header" then Ret (f, es, Some r)
      else header_lines k r f es
    end
  end.
Definition parse_header (s : string) : outcome (format * list element * option string) :=
  obind (header_lines (S (String.length s)) s Text []) (fun x => let '(f, es, st) := x in Ret (f, rev es, st)).

(** ** requests *)
(** the groups of tinyply_wrappers.cpp:123-155 *)
Inductive tag := Pos | Nrm | VRed | VR | FRed | FR | Fi | Fx.
Scheme Equality for tag.
(** tinyply.h:115-121, :272-277, :687-693; [gok]: no exception was thrown after the keys had been entered *)
Record group := { gtag : tag; gkeys : list string; gty : ptype; glist : bool; gcount : nat; ghint : nat; gok : bool }.
(** :363-373 *)
Fixpoint find_element (k : string) (es : list element) : option element := match es with [] => None | e :: r => if String.eqb (ename e) k then Some e else find_element k r end.
Fixpoint find_property (k : string) (ps : list prop) : option prop := match ps with [] => None | p :: r => if String.eqb (pname p) k then Some p else find_property k r end.
Fixpoint find_all (ks : list string) (ps : list prop) : option (list prop) :=
  match ks with [] => Some [] | k :: r => match find_property k ps, find_all r ps with Some p, Some l => Some (p :: l) | _, _ => None end end.
(** :733-745 *)
Fixpoint same_types (ps : list prop) : bool := match ps with p :: ((q :: _) as r) => ptype_beq (pty p) (pty q) && same_types r | _ => true end.
Definition last_prop (ps : list prop) : prop := last ps {| pname := ""; pty := INVALID; plist := None |}.
(** :663-751 *)
Definition request (es : list element) (t : tag) (e : string) (ks : list string) (hint : nat) : list group :=
  match find_element e es with
  | None => []
  | Some el =>
    match find_all ks (eprops el) with
    | None => []
    | Some ps => [{| gtag := t; gkeys := map (fun k => ename el ++ k) ks; gty := pty (last_prop ps);
                     glist := match plist (last_prop ps) with Some _ => true | None => false end; gcount := esize el; ghint := hint; gok := same_types ps |}]
    end
  end.
Definition group_of (t : tag) (gs : list group) : option group := find (fun g => tag_beq (gtag g) t) gs.
(** the request returned *)
Definition defined (t : tag) (gs : list group) : bool := match group_of t gs with Some g => gok g | None => false end.
(** tinyply_wrappers.cpp:123-155 *)
Definition requests (es : list element) : list group :=
  let vs := (request es Pos "vertex" ["x"; "y"; "z"] 0 ++ request es Nrm "vertex" ["nx"; "ny"; "nz"] 0 ++
             request es VRed "vertex" ["red"; "green"; "blue"; "alpha"] 0 ++ request es VR "vertex" ["r"; "g"; "b"; "a"] 0)%list in
  let fs := if defined VRed vs || defined VR vs then [] else (request es FRed "face" ["red"; "green"; "blue"; "alpha"] 0 ++ request es FR "face" ["r"; "g"; "b"; "a"] 0)%list in
  (vs ++ fs ++ request es Fi "face" ["vertex_indices"] 3 ++ request es Fx "face" ["vertex_index"] 3)%list.
(** tinyply.h:389 *)
Definition owner (gs : list group) (k : string) : option group := find (fun g => existsb (String.eqb k) (gkeys g)) gs.

(** ** the data *)
(** the stream ([None]: failbit), the four bytes of listSize, dummyCount, what was written to the buffers, the sums and list counts of the first pass *)
Record state := { strm : option string; lsz : string; dc : nat; bufs : tag -> string; tot : tag -> nat; lcount : nat -> nat -> Z }.
Definition upd {A} (f : tag -> A) (t : tag) (x : A) : tag -> A := fun u => if tag_beq u t then x else f u.
Definition upd2 (f : nat -> nat -> Z) (i j : nat) (x : Z) : nat -> nat -> Z := fun a b => if Nat.eqb a i && Nat.eqb b j then x else f a b.
Definition initial (st : option string) : state :=
  {| strm := st; lsz := rep 4 "000"%char; dc := 0; bufs := fun _ => ""; tot := fun _ => 0; lcount := fun _ _ => 0%Z |}.
(** istream::read *)
Definition rd (n : nat) (st : option string) : string * option string :=
  match st with None => ("", None) | Some s => if Nat.ltb (String.length s) n then (s, None) else (take n s, Some (drop n s)) end.
Definition ints (t : ptype) : bool := match t with INT16 | UINT16 | INT32 | UINT32 => true | _ => false end.
Definition big (f : format) : bool := match f with Big => true | _ => false end.

Section Reader.
Variable geta : ptype -> string -> option (Z * string).
Variable junk : ascii.
(** :460-470, :855-861: n bytes into the buffer of group t *)
Definition get_bytes (f : format) (cap : tag -> nat) (t : tag) (n : nat) (s : state) : outcome state :=
  if Nat.ltb (cap t) (String.length (bufs s t) + n) then Throw else
  let '(got, st) := rd n (strm s) in
  Ret {| strm := st; lsz := lsz s; dc := dc s; bufs := upd (bufs s) t (bufs s t ++ got ++ rep (n - String.length got) junk); tot := tot s; lcount := lcount s |}.
(** :833-853; a size of 8 bytes overwrites the stack *)
Definition get_list_size (f : format) (lt : ptype) (s : state) : outcome state :=
  let k := stride lt in
  if Nat.ltb 4 k then Crash else
  let '(got, st) := rd k (strm s) in
  let l := got ++ drop (String.length got) (lsz s) in
  let l := if big f && ints lt then backwards (take k l) ++ drop k l else l in
  Ret {| strm := st; lsz := l; dc := dc s; bufs := bufs s; tot := tot s; lcount := lcount s |}.
Definition list_size (s : state) : nat := Z.to_nat (num 4 (lsz s)).
(** :472-493 for a number: its bytes and the stream; a number that is not there is read as 0, after a failure nothing is read *)
Definition get_number (t : ptype) (st : option string) : string * option string :=
  match st with
  | None => (rep (stride t) junk, None)
  | Some s => match geta t s with Some (z, r) => (le (stride t) z, Some r) | None => (rep (stride t) "000"%char, None) end
  end.
Definition get_text (cap : tag -> nat) (t : tag) (ty : ptype) (s : state) : outcome state :=
  if Nat.ltb (cap t) (String.length (bufs s t) + stride ty) then Throw else
  match ty with INVALID => Throw | _ =>
    let '(b, st) := get_number ty (strm s) in
    Ret {| strm := st; lsz := lsz s; dc := dc s; bufs := upd (bufs s) t (bufs s t ++ b); tot := tot s; lcount := lcount s |}
  end.
(** the size of a list in a text file; [d]: dummyCount before it *)
Definition get_text_size (lt : ptype) (d : nat) (s : state) : outcome state :=
  let k := stride lt in
  if Nat.ltb 4 k then Crash else
  let '(b, st) := get_number lt (strm s) in
  Ret {| strm := st; lsz := b ++ drop k (lsz s); dc := d + k; bufs := bufs s; tot := tot s; lcount := lcount s |}.
Fixpoint times {A} (n : nat) (f : A -> outcome A) (s : A) : outcome A := match n with O => Ret s | S k => obind (f s) (times k f) end.
(** :855-868, :882-897 *)
Definition read_cell (f : format) (cap : tag -> nat) (t : tag) (p : prop) (s : state) : outcome state :=
  match f with
  | Text =>
    match plist p with
    | None => get_text cap t (pty p) s
    | Some lt =>
      if Nat.ltb (cap t) (dc s + stride lt) then Throw else match lt with INVALID => Throw | _ => obind (get_text_size lt (dc s) s) (fun s' => times (list_size s') (get_text cap t (pty p)) s') end
    end
  | _ =>
    match plist p with
    | None => get_bytes f cap t (stride (pty p)) s
    | Some lt => obind (get_list_size f lt s) (fun s' => get_bytes f cap t (stride (pty p) * list_size s') s')
    end
  end.
(** operator>> into a string that is thrown away *)
Definition skip_word (s : state) : outcome state :=
  let st := match strm s with None => None | Some r => match token r with (EmptyString, _) => None | (_, r') => Some r' end end in
  Ret {| strm := st; lsz := lsz s; dc := dc s; bufs := bufs s; tot := tot s; lcount := lcount s |}.
(** :869-880, :898-911; the bytes that the property would need.  Exceptions abort here (noexcept). *)
Definition skip_cell (f : format) (p : prop) (s : state) : outcome (state * nat) :=
  match f with
  | Text =>
    match plist p with
    | None => obind (skip_word s) (fun s' => Ret (s', stride (pty p)))
    | Some INVALID => Crash
    | Some lt => obind (get_text_size lt 0 s) (fun s' => obind (times (list_size s') skip_word s') (fun s'' => Ret (s'', (list_size s' * stride (pty p))%nat)))
    end
  | _ =>
    match plist p with
    | None => Ret ({| strm := snd (rd (stride (pty p)) (strm s)); lsz := lsz s; dc := dc s; bufs := bufs s; tot := tot s; lcount := lcount s |}, stride (pty p))
    | Some lt => obind (get_list_size f lt s) (fun s' =>
        let n := (stride (pty p) * list_size s')%nat in
        Ret ({| strm := option_map (drop n) (strm s'); lsz := lsz s'; dc := dc s'; bufs := bufs s'; tot := tot s'; lcount := lcount s' |}, n))
    end
  end.
(** :925-963, reading: element i, property j *)
Definition visit (f : format) (gs : list group) (cap : tag -> nat) (i j : nat) (e : element) (p : prop) (s : state) : outcome state :=
  match owner gs (key e p) with
  | Some g => read_cell f cap (gtag g) p s
  | None => obind (skip_cell f p s) (fun x => Ret (fst x))
  end.
(** :938-947, the first pass *)
Definition measure (f : format) (gs : list group) (i j : nat) (e : element) (p : prop) (s : state) : outcome state :=
  obind (skip_cell f p s) (fun x =>
    let '(s1, n) := x in
    match owner gs (key e p) with
    | None => Ret s1
    | Some g =>
      let l := num 4 (lsz s1) in
      let c := if (lcount s1 i j =? 0)%Z then l else lcount s1 i j in
      if (c =? l)%Z then Ret {| strm := strm s1; lsz := lsz s1; dc := dc s1; bufs := bufs s1; tot := upd (tot s1) (gtag g) (tot s1 (gtag g) + n); lcount := upd2 (lcount s1) i j c |} else Throw
    end).
Section Loop.
Variable cell : nat -> nat -> element -> prop -> state -> outcome state.
Fixpoint over_props (i j : nat) (e : element) (ps : list prop) (s : state) : outcome state :=
  match ps with [] => Ret s | p :: r => obind (cell i j e p s) (over_props i (S j) e r) end.
Fixpoint over_elements (i : nat) (es : list element) (s : state) : outcome state :=
  match es with [] => Ret s | e :: r => obind (times (esize e) (over_props i 0 e (eprops e)) s) (over_elements (S i) r) end.
End Loop.

(** :504-570: the sizes of the buffers *)
Definition sizes (gs : list group) (t : tag) : nat :=
  match group_of t gs with None => 0 | Some g => gcount g * stride (gty g) * (if glist g then ghint g else 1) * List.length (gkeys g) end.
Definition hints (gs : list group) : nat := fold_right (fun g a => ghint g + a) 0 gs.
Definition allocate (f : format) (es : list element) (gs : list group) (st : option string) : outcome ((tag -> nat) * option string) :=
  if Nat.eqb (hints gs) 0 then
    obind (over_elements (measure f gs) 0 es (initial st)) (fun s => Ret (tot s, match strm s with None => None | Some _ => st end))
  else Ret (sizes gs, st).
(** :572-600 and the memory behind the buffers: cap bytes *)
Definition contents (f : format) (gs : list group) (cap : tag -> nat) (s : state) (t : tag) : string :=
  let b := bufs s t ++ rep (cap t - String.length (bufs s t)) junk in
  match group_of t gs with
  | None => b
  | Some g => if big f && Nat.ltb 1 (stride (gty g)) then swap_chunks (cap t / stride (gty g)) (stride (gty g)) b else b
  end.
(** :495-600 *)
Definition read_data (f : format) (es : list element) (st : option string) : outcome ((tag -> nat) * (tag -> string)) :=
  let gs := requests es in
  obind (allocate f es gs st) (fun a => obind (over_elements (visit f gs (fst a)) 0 es (initial (snd a))) (fun s => Ret (fst a, contents f gs (fst a) s))).

(** ** the wrapper *)
Variable to64 : Z -> Z.
(** memcpy of n bytes into a vector of count times k zero bytes *)
Definition copy (n k count : nat) (s : string) : outcome string := if Nat.ltb (count * k) n then Crash else Ret (s ++ rep (count * k - n) "000"%char).
(** rows of w numbers of b bytes *)
Fixpoint row (b w : nat) (s : string) : list Z := match w with O => [] | S k => num b s :: row b k (drop b s) end.
Fixpoint rows (count b w : nat) (s : string) : list (list Z) := match count with O => [] | S k => row b w s :: rows k b w (drop (b * w) s) end.
Definition signed (z : Z) : Z := if (z <? 2147483648)%Z then z else (z - 4294967296)%Z.
Definition mesh := (list (list Z) * list (list Z) * list (list Z) * list (list Z))%type.
(** tinyply_wrappers.cpp:160-232, V F N C.  [gty]: see line 200, the type that is tested for double normals is the vertices' *)
Definition unpack (gs : list group) (cap : tag -> nat) (mem : tag -> string) : outcome mesh :=
  match group_of Pos gs with
  | Some vg => if negb (gok vg) then Crash else
    obind (match gty vg with
           | FLOAT32 => obind (copy (cap Pos) 12 (gcount vg) (mem Pos)) (fun m => Ret (map (map to64) (rows (gcount vg) 4 3 m)))
           | FLOAT64 => obind (copy (cap Pos) 24 (gcount vg) (mem Pos)) (fun m => Ret (rows (gcount vg) 8 3 m))
           | _ => Ret [] end) (fun V =>
    obind (match (if defined Fx gs then group_of Fx gs else if defined Fi gs then group_of Fi gs else None) with
           | None => Ret []
           | Some g => obind (copy (cap (gtag g)) 12 (gcount g) (mem (gtag g))) (fun m => Ret (map (map signed) (rows (gcount g) 4 3 m))) end) (fun F =>
    obind (match (if defined Nrm gs then group_of Nrm gs else None) with
           | None => Ret []
           | Some g => match gty g with
                       | FLOAT32 => obind (copy (cap Nrm) 12 (gcount g) (mem Nrm)) (fun m => Ret (map (map to64) (rows (gcount g) 4 3 m)))
                       | _ => match gty vg with FLOAT64 => obind (copy (cap Nrm) 24 (gcount g) (mem Nrm)) (fun m => Ret (rows (gcount g) 8 3 m)) | _ => Ret [] end
                       end end) (fun N =>
    obind (match (if defined VR gs then group_of VR gs else if defined VRed gs then group_of VRed gs
                  else if defined FR gs then group_of FR gs else if defined FRed gs then group_of FRed gs else None) with
           | None => Ret []
           | Some g => obind (copy (cap (gtag g)) 4 (gcount g) (mem (gtag g))) (fun m => Ret (rows (gcount g) 1 4 m)) end) (fun C =>
    Ret (V, F, N, C)))))
  | _ => Crash
  end.
(** :71-235 *)
Definition read_ply (s : string) : outcome mesh :=
  obind (parse_header s) (fun h => let '(f, es, st) := h in
  obind (read_data f es st) (fun x => unpack (requests es) (fst x) (snd x))).
End Reader.

(** ** the writer *)
Section Writer.
Variable showa : ptype -> Z -> string.
(** the rows as they lie in memory: doubles, four-byte integers (colours too: uint4, :66) *)
Definition pack (b : nat) (M : list (list Z)) : string := cat (map (fun r => cat (map (fun z => le b (z mod 256 ^ Z.of_nat b)) r)) M).
(** a property, the data it is taken from, the length of its lists *)
Record wprop := { wp : prop; wtag : tag; wlist : nat }.
Record welem := { wname : string; wsize : nat; wprops : list wprop }.
Definition scalars (t : tag) (ty : ptype) (ks : list string) : list wprop := map (fun k => {| wp := {| pname := k; pty := ty; plist := None |}; wtag := t; wlist := 0 |}) ks.
Definition nonempty {A} (l : list A) : bool := match l with [] => false | _ => true end.
(** tinyply_wrappers.cpp:272-286, :312-335 and tinyply.h:753-792 *)
Definition layout (V F N C : list (list Z)) : list welem :=
  let vcol := nonempty C && Nat.eqb (List.length C) (List.length V) in
  let fcol := nonempty C && Nat.eqb (List.length C) (List.length F) in
  let vs := (scalars Pos FLOAT64 ["x"; "y"; "z"] ++ (if nonempty N then scalars Nrm FLOAT64 ["nx"; "ny"; "nz"] else []) ++
             (if vcol then scalars VRed UINT8 ["red"; "green"; "blue"; "alpha"] else []))%list in
  let fs := ((if fcol then scalars FRed UINT8 ["red"; "green"; "blue"; "alpha"] else []) ++
             (if nonempty F then [{| wp := {| pname := "vertex_indices"; pty := UINT32; plist := Some UINT8 |}; wtag := Fi; wlist := 3 |}] else []))%list in
  ({| wname := "vertex"; wsize := List.length V; wprops := vs |} ::
   (if fcol || nonempty F then [{| wname := "face"; wsize := List.length F; wprops := fs |}] else []))%list.
(** :244-286 *)
Definition data (V F N C : list (list Z)) (t : tag) : string :=
  match t with Pos => pack 8 V | Nrm => pack 8 N | VRed | FRed => pack 4 C | Fi => pack 4 F | _ => "" end.
Definition NLs : string := String NL "".
(** tinyply.h:628-661 *)
Definition header_property (p : prop) : string :=
  match plist p with Some lt => "property list " ++ type_name lt ++ " " ++ type_name (pty p) ++ " " ++ pname p ++ NLs | None => "property " ++ type_name (pty p) ++ " " ++ pname p ++ NLs end.
Definition header_element (e : welem) : string := "element " ++ wname e ++ " " ++ show_int (Z.of_nat (wsize e)) ++ NLs ++ cat (map (fun p => header_property (wp p)) (wprops e)).
Definition header (binary : bool) (es : list welem) : string :=
  "ply" ++ NLs ++ (if binary then "format binary_little_endian 1.0" else "format ascii 1.0") ++ NLs ++ "comment generated by tinyply 2.3" ++ NLs ++
  cat (map header_element es) ++ "end_header" ++ NLs.
(** the file so far and what is left of the data; reading behind the data is undefined *)
Definition wstate := (string * (tag -> string))%type.
Definition write_bytes (t : tag) (n : nat) (s : wstate) : outcome wstate :=
  let '(o, c) := s in if Nat.ltb (String.length (c t)) n then Crash else Ret (o ++ take n (c t), upd c t (drop n (c t))).
Definition write_text (t : tag) (ty : ptype) (s : wstate) : outcome wstate :=
  let '(o, c) := s in if Nat.ltb (String.length (c t)) (stride ty) then Crash else Ret (o ++ showa ty (num (stride ty) (c t)) ++ " ", upd c t (drop (stride ty) (c t))).
(** :602-661, one property of one row; listCount is 3 or 0 *)
Definition write_cell (binary : bool) (p : wprop) (s : wstate) : outcome wstate :=
  let ty := pty (wp p) in
  if binary then
    match plist (wp p) with
    | None => write_bytes (wtag p) (stride ty) s
    | Some lt => write_bytes (wtag p) (stride ty * wlist p) (fst s ++ take (stride lt) (le 4 (Z.of_nat (wlist p))), snd s)
    end
  else
    match plist (wp p) with
    | None => write_text (wtag p) ty s
    | Some lt => times (wlist p) (write_text (wtag p) ty) (fst s ++ show_int (Z.of_nat (wlist p)) ++ " ", snd s)
    end.
Fixpoint write_row (binary : bool) (ps : list wprop) (s : wstate) : outcome wstate :=
  match ps with [] => Ret (fst s ++ (if binary then "" else NLs), snd s) | p :: r => obind (write_cell binary p s) (write_row binary r) end.
Fixpoint write_elements (binary : bool) (es : list welem) (s : wstate) : outcome wstate :=
  match es with [] => Ret s | e :: r => obind (times (wsize e) (write_row binary (wprops e)) s) (write_elements binary r) end.
(** tinyply_wrappers.cpp:237-350; doubles and C as bit patterns, F as ints *)
Definition write_ply (V F N C : list (list Z)) (binary : bool) : outcome string :=
  let es := layout V F N C in
  obind (write_elements binary es (header binary es, data V F N C)) (fun s => Ret (fst s)).
End Writer.
