(** The STL reader and writer of read_mesh / write_mesh: src/cpp/microstl/microstl_wrappers.cpp:5-79 over src/cpp/microstl/microstl.h, and
    src/gpytoolbox/read_mesh.py:229-247, src/gpytoolbox/write_mesh.py:171-183.
    A file is a string of bytes; opening it (code -4 of the reader, -1 of the writer) is not modelled, the machine is little endian.
    A float is its bit pattern, a number below 2^32; doubles are an abstract type: [to32] and [to64] are the conversions between the two,
    [show] is operator<< on a float with the stream's default precision, [getf] operator>> on a stringstream (the value and what is left,
    [None] when failbit is set).  Normals, names, headers and attributes that were read are dropped by the wrapper and not modelled;
    resize value-initialises the writer's facets, so every normal it writes is zero. *)
From Coq Require Import String Ascii List ZArith Bool.
From Verif Require Import NumpyModel TextModel RelabelModel.
Import ListNotations.
Open Scope string_scope.

Definition point := (Z * Z * Z)%type.              (* three floats *)
Definition facet := (point * point * point)%type.   (* microstl.h:675, v1 v2 v3 *)
(** ** bytes *)
Definition byte (z : Z) : ascii := ascii_of_nat (Z.to_nat z).
Definition value (a : ascii) : Z := Z.of_nat (nat_of_ascii a).
(** four bytes of a little endian number; memcpy, reinterpret_cast *)
Definition le32 (z : Z) : string := String (byte (z mod 256)) (String (byte (z / 256 mod 256)) (String (byte (z / 65536 mod 256)) (String (byte (z / 16777216 mod 256)) EmptyString))).
Definition at_ (s : string) (k : nat) : Z := match String.get k s with Some a => value a | None => 0%Z end.
Definition u32 (s : string) (k : nat) : Z := (at_ s k + 256 * at_ s (k + 1) + 65536 * at_ s (k + 2) + 16777216 * at_ s (k + 3))%Z.
Fixpoint rep (n : nat) (a : ascii) : string := match n with O => EmptyString | S k => String a (rep k a) end.
Fixpoint drop (n : nat) (s : string) : string := match n, s with O, _ => s | S k, String _ r => drop k r | S _, EmptyString => EmptyString end.

(** ** lines *)
(** microstl.h:192-195 *)
Definition TAB : ascii := "009"%char.
Definition CR : ascii := "013"%char.
Definition white (a : ascii) : bool := Ascii.eqb a TAB || Ascii.eqb a SP || Ascii.eqb a CR || Ascii.eqb a NL.
(** :197-226 *)
Fixpoint trim_left (s : string) : string := match s with EmptyString => EmptyString | String a r => if white a then trim_left r else s end.
Fixpoint trim_right (s : string) : string :=
  match s with EmptyString => EmptyString | String a r => match trim_right r with EmptyString => if white a then EmptyString else String a EmptyString | t => String a t end end.
Definition trim (s : string) : string := trim_right (trim_left s).
(** :228-234 *)
Fixpoint starts (p s : string) : bool := match p, s with EmptyString, _ => true | String a p', String b s' => Ascii.eqb a b && starts p' s' | _, _ => false end.
(** :171-190, one line: it ended in a newline or at the end of the file ([None]: the stream is at eof), it is too long, or the stream has no more.
    At the end of the file the byte that could not be read is left uninitialised: [junk]. *)
Inductive lineres := Line (l : string) (rest : option string) | TooLong | Ended.
Fixpoint next_line (junk : ascii) (n : nat) (s : string) : lineres :=
  match s with
  | EmptyString => if Ascii.eqb junk NL then Line EmptyString None else if Nat.ltb 256 n then Ended else Line (String junk EmptyString) None
  | String a r =>
    if Ascii.eqb a NL then Line EmptyString (Some r) else if Nat.ltb 256 n then TooLong else
    match next_line junk (S n) r with Line l st => Line (String a l) st | x => x end
  end.

(** microstl.h:128-169 *)
Definition is_ascii (s : string) : bool :=
  let size := Z.of_nat (String.length s) in
  if negb (starts "solid" s) then false
  else if (84 <=? size)%Z && (size =? 84 + u32 s 80 * 50)%Z then false
  else true.

Inductive outcome (A : Type) := Ret (a : A) | Code (z : Z).
Arguments Ret {A} a. Arguments Code {A} z.
Definition obind {A B} (x : outcome A) (f : A -> outcome B) : outcome B := match x with Ret a => f a | Code z => Code z end.

(** microstl_wrappers.cpp:11-34: the error codes of the results; UnexpectedError and FacetCountError share the last one *)
Definition LineLimitError : Z := -1.
Definition ParserError : Z := -2.
Definition MissingDataError : Z := -3.
Definition OtherError : Z := -5.

Section Stl.
Variable getf : string -> option (Z * string).
Variable show : Z -> string.
Variable junk : ascii.
(** microstl.h:236-252 *)
Definition three_values (s : string) : option point :=
  match getf s with None => None | Some (x, s1) =>
  match getf s1 with None => None | Some (y, s2) =>
  match getf s2 with None => None | Some (z, _) => Some (x, y, z) end end end.

(** ** the ASCII reader, microstl.h:284-413 *)
(** :287-293 and the facets handed to the handler so far *)
Record machine := { solid : bool; inFacet : bool; inLoop : bool; solids : nat; loops : nat; verts : nat; v : facet; out : list facet }.
Definition start : machine := {| solid := false; inFacet := false; inLoop := false; solids := 0; loops := 0; verts := 0; v := ((0,0,0),(0,0,0),(0,0,0))%Z; out := [] |}.
Definition set_corner (k : nat) (p : point) (f : facet) : facet :=
  let '(a, b, c) := f in match k with O => (p, b, c) | S O => (a, p, c) | _ => (a, b, p) end.
(** :317-330 *)
Definition on_solid (line : string) (m : machine) : outcome machine :=
  if starts "solid" line then
    if solid m || negb (Nat.eqb (solids m) 0) then Code OtherError
    else Ret {| solid := true; inFacet := inFacet m; inLoop := inLoop m; solids := solids m; loops := loops m; verts := verts m; v := v m; out := out m |}
  else Ret m.
(** :331-340 *)
Definition on_endsolid (line : string) (m : machine) : outcome machine :=
  if starts "endsolid" line then
    if negb (solid m) || inFacet m || inLoop m then Code OtherError
    else Ret {| solid := false; inFacet := inFacet m; inLoop := inLoop m; solids := S (solids m); loops := loops m; verts := verts m; v := v m; out := out m |}
  else Ret m.
(** :341-355 *)
Definition on_normal (line : string) (m : machine) : outcome machine :=
  if starts "facet normal" line then
    if negb (solid m) || inLoop m || inFacet m then Code OtherError
    else match three_values (trim (drop 12 line)) with
         | None => Code ParserError
         | Some _ => Ret {| solid := solid m; inFacet := true; inLoop := inLoop m; solids := solids m; loops := loops m; verts := verts m; v := v m; out := out m |}
         end
  else Ret m.
(** :356-371 *)
Definition on_endfacet (line : string) (m : machine) : outcome machine :=
  if starts "endfacet" line then
    if negb (solid m) || inLoop m || negb (inFacet m) || negb (Nat.eqb (loops m) 1) then Code OtherError
    else Ret {| solid := solid m; inFacet := false; inLoop := inLoop m; solids := solids m; loops := 0; verts := verts m; v := v m; out := (out m ++ [v m])%list |}
  else Ret m.
(** :372-380 *)
Definition on_loop (line : string) (m : machine) : outcome machine :=
  if starts "outer loop" line then
    if negb (solid m) || negb (inFacet m) || inLoop m then Code OtherError
    else Ret {| solid := solid m; inFacet := inFacet m; inLoop := true; solids := solids m; loops := loops m; verts := verts m; v := v m; out := out m |}
  else Ret m.
(** :381-391 *)
Definition on_endloop (line : string) (m : machine) : outcome machine :=
  if starts "endloop" line then
    if negb (solid m) || negb (inFacet m) || negb (inLoop m) || negb (Nat.eqb (verts m) 3) then Code OtherError
    else Ret {| solid := solid m; inFacet := inFacet m; inLoop := false; solids := solids m; loops := S (loops m); verts := 0; v := v m; out := out m |}
  else Ret m.
(** :392-406 *)
Definition on_vertex (line : string) (m : machine) : outcome machine :=
  if starts "vertex" line then
    if negb (solid m) || negb (inFacet m) || negb (inLoop m) || Nat.leb 3 (verts m) then Code OtherError
    else match three_values (trim (drop 6 line)) with
         | None => Code ParserError
         | Some p => Ret {| solid := solid m; inFacet := inFacet m; inLoop := inLoop m; solids := solids m; loops := loops m; verts := S (verts m); v := set_corner (verts m) p (v m); out := out m |}
         end
  else Ret m.
(** :317-406, one trimmed line *)
Definition on_line (line : string) (m : machine) : outcome machine :=
  obind (on_solid line m) (fun m => obind (on_endsolid line m) (fun m => obind (on_normal line m) (fun m => obind (on_endfacet line m) (fun m =>
  obind (on_loop line m) (fun m => obind (on_endloop line m) (fun m => on_vertex line m)))))).
(** :409-412 *)
Definition finish (m : machine) : outcome (list facet) :=
  if solid m || inFacet m || inLoop m || Nat.eqb (solids m) 0 then Code MissingDataError else Ret (out m).
(** :299-407; a line consumes at least one byte or ends the file, so the length of the file bounds the lines *)
Fixpoint read_lines (fuel : nat) (st : option string) (m : machine) : outcome (list facet) :=
  match fuel with
  | O => finish m
  | S k =>
    match st with
    | None => finish m
    | Some s =>
      match next_line junk 0 s with
      | TooLong => Code LineLimitError
      | Ended => finish m
      | Line l st' => obind (on_line (trim l) m) (fun m' => read_lines k st' m')
      end
    end
  end.
Definition read_ascii (s : string) : outcome (list facet) := read_lines (S (S (String.length s))) (Some s) start.

(** ** the binary reader, microstl.h:415-451 *)
Definition point_at (s : string) (k : nat) : point := (u32 s k, u32 s (k + 4), u32 s (k + 8)).
(** :438-448, the 50 bytes of a facet: normal, three corners, attributes *)
Fixpoint read_facets (n : nat) (s : string) : outcome (list facet) :=
  match n with
  | O => Ret []
  | S k =>
    if Nat.ltb (String.length s) 50 then Code MissingDataError
    else obind (read_facets k (drop 50 s)) (fun fs => Ret ((point_at s 12, point_at s 24, point_at s 36) :: fs))
  end.
Definition read_binary (s : string) : outcome (list facet) :=
  if Nat.ltb (String.length s) 80 then Code MissingDataError else
  if Nat.ltb (String.length s) 84 then Code MissingDataError else
  let n := u32 s 80 in
  if (n =? 0)%Z then Code MissingDataError else
  if (500000000 <? n)%Z then Code OtherError else
  read_facets (Z.to_nat n) (drop 84 s).
(** :113-120 *)
Definition read_stream (s : string) : outcome (list facet) := if is_ascii s then read_ascii s else read_binary s.

(** ** the writers *)
Definition show_point (p : point) : string := let '(x, y, z) := p in show x ++ " " ++ show y ++ " " ++ show z.
Definition nl : string := String NL EmptyString.
(** microstl.h:579-594, one facet *)
Definition write_facet (f : facet) : string :=
  let '(a, b, c) := f in
  "  facet normal " ++ show_point (0, 0, 0)%Z ++ nl ++ "    outer loop" ++ nl ++
  "      vertex " ++ show_point a ++ nl ++ "      vertex " ++ show_point b ++ nl ++ "      vertex " ++ show_point c ++ nl ++
  "    endloop" ++ nl ++ "  endfacet" ++ nl.
(** :569-597 *)
Definition write_ascii (fs : list facet) : string := "solid microstl" ++ nl ++ cat (map write_facet fs) ++ "endsolid" ++ nl.
Definition le_point (p : point) : string := let '(x, y, z) := p in le32 x ++ le32 y ++ le32 z.
(** :615-630: normal, corners, two attribute bytes *)
Definition write_facet_binary (f : facet) : string :=
  let '(a, b, c) := f in le_point (0, 0, 0)%Z ++ le_point a ++ le_point b ++ le_point c ++ rep 2 zero.
(** :599-634; the header is :497 *)
Definition write_binary (fs : list facet) : string :=
  "microstl" ++ rep 72 zero ++ le32 (Z.of_nat (List.length fs) mod 4294967296) ++ cat (map write_facet_binary fs).

(** ** the wrappers *)
Context {Dbl : Type}.
Variable to32 : Dbl -> Z.
Variable to64 : Z -> Dbl.
Definition row64 (p : point) : list Dbl := let '(x, y, z) := p in [to64 x; to64 y; to64 z].
(** microstl_wrappers.cpp:20-31 *)
Definition soup (fs : list facet) : list (list Dbl) * list (list Z) :=
  (flat_map (fun f => let '(a, b, c) := f in [row64 a; row64 b; row64 c]) fs,
   map (fun i => let k := Z.of_nat (3 * i) in [k; k + 1; k + 2]%Z) (seq 0 (List.length fs))).
(** microstl_wrappers.cpp:5-36 and read_mesh.py:229-247 with merge_stl=False; a code is raised as an exception *)
Definition read_stl (s : string) : outcome (list (list Dbl) * list (list Z)) := obind (read_stream s) (fun fs => Ret (soup fs)).
(** read_mesh.py:245-247, merge_stl=True (the default of read_mesh) *)
Definition read_stl_merged `{Ord (list Dbl)} (s : string) : outcome (list (list Dbl) * list (list Z)) :=
  obind (read_stl s) (fun VF =>
    match remove_duplicate_vertices0 (fst VF) (map (map Z.to_nat) (snd VF)) with
    | Some (SV, _, _, G) => Ret (SV, map (map Z.of_nat) G)
    | None => Code 0    (* an IndexError *)
    end).
(** microstl_wrappers.cpp:46-58: the rows of V, in single precision; [None]: an access outside V or F *)
Definition corner32 (V : list (list Dbl)) (f : list Z) (k : nat) : option point :=
  match nth_error f k with
  | Some i =>
    if (i <? 0)%Z then None else
    match nth_error V (Z.to_nat i) with
    | Some (x :: y :: z :: _) => Some (to32 x, to32 y, to32 z)
    | _ => None
    end
  | None => None
  end.
Definition facet32 (V : list (list Dbl)) (f : list Z) : option facet :=
  match corner32 V f 0, corner32 V f 1, corner32 V f 2 with Some a, Some b, Some c => Some (a, b, c) | _, _, _ => None end.
Fixpoint facets32 (V : list (list Dbl)) (F : list (list Z)) : option (list facet) :=
  match F with
  | [] => Some []
  | f :: r => match facet32 V f, facets32 V r with Some x, Some xs => Some (x :: xs) | _, _ => None end
  end.
(** microstl_wrappers.cpp:38-79 and write_mesh.py:171-183: the bytes written *)
Definition write_stl (V : list (list Dbl)) (F : list (list Z)) (binary : bool) : option string :=
  option_map (if binary then write_binary else write_ascii) (facets32 V F).
End Stl.
