(** OBJ files: write_mesh.py:132-169 (_write_obj_python), read_mesh.py:150-226 (_read_obj_python), and the format
    selection of write_mesh.py:69-82 / read_mesh.py:82-97.
    Numbers of V, UV, N are an abstract type [Val] with the writer's astype(str) as [show] and the reader's
    string-to-float64 conversion as [parse].  The csv module's quoting is not modelled: no written field contains a quote.
    Only the python engine is modelled. *)
From Coq Require Import String Ascii List ZArith Bool.
From Verif Require Import PyExn TextModel.
Import ListNotations.
Open Scope string_scope.

Section Obj.
Context {Val : Type}.
Variable show : Val -> string.
Variable parse : string -> option Val.

Definition rows (A : Type) := list (list A).
(** write_row, :137-141 *)
Definition write_row (identifier : string) (x : list string) : string :=
  identifier ++ String SP (join SP x ++ String NL EmptyString).
(** :160-169, one face; zip truncates to the shortest *)
Fixpoint zip_face (f : list Z) (t n : option (list Z)) : list string :=
  match f with
  | [] => []
  | a :: f' =>
    match t, n with
    | Some ts, Some nn => match ts, nn with b :: t', c :: n' => (show_int (a + 1) ++ String SLASH (show_int (b + 1) ++ String SLASH (show_int (c + 1)))) :: zip_face f' (Some t') (Some n') | _, _ => [] end   (* :162 *)
    | Some ts, None => match ts with b :: t' => (show_int (a + 1) ++ String SLASH (show_int (b + 1))) :: zip_face f' (Some t') None | [] => [] end   (* :164 *)
    | None, Some nn => match nn with c :: n' => (show_int (a + 1) ++ String SLASH (String SLASH (show_int (c + 1)))) :: zip_face f' None (Some n') | [] => [] end   (* :166 *)
    | None, None => show_int (a + 1) :: zip_face f' None None   (* :168 *)
    end
  end.
Definition nth_row (X : option (rows Z)) (r : nat) : option (list Z) := option_map (fun x => nth r x []) X.
(** :146-147, :151-152 *)
Definition default_indices (V : rows Val) (F : rows Z) (D : option (rows Val)) (Fd : option (rows Z)) : option (rows Z) :=
  match D with Some d => match Fd with None => if Nat.eqb (List.length V) (List.length d) then Some F else None | _ => Fd end | None => Fd end.
(** :136-169; V is an array here (V=None is not modelled) *)
Definition write_obj (V : rows Val) (F : rows Z) (UV : option (rows Val)) (Ft : option (rows Z)) (N : option (rows Val)) (Fn : option (rows Z)) : res string :=
  let vs := map (fun r => write_row "v" (map show r)) V in                                       (* :142-144 *)
  let Ft := default_indices V F UV Ft in   (* :146-147 *)
  let uvs := match UV with Some uv => map (fun r => write_row "vt" (map show r)) uv | None => [] end in   (* :148-149 *)
  let Fn := default_indices V F N Fn in   (* :151-152 *)
  let ns := match N with Some nn => map (fun r => write_row "vn" (map show r)) nn | None => [] end in    (* :153-154 *)
  if match Ft with Some t => negb (Nat.eqb (List.length t) (List.length F)) | None => false end then Err AssertionError    (* :156-157 *)
  else if match Fn with Some n => negb (Nat.eqb (List.length n) (List.length F)) | None => false end then Err AssertionError    (* :158-159 *)
  else Ok (cat (app vs (app uvs (app ns (map (fun r => write_row "f" (zip_face (nth r F []) (nth_row Ft r) (nth_row Fn r))) (seq 0 (List.length F))))))).

(** reader *)
Record state := mkst { sV : option (rows Val); sF : option (rows Z); sUV : option (rows Val); sFt : option (rows Z); sN : option (rows Val); sFn : option (rows Z) }.
Fixpoint parse_all {A} (p : string -> option A) (l : list string) : res (list A) :=
  match l with [] => Ok [] | s :: r => do a <- lift ValueError (p s); do b <- parse_all p r; Ok (a :: b) end.
(** :174-181 (and the same for vt, vn): append a row, its length must be that of the first *)
Definition add_row (V : option (rows Val)) (row : list string) : res (option (rows Val)) :=
  if match V with None => false | Some v => negb (Nat.eqb (List.length row) (List.length (hd [] v))) end then Err AssertionError
  else do x <- parse_all parse row; Ok (Some (match V with None => [x] | Some v => app v [x] end)).
Definition add_face (F : option (rows Z)) (x : list Z) : option (rows Z) :=
  Some (match F with None => [x] | Some f => app f [x] end).
(** :220, :223: k-th slash-separated piece of a corner, 0 if absent or empty *)
Definition piece (k : nat) (x : list string) : res Z :=
  match nth_error x k with Some s => if nonempty s then lift ValueError (parse_int s) else Ok 0%Z | None => Ok 0%Z end.
Fixpoint mapR {A B} (f : A -> res B) (l : list A) : res (list B) :=
  match l with [] => Ok [] | a :: r => do x <- f a; do y <- mapR f r; Ok (x :: y) end.
(** :163-224, one line *)
Definition read_line (return_UV return_N : bool) (st : state) (line : string) : res state :=
  match fields line with                                                                         (* :165 *)
  | [] => Ok st                                                                                  (* :166-167 *)
  | s :: row =>
    if s =? "#" then Ok st
    else if s =? "v" then do v <- add_row (sV st) row; Ok (mkst v (sF st) (sUV st) (sFt st) (sN st) (sFn st))
    else if s =? "vt" then if return_UV then do v <- add_row (sUV st) row; Ok (mkst (sV st) (sF st) v (sFt st) (sN st) (sFn st)) else Ok st
    else if s =? "vn" then if return_N then do v <- add_row (sN st) row; Ok (mkst (sV st) (sF st) (sUV st) (sFt st) v (sFn st)) else Ok st
    else if s =? "f" then
      if negb (Nat.eqb (List.length row) 3) then Err AssertionError                              (* :203 *)
      else let sp := map (split_on SLASH) row in                                                 (* :204 *)
      do f <- mapR (fun x => lift ValueError (parse_int (hd EmptyString x))) sp;                 (* :217 *)
      do t <- (if return_UV then do t <- mapR (piece 1) sp; Ok (add_face (sFt st) (map (fun z => z - 1)%Z t)) else Ok (sFt st));   (* :219-221 *)
      do n <- (if return_N then do n <- mapR (piece 2) sp; Ok (add_face (sFn st) (map (fun z => z - 1)%Z n)) else Ok (sFn st));    (* :222-224 *)
      Ok (mkst (sV st) (add_face (sF st) (map (fun z => z - 1)%Z f)) (sUV st) t (sN st) n)       (* :205-218 *)
    else Ok st
  end.
Fixpoint read_lines (u n : bool) (st : state) (ls : list string) : res state :=
  match ls with [] => Ok st | l :: r => do st' <- read_line u n st l; read_lines u n st' r end.
Definition read_obj (u n : bool) (text : string) : res state :=
  read_lines u n (mkst None None None None None None) (split_on NL text).
End Obj.

(** format selection: os.path.splitext gives the extension with its dot; write_mesh.py:70-82, read_mesh.py:83-97 *)
Definition lower_char (a : ascii) : ascii := let n := nat_of_ascii a in if (Nat.leb 65 n && Nat.leb n 90)%bool then ascii_of_nat (n + 32) else a.
Fixpoint lower (s : string) : string := match s with EmptyString => EmptyString | String a r => String (lower_char a) (lower r) end.
Inductive engine := OBJ | STL | PLY.
Definition select_format (extension : string) (fmt : option string) : res engine :=
  let fmt := match fmt with None => extension | Some f => f end in
  let fmt := lower (match fmt with EmptyString => EmptyString | String _ r => r end) in          (* fmt[1:].lower() *)
  if fmt =? "obj" then Ok OBJ else if fmt =? "stl" then Ok STL else if fmt =? "ply" then Ok PLY else Err AssertionError.
