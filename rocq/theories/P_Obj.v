(** C44: OBJ round trip *)
From Coq Require Import String Ascii List ZArith Bool Lia.
From Verif Require Import PyExn TextModel TextProofs ObjModel.
Import ListNotations.
Open Scope string_scope.

Section RT.
Context {Val : Type}.
Variable show : Val -> string.
Variable parse : string -> option Val.
(** contract of float formatting: what is printed parses back to the same value and is one blank-free token *)
Definition show_ok := forall v, parse (show v) = Some v /\ nonempty (show v) = true /\ mem_char SP (show v) = false /\ mem_char NL (show v) = false.
(** the face indices that end up in the file *)
Definition written_corner_indices (V : rows Val) (F : rows Z) (D : option (rows Val)) (Fd : option (rows Z)) : option (rows Z) :=
  match Fd, D with
  | Some t, _ => Some t
  | None, Some d => if Nat.eqb (List.length V) (List.length d) then Some F else None
  | None, None => None
  end.
(** what the reader reports for them: the indices, or -1 everywhere if there are none *)
Definition reported (m : nat) (X : option (rows Z)) : rows Z := match X with Some t => t | None => repeat [-1; -1; -1]%Z m end.
Definition tri_rows (m : nat) (X : option (rows Z)) : Prop := match X with Some t => List.length t = m /\ Forall (fun r => List.length r = 3%nat) t | None => True end.
Definition same_width (X : option (rows Val)) : Prop := match X with Some x => exists d, Forall (fun r => List.length r = d) x | None => True end.
Definition data_back (X : option (rows Val)) : option (rows Val) := match X with Some [] => None | _ => X end.

Hypothesis HS : show_ok.
Let line i x := i ++ String SP (join SP x).
Lemma write_row_line i x : write_row i x = line i x ++ String NL EmptyString.
Proof. unfold write_row, line. clear. induction i as [|a i IH]; cbn; [|congruence]. f_equal. Qed.
Lemma str_app_assoc (a b c : string) : (a ++ b) ++ c = a ++ (b ++ c).
Proof. induction a; cbn; congruence. Qed.
Lemma read_app u n st a b : read_lines parse u n st (List.app a b) = bind (read_lines parse u n st a) (fun st' => read_lines parse u n st' b).
Proof. revert st. induction a as [|l a IH]; intros st; cbn; auto. destruct (read_line parse u n st l); cbn; auto. Qed.
Lemma parse_all_show r : parse_all parse (map show r) = Ok r.
Proof. induction r as [|x r IH]; cbn; auto. rewrite (proj1 (HS x)). cbn. rewrite IH. reflexivity. Qed.
Lemma clean_show r : Forall (fun s => mem_char SP s = false) (map show r) /\ Forall (fun s => nonempty s = true) (map show r) /\ Forall (fun s => mem_char NL s = false) (map show r).
Proof. induction r as [|x r IH]; cbn; [repeat split; constructor|]. destruct IH as (A & B & C), (HS x) as (_ & D & E & G). repeat split; constructor; auto. Qed.

(** appending the rows of one attribute *)
Definition accum (X : option (rows Val)) (x : rows Val) : option (rows Val) := match x with [] => X | _ => Some (List.app (match X with None => [] | Some a => a end) x) end.
Definition compat (d : nat) (X : option (rows Val)) := match X with None => True | Some a => List.length (hd [] a) = d end.
Lemma add_row_ok d X r : compat d X -> List.length r = d -> add_row parse X (map show r) = Ok (accum X [r]) /\ (match X with Some [] => False | _ => True end -> compat d (accum X [r])).
Proof.
  intros C L. unfold add_row. rewrite parse_all_show, map_length. destruct X as [a|]; cbn in *.
  - rewrite C, L, Nat.eqb_refl. cbn. split; auto. destruct a; [contradiction|]. auto.
  - split; auto.
Qed.
Definition nonnil (X : option (rows Val)) := match X with Some [] => False | _ => True end.
Lemma accum_cons X r x : nonnil X -> accum (accum X [r]) x = accum X (r :: x).
Proof. destruct X as [[|a X]|]; cbn; [contradiction| |]; intros _; destruct x; cbn; auto. rewrite <- app_assoc. reflexivity. Qed.
Lemma read_v u n d rs : Forall (fun r => List.length r = d) rs -> forall st, compat d (sV st) -> nonnil (sV st) ->
  read_lines parse u n st (map (fun r => line "v" (map show r)) rs) = Ok (mkst (accum (sV st) rs) (sF st) (sUV st) (sFt st) (sN st) (sFn st)).
Proof.
  induction 1 as [|r rs L FA IH]; intros st C NN; cbn [map read_lines].
  - destruct st; reflexivity.
  - unfold read_line. destruct (clean_show r) as (A & B & _). unfold line at 1. rewrite fields_row by auto. cbn [String.eqb Ascii.eqb Bool.eqb].
    destruct (add_row_ok d (sV st) r C L) as (E & C'). rewrite E. cbn [bind]. rewrite IH; cbn [sV sF sUV sFt sN sFn]; auto.
    + rewrite accum_cons by auto. reflexivity.
    + destruct (sV st) as [[|? ?]|]; cbn; auto.
Qed.
Lemma read_vt u n d rs : Forall (fun r => List.length r = d) rs -> forall st, compat d (sUV st) -> nonnil (sUV st) ->
  read_lines parse u n st (map (fun r => line "vt" (map show r)) rs) = Ok (mkst (sV st) (sF st) (if u then accum (sUV st) rs else sUV st) (sFt st) (sN st) (sFn st)).
Proof.
  induction 1 as [|r rs L FA IH]; intros st C NN; cbn [map read_lines].
  - destruct st, u; reflexivity.
  - unfold read_line. destruct (clean_show r) as (A & B & _). unfold line at 1. rewrite fields_row by auto. cbn [String.eqb Ascii.eqb Bool.eqb].
    destruct u; [|cbn [bind]; apply IH; auto].
    destruct (add_row_ok d (sUV st) r C L) as (E & C'). rewrite E. cbn [bind]. rewrite IH; cbn [sV sF sUV sFt sN sFn]; auto.
    + rewrite accum_cons by auto. reflexivity.
    + destruct (sUV st) as [[|? ?]|]; cbn; auto.
Qed.
Lemma read_vn u n d rs : Forall (fun r => List.length r = d) rs -> forall st, compat d (sN st) -> nonnil (sN st) ->
  read_lines parse u n st (map (fun r => line "vn" (map show r)) rs) = Ok (mkst (sV st) (sF st) (sUV st) (sFt st) (if n then accum (sN st) rs else sN st) (sFn st)).
Proof.
  induction 1 as [|r rs L FA IH]; intros st C NN; cbn [map read_lines].
  - destruct st, n; reflexivity.
  - unfold read_line. destruct (clean_show r) as (A & B & _). unfold line at 1. rewrite fields_row by auto. cbn [String.eqb Ascii.eqb Bool.eqb].
    destruct n; [|cbn [bind]; apply IH; auto].
    destruct (add_row_ok d (sN st) r C L) as (E & C'). rewrite E. cbn [bind]. rewrite IH; cbn [sV sF sUV sFt sN sFn]; auto.
    + rewrite accum_cons by auto. reflexivity.
    + destruct (sN st) as [[|? ?]|]; cbn; auto.
Qed.
(** one corner *)
Definition corner (a : Z) (t n : option Z) : string :=
  match t, n with
  | Some b, Some c => show_int (a + 1) ++ String SLASH (show_int (b + 1) ++ String SLASH (show_int (c + 1)))
  | Some b, None => show_int (a + 1) ++ String SLASH (show_int (b + 1))
  | None, Some c => show_int (a + 1) ++ String SLASH (String SLASH (show_int (c + 1)))
  | None, None => show_int (a + 1)
  end.
Lemma mem_sp z : mem_char SP (show_int z) = false. Proof. apply show_int_chars; [left; vm_compute; lia|discriminate]. Qed.
Lemma mem_nl z : mem_char NL (show_int z) = false. Proof. apply show_int_chars; [left; vm_compute; lia|discriminate]. Qed.
Lemma mem_sl z : mem_char SLASH (show_int z) = false. Proof. apply show_int_chars; [left; vm_compute; lia|discriminate]. Qed.
Lemma corner_split a t n : split_on SLASH (corner a t n) =
  match t, n with Some b, Some c => [show_int (a + 1); show_int (b + 1); show_int (c + 1)] | Some b, None => [show_int (a + 1); show_int (b + 1)]
  | None, Some c => [show_int (a + 1); EmptyString; show_int (c + 1)] | None, None => [show_int (a + 1)] end.
Proof.
  destruct t, n; cbn [corner]; rewrite ?split_app by apply mem_sl; rewrite ?(split_clean SLASH (show_int _)) by apply mem_sl; auto.
  change (String SLASH (show_int (z + 1))) with (EmptyString ++ String SLASH (show_int (z + 1))). rewrite split_app by reflexivity. rewrite (split_clean SLASH (show_int _)) by apply mem_sl. reflexivity.
Qed.
Lemma corner_clean a t n : mem_char SP (corner a t n) = false /\ nonempty (corner a t n) = true /\ mem_char NL (corner a t n) = false.
Proof.
  assert (NE : forall x y, nonempty x = true -> nonempty (x ++ y) = true) by (intros [|]; cbn; auto; discriminate).
  destruct t, n; cbn [corner]; repeat split; repeat (rewrite mem_app || cbn [mem_char]); rewrite ?mem_sp, ?mem_nl; auto; try (apply NE); apply show_int_nonempty.
Qed.
Lemma zip3 a b c t n : (match t with Some l => List.length l = 3%nat | None => True end) -> (match n with Some l => List.length l = 3%nat | None => True end) ->
  zip_face [a; b; c] t n = [corner a (option_map (fun l => nth 0 l 0%Z) t) (option_map (fun l => nth 0 l 0%Z) n); corner b (option_map (fun l => nth 1 l 0%Z) t) (option_map (fun l => nth 1 l 0%Z) n); corner c (option_map (fun l => nth 2 l 0%Z) t) (option_map (fun l => nth 2 l 0%Z) n)].
Proof.
  destruct t as [[|t0 [|t1 [|t2 [|]]]]|]; cbn [List.length]; intros T; try discriminate; destruct n as [[|n0 [|n1 [|n2 [|]]]]|]; cbn [List.length]; intros N; try discriminate; reflexivity.
Qed.
Definition ifb {A} (b : bool) (x y : A) : A := if b then x else y.
Definition row_back (t : option (list Z)) : list Z := match t with Some l => l | None => [-1; -1; -1]%Z end.
Lemma piece_show x k s : nth_error x k = Some (show_int s) -> piece k x = Ok s.
Proof. intros E. unfold piece. rewrite E, show_int_nonempty, parse_show. reflexivity. Qed.
Lemma read_f_line u n st f t nn : List.length f = 3%nat -> (match t with Some l => List.length l = 3%nat | None => True end) -> (match nn with Some l => List.length l = 3%nat | None => True end) ->
  read_line parse u n st (line "f" (zip_face f t nn)) = Ok (mkst (sV st) (add_face (sF st) f) (sUV st) (ifb u (add_face (sFt st) (row_back t)) (sFt st)) (sN st) (ifb n (add_face (sFn st) (row_back nn)) (sFn st))).
Proof.
  intros L T N. destruct f as [|a [|b [|c [|]]]]; try discriminate. rewrite zip3 by auto.
  set (c0 := corner a _ _). set (c1 := corner b _ _). set (c2 := corner c _ _).
  unfold read_line, line. rewrite fields_row; [|reflexivity|reflexivity|repeat constructor; apply corner_clean|repeat constructor; apply corner_clean].
  cbn [String.eqb Ascii.eqb Bool.eqb List.length Nat.eqb negb map]. unfold c0, c1, c2. rewrite !corner_split.
  assert (P1 : forall z : Z, (z + 1 - 1)%Z = z) by (intros; lia).
  destruct t as [[|t0 [|t1 [|t2 [|]]]]|]; cbn [List.length] in T; try discriminate; destruct nn as [[|n0 [|n1 [|n2 [|]]]]|]; cbn [List.length] in N; try discriminate;
  cbn [option_map nth mapR hd]; unfold piece; cbn [nth_error nonempty]; rewrite ?show_int_nonempty, ?parse_show; cbn [lift bind map]; rewrite ?P1;
  destruct u, n; cbn [bind ifb row_back map]; rewrite ?parse_show; cbn [lift bind map]; rewrite ?P1; reflexivity.
Qed.
Definition accZ (X : option (rows Z)) (x : rows Z) : option (rows Z) := match x with [] => X | _ => Some (List.app (match X with None => [] | Some a => a end) x) end.
Lemma accZ_cons X r x : accZ (add_face X r) x = accZ X (r :: x).
Proof. destruct X as [a|]; destruct x; cbn; auto. rewrite <- app_assoc. reflexivity. Qed.
Definition tri_opt (X : option (list Z)) : Prop := match X with Some l => List.length l = 3%nat | None => True end.
Lemma read_faces u n (F : rows Z) (T N : option (rows Z)) rs : Forall (fun r => List.length (nth r F []) = 3%nat /\ tri_opt (nth_row T r) /\ tri_opt (nth_row N r)) rs -> forall st,
  read_lines parse u n st (map (fun r => line "f" (zip_face (nth r F []) (nth_row T r) (nth_row N r))) rs)
  = Ok (mkst (sV st) (accZ (sF st) (map (fun r => nth r F []) rs)) (sUV st) (ifb u (accZ (sFt st) (map (fun r => row_back (nth_row T r)) rs)) (sFt st)) (sN st) (ifb n (accZ (sFn st) (map (fun r => row_back (nth_row N r)) rs)) (sFn st))).
Proof.
  induction 1 as [|r rs (A & B & C) FA IH]; intros st; cbn [map read_lines].
  - destruct st, u, n; reflexivity.
  - rewrite read_f_line by auto. cbn [bind]. rewrite IH. cbn [sV sF sUV sFt sN sFn]. rewrite accZ_cons. destruct u, n; cbn [ifb]; rewrite ?accZ_cons; reflexivity.
Qed.
Lemma map_nth_seq {A} (l : list A) d : map (fun r => nth r l d) (seq 0 (List.length l)) = l.
Proof. induction l as [|a l IH]; cbn; auto. f_equal. rewrite <- seq_shift, map_map. exact IH. Qed.
Lemma map_back (F : rows Z) T : tri_rows (List.length F) T -> map (fun r => row_back (nth_row T r)) (seq 0 (List.length F)) = reported (List.length F) T.
Proof.
  destruct T as [t|]; cbn.
  - intros [L _]. rewrite <- L. apply map_nth_seq.
  - intros _. generalize 0%nat. induction (List.length F); intros; cbn; f_equal; auto.
Qed.
Lemma tri_nth m T r : tri_rows m T -> (r < m)%nat -> tri_opt (nth_row T r).
Proof. destruct T as [t|]; cbn; auto. intros [L FA] R. rewrite Forall_forall in FA. apply FA, nth_In. lia. Qed.
Lemma clean_line i x : mem_char NL i = false -> Forall (fun s => mem_char NL s = false) x -> mem_char NL (line i x) = false.
Proof. intros A B. unfold line. rewrite mem_app, A. cbn [mem_char]. rewrite mem_join; auto. discriminate. Qed.
Lemma zip_clean f t n : List.length f = 3%nat -> tri_opt t -> tri_opt n -> Forall (fun s => mem_char NL s = false) (zip_face f t n).
Proof. intros L T N. destruct f as [|a [|b [|c [|]]]]; try discriminate. rewrite zip3 by auto. repeat constructor; apply corner_clean. Qed.
Lemma accum_none x : accum None x = data_back (Some x). Proof. destruct x; reflexivity. Qed.
Definition faces_back (F : rows Z) : option (rows Z) := match F with [] => None | _ => Some F end.
Lemma accZ_none x : accZ None x = faces_back x. Proof. destruct x; reflexivity. Qed.
Lemma rt (V : rows Val) F UV Ft N Fn :
  (exists d, Forall (fun r => List.length r = d) V) -> same_width UV -> same_width N -> Forall (fun r => List.length r = 3%nat) F ->
  tri_rows (List.length F) Ft -> tri_rows (List.length F) Fn ->
  exists text, write_obj show V F UV Ft N Fn = Ok text /\
   forall u n, read_obj parse u n text = Ok (mkst (data_back (Some V)) (faces_back F)
      (ifb u (data_back UV) None) (ifb u (faces_back (reported (List.length F) (written_corner_indices V F UV Ft))) None)
      (ifb n (data_back N) None) (ifb n (faces_back (reported (List.length F) (written_corner_indices V F N Fn))) None)).
Proof.
  intros [dV WV] WU WN WF WT WFn.
  set (T := written_corner_indices V F UV Ft). set (T2 := written_corner_indices V F N Fn).
  assert (ET : default_indices V F UV Ft = T) by (unfold T, written_corner_indices; destruct Ft, UV; reflexivity).
  assert (ET2 : default_indices V F N Fn = T2) by (unfold T2, written_corner_indices; destruct Fn, N; reflexivity).
  assert (HT : tri_rows (List.length F) T). { unfold T, written_corner_indices. destruct Ft; auto. destruct UV; cbn; auto. destruct Nat.eqb; cbn; auto. }
  assert (HT2 : tri_rows (List.length F) T2). { unfold T2, written_corner_indices. destruct Fn; auto. destruct N; cbn; auto. destruct Nat.eqb; cbn; auto. }
  set (L1 := map (fun r => line "v" (map show r)) V).
  set (L2 := match UV with Some uv => map (fun r => line "vt" (map show r)) uv | None => [] end).
  set (L3 := match N with Some uv => map (fun r => line "vn" (map show r)) uv | None => [] end).
  set (L4 := map (fun r => line "f" (zip_face (nth r F []) (nth_row T r) (nth_row T2 r))) (seq 0 (List.length F))).
  exists (cat (map (fun l => l ++ String NL EmptyString) (List.app L1 (List.app L2 (List.app L3 L4))))). split.
  - unfold write_obj. cbv zeta. rewrite ET, ET2.
    assert (A1 : match T with Some t => negb (Nat.eqb (List.length t) (List.length F)) | None => false end = false) by (destruct T; auto; cbn in HT; destruct HT as [ -> _]; rewrite Nat.eqb_refl; auto).
    assert (A2 : match T2 with Some t => negb (Nat.eqb (List.length t) (List.length F)) | None => false end = false) by (destruct T2; auto; cbn in HT2; destruct HT2 as [ -> _]; rewrite Nat.eqb_refl; auto).
    rewrite A1, A2. do 2 f_equal. rewrite !map_app. unfold L1, L2, L3, L4. rewrite !map_map.
    assert (W : forall i x, line i x ++ String NL EmptyString = write_row i x) by (intros; symmetry; apply write_row_line).
    f_equal. f_equal; [destruct UV; cbn; auto; rewrite map_map; reflexivity|]. f_equal. destruct N; cbn; auto; rewrite map_map; reflexivity.
  - intros u n. unfold read_obj. rewrite split_lines.
    + rewrite !read_app. unfold L1. rewrite (read_v u n dV); cbn [sV compat nonnil]; auto. cbn [bind sV sF sUV sFt sN sFn].
      rewrite !read_app. assert (E2 : forall st, sUV st = None -> read_lines parse u n st L2 = Ok (mkst (sV st) (sF st) (ifb u (data_back UV) None) (sFt st) (sN st) (sFn st))).
      { intros st E. unfold L2. destruct UV as [uv|].
        - destruct WU as [d WU]. rewrite (read_vt u n d); auto; rewrite E; cbn; auto.
        - destruct st as [? ? z ? ? ?]; cbn in *; subst z. destruct u; reflexivity. }
      rewrite E2 by reflexivity. cbn [bind sV sF sUV sFt sN sFn].
      rewrite !read_app. assert (E3 : forall st, sN st = None -> read_lines parse u n st L3 = Ok (mkst (sV st) (sF st) (sUV st) (sFt st) (ifb n (data_back N) None) (sFn st))).
      { intros st E. unfold L3. destruct N as [uv|].
        - destruct WN as [d WN]. rewrite (read_vn u n d); auto; rewrite E; cbn; auto.
        - destruct st as [? ? ? ? z ?]; cbn in *; subst z. destruct n; reflexivity. }
      rewrite E3 by reflexivity. cbn [bind sV sF sUV sFt sN sFn].
      unfold L4. rewrite read_faces.
      * cbn [bind sV sF sUV sFt sN sFn read_lines]. unfold read_line. cbn [fields split_on filter nonempty].
        rewrite map_nth_seq, !map_back by auto. rewrite accum_none, !accZ_none. reflexivity.
      * apply Forall_forall. intros r R. apply in_seq in R. split; [|split]; [|apply (tri_nth (List.length F)); auto; lia|apply (tri_nth (List.length F)); auto; lia].
        rewrite Forall_forall in WF. apply WF, nth_In. lia.
    + repeat (apply Forall_app; split).
      * unfold L1. apply Forall_forall. intros l IN. apply in_map_iff in IN as (r & <- & _). apply clean_line; auto. apply clean_show.
      * unfold L2. destruct UV; [|constructor]. apply Forall_forall. intros l IN. apply in_map_iff in IN as (r' & <- & _). apply clean_line; auto. apply clean_show.
      * unfold L3. destruct N; [|constructor]. apply Forall_forall. intros l IN. apply in_map_iff in IN as (r' & <- & _). apply clean_line; auto. apply clean_show.
      * unfold L4. apply Forall_forall. intros l IN. apply in_map_iff in IN as (r & <- & R). apply in_seq in R. apply clean_line; auto. apply zip_clean; [rewrite Forall_forall in WF; apply WF, nth_In; lia| |]; apply (tri_nth (List.length F)); auto; lia.
Qed.
End RT.

(** whatever the python writer writes, the python reader reads back: same vertices, faces, texture and normal data, and the texture/normal
    indices that were given (or the face indices when the counts agree, or -1 when there are none); only empty arrays come back as None *)
Theorem C44_roundtrip : forall (Val : Type) (show : Val -> string) (parse : string -> option Val), show_ok show parse ->
  forall V F UV Ft N Fn, (exists d, Forall (fun r => List.length r = d) V) -> same_width UV -> same_width N -> Forall (fun r => List.length r = 3%nat) F ->
  tri_rows (List.length F) Ft -> tri_rows (List.length F) Fn ->
  exists text, write_obj show V F UV Ft N Fn = Ok text /\
   forall return_UV return_N, read_obj parse return_UV return_N text = Ok {|
      sV := match V with [] => None | _ => Some V end; sF := match F with [] => None | _ => Some F end;
      sUV := if return_UV then data_back UV else None; sFt := if return_UV then faces_back (reported (List.length F) (written_corner_indices V F UV Ft)) else None;
      sN := if return_N then data_back N else None; sFn := if return_N then faces_back (reported (List.length F) (written_corner_indices V F N Fn)) else None |}.
Proof. intros Val show parse HS V F UV Ft N Fn A B C D E G. exact (rt show parse HS V F UV Ft N Fn A B C D E G). Qed.
Print Assumptions C44_roundtrip.
(** mismatched index arrays are rejected *)
Theorem C44_writer_checks : forall (Val : Type) (show : Val -> string) V F (UV N : option (rows Val)) t n, List.length t <> List.length F \/ List.length n <> List.length F ->
  write_obj show V F UV (Some t) N (Some n) = Err AssertionError.
Proof.
  intros Val show V F UV N t n H. unfold write_obj, default_indices. destruct UV, N; (destruct (Nat.eqb_spec (List.length t) (List.length F)), (Nat.eqb_spec (List.length n) (List.length F)); cbn; auto; destruct H; contradiction).
Qed.
(** the documented names of the formats are not accepted by the fmt argument: its first character is always dropped *)
Theorem C63_fmt_argument_refuted : forall ext, select_format ext (Some "obj") = Err AssertionError /\ select_format ext (Some "stl") = Err AssertionError /\ select_format ext (Some "ply") = Err AssertionError.
Proof. intros. repeat split; reflexivity. Qed.
Theorem C63_extension : select_format ".obj" None = Ok OBJ /\ select_format ".OBJ" None = Ok OBJ /\ select_format ".stl" None = Ok STL /\ select_format ".ply" None = Ok PLY.
Proof. repeat split; reflexivity. Qed.
(** a concrete instance with integers as values *)
Example C44_nonvacuous : show_ok show_int parse_int /\
  write_obj show_int [[0;0;0];[1;0;0];[0;-1;0]]%Z [[0;1;2]]%Z (Some [[5;6]]%Z) (Some [[0;0;0]]%Z) None None
  = Ok (cat (map (fun l => l ++ String NL EmptyString) ["v 0 0 0"; "v 1 0 0"; "v 0 -1 0"; "vt 5 6"; "f 1/1 2/1 3/1"])).
Proof.
  split; [|reflexivity]. intros v. split; [apply parse_show|]. split; [apply show_int_nonempty|]. split; [apply mem_sp|apply mem_nl].
Qed.
