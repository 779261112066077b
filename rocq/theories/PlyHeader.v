(** Lemmas about PlyModel: headers. *)
From Coq Require Import String Ascii List ZArith Bool Lia Arith DecimalString DecimalZ.
From Verif Require Import TextModel TextProofs PlyModel PlyProofs.
From Verif Require CppObjModel CppObjProofs StlModel StlProofs.
Import ListNotations.
Open Scope string_scope.

Lemma getline_ok l r : mem_char NL l = false -> getline (l ++ NLs ++ r) = Some (l, r).
Proof.
  induction l as [|a l IH]; intros H; [reflexivity|]. cbn in H. apply orb_false_iff in H as (A & H). cbn [append getline]. rewrite A, IH by auto. reflexivity.
Qed.
Lemma no_space_line w : no_space w = true -> mem_char NL w = false.
Proof.
  induction w as [|a w IH]; [reflexivity|]. cbn. intros H. apply andb_true_iff in H as (A & H). rewrite IH by auto. rewrite orb_false_r.
  destruct (Ascii.eqb_spec a NL) as [->|]; [discriminate|reflexivity].
Qed.
Lemma mem_app c a b : mem_char c (a ++ b) = mem_char c a || mem_char c b.
Proof. induction a; cbn; auto. rewrite IHa. apply orb_assoc. Qed.
(** the decimal form of a natural number *)
Lemma uint_chars u : no_space (NilEmpty.string_of_uint u) = true.
Proof. induction u; cbn; auto. Qed.
Lemma show_nat n : exists u, u <> Decimal.Nil /\ show_int (Z.of_nat n) = NilEmpty.string_of_uint u /\ Z.of_N (Pos.of_uint u) = Z.of_nat n.
Proof.
  unfold show_int. pose proof (DecimalZ.of_to (Z.of_nat n)) as Q. destruct n as [|n].
  - exists (Decimal.D0 Decimal.Nil). repeat split; discriminate.
  - assert (E : exists u, Z.to_int (Z.of_nat (S n)) = Decimal.Pos u) by (cbn; eexists; reflexivity). destruct E as (u & E). rewrite E in *. cbn [Z.of_int] in Q. unfold Z.of_uint in Q.
    assert (N : u <> Decimal.Nil) by (intros ->; cbn in Q; lia). exists u. split; auto. split; [|exact Q]. cbn [NilZero.string_of_int]. apply CppObjProofs.string_uint_cons. exact N.
Qed.
Lemma size_ok n : Z.to_nat (CppObjModel.digits 0 (CppObjModel.skip_space (" " ++ show_int (Z.of_nat n)))) = n.
Proof.
  destruct (show_nat n) as (u & N & -> & Q). assert (E : CppObjModel.skip_space (" " ++ NilEmpty.string_of_uint u) = NilEmpty.string_of_uint u) by (destruct u; [congruence|reflexivity..]).
  rewrite E, CppObjProofs.digits_uint, Q. apply Nat2Z.id.
Qed.
Lemma show_wordy n : wordy (show_int (Z.of_nat n)).
Proof. destruct (show_nat n) as (u & N & -> & _). split; [destruct u; [congruence|discriminate..]|apply uint_chars]. Qed.

(** the spellings of the types *)
Definition spelling (t : ptype) : list string :=
  match t with INVALID => [] | INT8 => ["int8"; "char"] | UINT8 => ["uint8"; "uchar"] | INT16 => ["int16"; "short"] | UINT16 => ["uint16"; "ushort"] | INT32 => ["int32"; "int"]
  | UINT32 => ["uint32"; "uint"] | FLOAT32 => ["float32"; "float"] | FLOAT64 => ["float64"; "double"] end.
Lemma spelling_ok t w : In w (spelling t) -> type_of w = t /\ wordy w /\ w <> "list".
Proof. destruct t; cbn; intros H; repeat (destruct H as [<-|H]; [repeat split; (reflexivity || discriminate)|]); destruct H. Qed.
Lemma type_name_spelling t : t <> INVALID -> In (type_name t) (spelling t).
Proof. destruct t; cbn; tauto. Qed.
(** header lines between the format and the end, and the elements they declare *)
Inductive describes : list string -> list element -> Prop :=
| d_nil : describes [] []
| d_comment ls es c : describes ls es -> mem_char NL c = false -> describes (ls ++ ["comment " ++ c]) es
| d_info ls es c : describes ls es -> mem_char NL c = false -> describes (ls ++ ["obj_info " ++ c]) es
| d_element ls es n k : describes ls es -> wordy n -> describes (ls ++ ["element " ++ n ++ " " ++ show_int (Z.of_nat k)]) (es ++ [{| ename := n; esize := k; eprops := [] |}])
| d_property ls es n k ps t w p : describes ls (es ++ [{| ename := n; esize := k; eprops := ps |}]) -> In w (spelling t) -> wordy p ->
    describes (ls ++ ["property " ++ w ++ " " ++ p]) (es ++ [{| ename := n; esize := k; eprops := ps ++ [{| pname := p; pty := t; plist := None |}] |}])
| d_list ls es n k ps c wc t w p : describes ls (es ++ [{| ename := n; esize := k; eprops := ps |}]) -> In wc (spelling c) -> In w (spelling t) -> wordy p ->
    describes (ls ++ ["property list " ++ wc ++ " " ++ w ++ " " ++ p]) (es ++ [{| ename := n; esize := k; eprops := ps ++ [{| pname := p; pty := t; plist := Some c |}] |}]).
Definition text (ls : list string) : string := cat (map (fun l => l ++ NLs) ls).
Lemma token_sp w r : wordy w -> ends r -> token (" " ++ w ++ r) = (w, r).
Proof. intros W E. apply (token_word " " w r eq_refl W E). Qed.
Lemma token_sp_end w : wordy w -> token (" " ++ w) = (w, "").
Proof. intros W. rewrite <- (app_e w) at 1. apply token_sp; cbn; auto. Qed.
Ltac one_line := rewrite getline_ok.
Lemma step_comment k c r f es : mem_char NL c = false -> header_lines (S k) (("comment " ++ c) ++ NLs ++ r) f es = header_lines k r f es.
Proof. intros H. cbn [header_lines]. rewrite getline_ok by exact H. reflexivity. Qed.
Lemma step_info k c r f es : mem_char NL c = false -> header_lines (S k) (("obj_info " ++ c) ++ NLs ++ r) f es = header_lines k r f es.
Proof. intros H. cbn [header_lines]. rewrite getline_ok by exact H. reflexivity. Qed.
Lemma step_element k n m r f es : wordy n -> header_lines (S k) (("element " ++ n ++ " " ++ show_int (Z.of_nat m)) ++ NLs ++ r) f es = header_lines k r f ({| ename := n; esize := m; eprops := [] |} :: es).
Proof.
  intros W. cbn [header_lines]. rewrite getline_ok.
  2:{ rewrite !mem_app, (no_space_line n), (no_space_line (show_int _)) by (apply W || apply show_wordy). reflexivity. }
  change ("element " ++ n ++ " " ++ show_int (Z.of_nat m)) with ("element" ++ (" " ++ n ++ " " ++ show_int (Z.of_nat m))).
  pose proof (token_word "" "element" (" " ++ n ++ " " ++ show_int (Z.of_nat m)) eq_refl ltac:(split; [discriminate|reflexivity]) eq_refl) as Q. cbn [append] in Q |- *. rewrite Q. cbn [String.eqb Ascii.eqb Bool.eqb].
  unfold read_element. pose proof (token_sp n (" " ++ show_int (Z.of_nat m)) W eq_refl) as Q2. cbn [append] in Q2. rewrite Q2. pose proof (size_ok m) as Q3. cbn [append] in Q3. rewrite Q3. reflexivity.
Qed.
Lemma step_property k w t p r f e es : In w (spelling t) -> wordy p -> header_lines (S k) (("property " ++ w ++ " " ++ p) ++ NLs ++ r) f (e :: es) =
  header_lines k r f ({| ename := ename e; esize := esize e; eprops := (eprops e ++ [{| pname := p; pty := t; plist := None |}])%list |} :: es).
Proof.
  intros I P. destruct (spelling_ok t w I) as (Ty & W & NL'). cbn [header_lines]. rewrite getline_ok.
  2:{ rewrite !mem_app, (no_space_line w), (no_space_line p) by (apply W || apply P). reflexivity. }
  change ("property " ++ w ++ " " ++ p) with ("property" ++ (" " ++ w ++ " " ++ p)).
  pose proof (token_word "" "property" (" " ++ w ++ " " ++ p) eq_refl ltac:(split; [discriminate|reflexivity]) eq_refl) as Q. cbn [append] in Q |- *. rewrite Q. cbn [String.eqb Ascii.eqb Bool.eqb].
  unfold read_property. pose proof (token_sp w (" " ++ p) W eq_refl) as Q2. cbn [append] in Q2. rewrite Q2. destruct (String.eqb_spec w "list"); [congruence|].
  pose proof (token_sp_end p P) as Q3. cbn [append] in Q3. rewrite Q3, Ty. reflexivity.
Qed.
Lemma step_list k wc c w t p r f e es : In wc (spelling c) -> In w (spelling t) -> wordy p -> header_lines (S k) (("property list " ++ wc ++ " " ++ w ++ " " ++ p) ++ NLs ++ r) f (e :: es) =
  header_lines k r f ({| ename := ename e; esize := esize e; eprops := (eprops e ++ [{| pname := p; pty := t; plist := Some c |}])%list |} :: es).
Proof.
  intros I1 I2 P. destruct (spelling_ok c wc I1) as (Tc & Wc & _). destruct (spelling_ok t w I2) as (Ty & W & _). cbn [header_lines]. rewrite getline_ok.
  2:{ rewrite !mem_app, (no_space_line wc), (no_space_line w), (no_space_line p) by (apply W || apply P || apply Wc). reflexivity. }
  change ("property list " ++ wc ++ " " ++ w ++ " " ++ p) with ("property" ++ (" list" ++ " " ++ wc ++ " " ++ w ++ " " ++ p)).
  pose proof (token_word "" "property" (" list" ++ " " ++ wc ++ " " ++ w ++ " " ++ p) eq_refl ltac:(split; [discriminate|reflexivity]) eq_refl) as Q. cbn [append] in Q |- *. rewrite Q. cbn [String.eqb Ascii.eqb Bool.eqb].
  unfold read_property. pose proof (token_sp "list" (" " ++ wc ++ " " ++ w ++ " " ++ p) ltac:(split; [discriminate|reflexivity]) eq_refl) as Q1. cbn [append] in Q1. rewrite Q1. cbn [String.eqb Ascii.eqb Bool.eqb].
  pose proof (token_sp wc (" " ++ w ++ " " ++ p) Wc eq_refl) as Q2. cbn [append] in Q2. rewrite Q2.
  pose proof (token_sp w (" " ++ p) W eq_refl) as Q3. cbn [append] in Q3. rewrite Q3.
  pose proof (token_sp_end p P) as Q4. cbn [append] in Q4. rewrite Q4, Tc, Ty. reflexivity.
Qed.
Lemma text_app a b : text (a ++ b)%list = text a ++ text b.
Proof. unfold text. rewrite map_app. apply cat_app. Qed.
Lemma text_one l : text [l] = l ++ NLs.
Proof. unfold text. cbn. apply app_e. Qed.
Lemma describes_ok ls es : describes ls es -> forall k r f, header_lines (List.length ls + k) (text ls ++ r) f [] = header_lines k r f (rev es).
Proof.
  induction 1 as [|ls es c H IH N|ls es c H IH N|ls es n m H IH W|ls es n m ps t w p H IH I P|ls es n m ps c wc t w p H IH Ic I P]; intros k r f; [reflexivity|..];
    rewrite app_length, text_app, text_one, !app_as, <- Nat.add_assoc, IH; cbn [List.length Nat.add].
  - rewrite <- (app_as "comment "). apply step_comment; auto.
  - rewrite <- (app_as "obj_info "). apply step_info; auto.
  - replace ("element " ++ n ++ " " ++ show_int (Z.of_nat m) ++ NLs ++ r) with (("element " ++ n ++ " " ++ show_int (Z.of_nat m)) ++ NLs ++ r) by (rewrite !app_as; reflexivity).
    rewrite step_element by auto. rewrite rev_app_distr. reflexivity.
  - replace ("property " ++ w ++ " " ++ p ++ NLs ++ r) with (("property " ++ w ++ " " ++ p) ++ NLs ++ r) by (rewrite !app_as; reflexivity).
    rewrite !rev_app_distr. cbn [rev List.app]. rewrite (step_property k w t p r f _ (rev es) I P). reflexivity.
  - replace ("property list " ++ wc ++ " " ++ w ++ " " ++ p ++ NLs ++ r) with (("property list " ++ wc ++ " " ++ w ++ " " ++ p) ++ NLs ++ r) by (rewrite !app_as; reflexivity).
    rewrite !rev_app_distr. cbn [rev List.app]. rewrite (step_list k wc c w t p r f _ (rev es) Ic I P). reflexivity.
Qed.
Definition format_name (f : format) : string := match f with Text => "ascii" | Little => "binary_little_endian" | Big => "binary_big_endian" end.
(** a whole file *)
Definition ply_file (f : format) (ls : list string) (body : string) : string :=
  "ply" ++ NLs ++ "format " ++ format_name f ++ " 1.0" ++ NLs ++ text ls ++ "end_header" ++ NLs ++ body.
Lemma text_len ls : (List.length ls <= String.length (text ls))%nat.
Proof. induction ls as [|l ls IH]; cbn; auto. fold (text ls). rewrite !len_app. cbn. lia. Qed.
Lemma step_ply k r f es : header_lines (S k) ("ply" ++ NLs ++ r) f es = header_lines k r f es.
Proof. cbn [header_lines]. rewrite getline_ok by reflexivity. reflexivity. Qed.
Lemma step_format k r f es : header_lines (S k) (("format " ++ format_name f ++ " 1.0") ++ NLs ++ r) Text es = header_lines k r f es.
Proof. cbn [header_lines]. rewrite getline_ok by (destruct f; reflexivity). destruct f; reflexivity. Qed.
Lemma step_end k r f es : header_lines (S k) ("end_header" ++ NLs ++ r) f es = Ret (f, es, Some r).
Proof. cbn [header_lines]. rewrite getline_ok by reflexivity. reflexivity. Qed.
Lemma parse_ok f ls es body : describes ls es -> parse_header (ply_file f ls body) = Ret (f, es, Some body).
Proof.
  intros H. unfold parse_header, ply_file. pose proof (text_len ls) as L.
  assert (E : exists k, S (String.length ("ply" ++ NLs ++ "format " ++ format_name f ++ " 1.0" ++ NLs ++ text ls ++ "end_header" ++ NLs ++ body)) = S (S (List.length ls + S k))).
  { rewrite !len_app. exists (String.length "ply" + (1 + (String.length "format " + (String.length (format_name f) + (4 + (1 + (String.length (text ls) + (10 + (1 + String.length body)))))))) - 2 - List.length ls)%nat.
    cbn [String.length NLs]. lia. }
  destruct E as (k & ->). rewrite step_ply.
  replace ("format " ++ format_name f ++ " 1.0" ++ NLs ++ text ls ++ "end_header" ++ NLs ++ body) with (("format " ++ format_name f ++ " 1.0") ++ NLs ++ text ls ++ "end_header" ++ NLs ++ body) by (rewrite !app_as; reflexivity).
  rewrite step_format, (describes_ok ls es H), step_end. cbn [obind]. rewrite rev_involutive. reflexivity.
Qed.
