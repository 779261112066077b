(** C58: read_dmat *)
From Coq Require Import String Ascii List ZArith Bool Lia.
From Verif Require Import PyExn TextModel TextProofs DmatModel.
Import ListNotations.
Open Scope string_scope.

(** token without blanks *)
Fixpoint no_blank (s : string) : bool := match s with EmptyString => true | String a r => negb (is_blank a) && no_blank r end.
Definition token_ok {Val} (show : Val -> string) (parse : string -> option Val) := forall v, parse (show v) = Some v /\ no_blank (show v) = true.
(** the file formats: one value per line after the header; raw 8-byte chunks after two headers *)
Definition size_line (cols rows : nat) : string := show_int (Z.of_nat cols) ++ " " ++ show_int (Z.of_nat rows) ++ String NL EmptyString.
Definition ascii_file {Val} (show : Val -> string) (cols rows : nat) (vals : list Val) : string :=
  size_line cols rows ++ cat (map (fun v => show v ++ String NL EmptyString) vals).
Definition binary_file (cols rows : nat) (chunks : list string) : string := size_line 0 0 ++ size_line cols rows ++ cat chunks.

Lemma sapp_assoc (a b c : string) : (a ++ b) ++ c = a ++ (b ++ c).
Proof. induction a; cbn; congruence. Qed.
Lemma readline_app l s : mem_char NL l = false -> readline (l ++ String NL s) = (l, s).
Proof. induction l as [|a l IH]; cbn [append readline]; [reflexivity|]. cbn [mem_char]. intros H. apply orb_false_elim in H as [A B]. rewrite A, IH by auto. reflexivity. Qed.
Lemma blank_nl a : is_blank a = false -> Ascii.eqb a NL = false.
Proof. intros H. destruct (Ascii.eqb_spec a NL) as [ -> |]; auto; try discriminate. Qed.
Lemma no_blank_nl s : no_blank s = true -> mem_char NL s = false.
Proof. induction s as [|a s IH]; cbn [no_blank mem_char]; auto. intros H. apply andb_prop in H as [A B]. rewrite IH by auto. rewrite blank_nl; auto. destruct (is_blank a); auto; discriminate. Qed.
Lemma lstrip_id s : match s with String a _ => is_blank a = false | EmptyString => True end -> lstrip s = s.
Proof. destruct s; cbn; auto. intros ->. reflexivity. Qed.
Lemma rstrip_id s a : is_blank a = false -> rstrip (s ++ String a EmptyString) = s ++ String a EmptyString.
Proof. intros H. induction s as [|b s IH]; cbn [append rstrip]; [rewrite H; reflexivity|]. rewrite IH. destruct s; reflexivity. Qed.
Lemma rstrip_clean s : no_blank s = true -> rstrip s = s.
Proof. induction s as [|a s IH]; cbn [no_blank rstrip]; auto. intros H. apply andb_prop in H as [A B]. rewrite IH by auto. destruct s; auto. destruct (is_blank a); auto; discriminate. Qed.
Lemma strip_clean s : no_blank s = true -> strip s = s.
Proof. intros H. unfold strip. rewrite lstrip_id; [apply rstrip_clean; auto|]. destruct s; auto. cbn [no_blank] in H. apply andb_prop in H as [A _]. destruct (is_blank a); auto; discriminate. Qed.
Lemma rstrip_app_clean s t : no_blank t = true -> t <> EmptyString -> rstrip (s ++ t) = s ++ t.
Proof.
  intros H N. induction s as [|b s IH]; cbn [append]; [apply rstrip_clean; auto|]. cbn [rstrip]. rewrite IH. destruct s; cbn [append]; auto. destruct t; auto. contradiction.
Qed.
Lemma show_int_no_blank z : no_blank (show_int z) = true.
Proof.
  assert (M : forall s, (forall a, is_blank a = true -> mem_char a s = false) -> no_blank s = true).
  { induction s as [|b s IH]; intros H; cbn [no_blank]; auto. rewrite IH.
    - destruct (is_blank b) eqn:E; auto. specialize (H b E). cbn [mem_char] in H. rewrite Ascii.eqb_refl in H. discriminate.
    - intros a A. specialize (H a A). cbn [mem_char] in H. apply orb_false_elim in H. tauto. }
  apply M. intros a A. unfold is_blank in A. apply existsb_exists in A as (b & IN & E). apply Ascii.eqb_eq in E. subst b.
  apply show_int_chars; [|intros ->; cbn in IN; repeat (destruct IN as [E|IN]; [discriminate|]); auto].
  left. cbn in IN. repeat (destruct IN as [ <- |IN]; [vm_compute; lia|]). contradiction.
Qed.
Lemma header_line c r : header (show_int c ++ " " ++ show_int r) = Ok (c, r).
Proof.
  unfold header. assert (N : forall z, show_int z <> EmptyString) by (intros z E; pose proof (show_int_nonempty z) as Q; rewrite E in Q; discriminate).
  assert (S1 : strip (show_int c ++ " " ++ show_int r) = show_int c ++ " " ++ show_int r).
  { unfold strip. rewrite lstrip_id.
    - rewrite <- sapp_assoc. apply rstrip_app_clean; auto. apply show_int_no_blank.
    - pose proof (show_int_no_blank c) as H. pose proof (N c). destruct (show_int c); [contradiction|]. cbn [append]. cbn [no_blank] in H. apply andb_prop in H as [A _]. destruct (is_blank a); auto; discriminate. }
  rewrite S1. change (" " ++ show_int r) with (String SP (join SP [show_int r])).
  assert (SPC : forall z, mem_char SP (show_int z) = false) by (intros; apply show_int_chars; [left; vm_compute; lia|discriminate]).
  rewrite fields_row; auto using show_int_nonempty; try (constructor; auto using show_int_nonempty). rewrite !parse_show. reflexivity.
Qed.
Lemma header_clean c r : mem_char NL (show_int c ++ " " ++ show_int r) = false.
Proof. rewrite !mem_app. rewrite !(no_blank_nl (show_int _)) by apply show_int_no_blank. reflexivity. Qed.
Lemma size_line_read c r s : readline (size_line c r ++ s) = (show_int (Z.of_nat c) ++ " " ++ show_int (Z.of_nat r), s).
Proof.
  unfold size_line. rewrite <- (sapp_assoc " "), <- (sapp_assoc (show_int (Z.of_nat c))), (sapp_assoc _ (String NL EmptyString) s). cbn [append]. rewrite readline_app; [rewrite ?sapp_assoc; reflexivity|]. apply header_clean.
Qed.

Section Loop.
Context {Val : Type}.
Variable next : string -> res (Val * string).
Variable enc : list Val -> string.
Hypothesis step : forall v vs, next (enc (v :: vs)) = Ok (v, enc vs).
Lemma row_ok is j d vs rest : NoDup is -> List.length vs = List.length is ->
  exists d', row_loop next is j d (enc (app vs rest)) = Ok (d', enc rest) /\
   (forall k, (k < List.length is)%nat -> d' (nth k is 0%nat) j = nth_error vs k) /\ (forall i' j', (j' <> j \/ ~ In i' is) -> d' i' j' = d i' j').
Proof.
  revert d vs. induction is as [|i is IH]; intros d [|v vs] ND L; try discriminate.
  - exists d. cbn. repeat split; auto. intros; lia.
  - cbn [row_loop app]. rewrite step. cbn [bind]. inversion ND; subst. destruct (IH (assign d i j v) vs) as (d' & E & A & B); auto. exists d'. split; [exact E|]. split.
    + intros [|k] K; cbn [nth nth_error]; [|apply A; cbn in K; lia]. rewrite B by auto. unfold assign. rewrite !Nat.eqb_refl. reflexivity.
    + intros i' j' N. rewrite B by (destruct N; auto; right; intros Q; apply H; right; auto). unfold assign. destruct (Nat.eqb_spec i' i), (Nat.eqb_spec j' j); cbn; auto. subst. exfalso. destruct N as [N|N]; auto. apply N. left; auto.
Qed.
Lemma col_ok rows js d vs rest : NoDup js -> List.length vs = (rows * List.length js)%nat ->
  exists d', col_loop next rows js d (enc (app vs rest)) = Ok (d', enc rest) /\
   (forall k i, (k < List.length js)%nat -> (i < rows)%nat -> d' i (nth k js 0%nat) = nth_error vs (k * rows + i)) /\ (forall i' j', ~ In j' js -> d' i' j' = d i' j').
Proof.
  revert d vs. induction js as [|j js IH]; intros d vs ND L.
  - destruct vs; [|cbn in L; lia]. exists d. cbn. repeat split; auto. intros; lia.
  - inversion ND; subst. cbn [List.length] in L. set (a := firstn rows vs). set (b := skipn rows vs). assert (V : vs = app a b) by (symmetry; apply firstn_skipn).
    assert (LA : List.length a = rows) by (unfold a; apply firstn_length_le; lia).
    cbn [col_loop]. rewrite V, <- app_assoc. destruct (row_ok (seq 0 rows) j d a (app b rest)) as (d1 & E1 & A1 & B1); [apply seq_NoDup|rewrite seq_length; auto|]. rewrite E1. cbn [bind].
    destruct (IH d1 b) as (d2 & E2 & A2 & B2); auto; [unfold b; rewrite skipn_length; lia|]. exists d2. split; [exact E2|]. split.
    + intros [|k] i K Ii; cbn [nth].
      * rewrite B2 by auto. cbn [Nat.mul Nat.add]. rewrite nth_error_app1 by lia. rewrite <- (A1 i) by (rewrite seq_length; lia). rewrite seq_nth by lia. reflexivity.
      * rewrite A2 by (cbn in K; lia). rewrite nth_error_app2 by (cbn; lia). f_equal. rewrite LA. cbn. lia.
    + intros i' j' N. rewrite B2 by (intros Q; apply N; right; auto). apply B1. left. intros ->. apply N. left; auto.
Qed.
Lemma fill_ok (rows cols : nat) vs rest : List.length vs = (rows * cols)%nat ->
  exists d, fill next (Z.of_nat rows) (Z.of_nat cols) (enc (app vs rest)) = Ok (rows, cols, d) /\ forall i j, (i < rows)%nat -> (j < cols)%nat -> d i j = nth_error vs (j * rows + i).
Proof.
  intros L. unfold fill. destruct (Z.ltb_spec (Z.of_nat rows) 0); [lia|]. destruct (Z.ltb_spec (Z.of_nat cols) 0); [lia|]. cbn [orb]. rewrite !Nat2Z.id.
  destruct (col_ok rows (seq 0 cols) (fun _ _ => None) vs rest) as (d & E & A & _); [apply seq_NoDup|rewrite seq_length; auto|]. rewrite E. cbn [bind]. exists d. split; auto. intros i j Hi Hj.
  rewrite <- (A j i) by (auto; rewrite seq_length; auto). rewrite seq_nth by auto. reflexivity.
Qed.
End Loop.

(** ASCII: entry (i,j) is the (j*rows+i)-th value *)
Theorem C58_ascii : forall (Val : Type) (show : Val -> string) (parse unpack : string -> option Val) cols rows vals, token_ok show parse ->
  (cols <> 0 \/ rows <> 0)%nat -> List.length vals = (rows * cols)%nat ->
  exists d, read_dmat parse unpack (ascii_file show cols rows vals) = Ok (rows, cols, d) /\
   forall i j, (i < rows)%nat -> (j < cols)%nat -> d i j = nth_error vals (j * rows + i) /\ d i j <> None.
Proof.
  intros Val show parse unpack cols rows vals T NZ L. unfold read_dmat, ascii_file. rewrite size_line_read, header_line. cbn [bind].
  replace ((Z.of_nat cols =? 0) && (Z.of_nat rows =? 0))%Z with false by (destruct (Z.eqb_spec (Z.of_nat cols) 0), (Z.eqb_spec (Z.of_nat rows) 0); auto; lia).
  destruct (fill_ok (next_ascii parse) (fun vs => cat (map (fun v => show v ++ String NL EmptyString) vs))) with (rows := rows) (cols := cols) (vs := vals) (rest := @nil Val) as (d & E & A); auto.
  - intros v vs. cbn [map cat]. unfold next_ascii. rewrite sapp_assoc. cbn [append]. destruct (T v) as [P N]. rewrite readline_app by (apply no_blank_nl; auto). rewrite strip_clean, P by auto. reflexivity.
  - rewrite app_nil_r in E. exists d. split; [exact E|]. intros i j Hi Hj. rewrite A by auto. split; auto. apply nth_error_Some. nia.
Qed.
Print Assumptions C58_ascii.
Lemma readn_exact k c s : String.length c = k -> readn k (c ++ s) = (c, s).
Proof. revert c. induction k as [|k IH]; intros [|a c] L; try discriminate; cbn [readn append]; auto. rewrite IH by (cbn in L; lia). reflexivity. Qed.
(** binary: same layout, 8 bytes per value *)
Theorem C58_binary : forall (Val : Type) (pack : Val -> string) (parse unpack : string -> option Val) cols rows vals, (forall v, unpack (pack v) = Some v /\ String.length (pack v) = 8%nat) ->
  List.length vals = (rows * cols)%nat ->
  exists d, read_dmat parse unpack (binary_file cols rows (map pack vals)) = Ok (rows, cols, d) /\
   forall i j, (i < rows)%nat -> (j < cols)%nat -> d i j = nth_error vals (j * rows + i) /\ d i j <> None.
Proof.
  intros Val pack parse unpack cols rows vals T L. unfold read_dmat, binary_file. rewrite size_line_read, header_line. cbn [bind Z.of_nat Z.eqb andb]. rewrite size_line_read, header_line. cbn [bind].
  destruct (fill_ok (next_binary unpack) (fun vs => cat (map pack vs))) with (rows := rows) (cols := cols) (vs := vals) (rest := @nil Val) as (d & E & A); auto.
  - intros v vs. cbn [map cat]. unfold next_binary. destruct (T v) as [P N]. rewrite readn_exact, P by auto. reflexivity.
  - rewrite app_nil_r in E. exists d. split; [exact E|]. intros i j Hi Hj. rewrite A by auto. split; auto. apply nth_error_Some. nia.
Qed.
Print Assumptions C58_binary.
(** an ASCII file of an empty 0x0 matrix is mistaken for a binary one and rejected *)
Theorem C58_ascii_empty_rejected : forall (Val : Type) (show : Val -> string) (parse unpack : string -> option Val), read_dmat parse unpack (ascii_file show 0 0 (@nil Val)) = Err ValueError.
Proof. intros. reflexivity. Qed.
(** a file with too few values is rejected when the empty string is not a number *)
Example C58_nonvacuous : token_ok show_int parse_int /\ (match read_dmat parse_int (fun _ => None) (ascii_file show_int 3 2 [1;2;3;4;5;6]%Z) with Ok (r, c, d) => (r, c, d 0%nat 0%nat, d 1%nat 0%nat, d 0%nat 1%nat, d 1%nat 2%nat) | Err _ => (0, 0, None, None, None, None)%nat end) = (2, 3, Some 1%Z, Some 2%Z, Some 3%Z, Some 6%Z)%nat.
Proof. split; [|reflexivity]. intros v. split; [apply parse_show|apply show_int_no_blank]. Qed.
