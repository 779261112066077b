From Coq Require Import String Ascii List ZArith Bool Lia DecimalString DecimalPos DecimalZ DecimalFacts.
From Verif Require Import TextModel.
Import ListNotations.
Open Scope string_scope.

Lemma mem_app c a b : mem_char c (a ++ b) = mem_char c a || mem_char c b.
Proof. induction a; cbn; auto. rewrite IHa. apply orb_assoc. Qed.
Lemma split_clean c s : mem_char c s = false -> split_on c s = [s].
Proof.
  induction s as [|a s IH]; cbn; auto. intros H. apply orb_false_elim in H as [A B]. rewrite A, IH by auto. reflexivity.
Qed.
Lemma split_app c a s : mem_char c a = false -> split_on c (a ++ String c s) = a :: split_on c s.
Proof.
  induction a as [|x a IH]; cbn.
  - intros _. rewrite Ascii.eqb_refl. reflexivity.
  - intros H. apply orb_false_elim in H as [A B]. rewrite A, IH by auto. reflexivity.
Qed.
Lemma split_join c xs : xs <> [] -> Forall (fun s => mem_char c s = false) xs -> split_on c (join c xs) = xs.
Proof.
  induction xs as [|x [|y r] IH]; intros N H; [contradiction| |].
  - inversion H; subst. apply split_clean; auto.
  - inversion H as [|? ? Hx Hr]; subst. change (join c (x :: y :: r)) with (x ++ String c (join c (y :: r))). rewrite split_app by auto. f_equal. apply IH; auto; discriminate.
Qed.
Lemma split_lines c ls : Forall (fun s => mem_char c s = false) ls -> split_on c (cat (map (fun l => l ++ String c EmptyString) ls)) = List.app ls [EmptyString].
Proof.
  induction 1 as [|l ls H F IH]; cbn [map cat app]; [reflexivity|].
  replace ((l ++ String c "") ++ cat (map (fun l0 => l0 ++ String c "") ls)) with (l ++ String c (cat (map (fun l0 => l0 ++ String c "") ls))).
  - rewrite split_app by auto. rewrite IH. reflexivity.
  - clear. induction l; cbn; congruence.
Qed.
Lemma cat_app a b : cat (List.app a b) = cat a ++ cat b.
Proof. induction a as [|x a IH]; cbn; auto. rewrite IH. clear. induction x; cbn; congruence. Qed.
Lemma filter_all {A} (f : A -> bool) l : Forall (fun x => f x = true) l -> filter f l = l.
Proof. induction 1; cbn; auto. rewrite H. congruence. Qed.
Lemma fields_row i xs : mem_char SP i = false -> nonempty i = true -> Forall (fun s => mem_char SP s = false) xs -> Forall (fun s => nonempty s = true) xs ->
  fields (i ++ String SP (join SP xs)) = i :: xs.
Proof.
  intros A B C D. unfold fields. rewrite split_app by auto. cbn [filter]. rewrite B. f_equal. destruct xs as [|x xs]; [reflexivity|]. rewrite split_join by (auto; discriminate). apply filter_all. auto.
Qed.
Lemma mem_join c d xs : d <> c -> Forall (fun s => mem_char c s = false) xs -> mem_char c (join d xs) = false.
Proof.
  intros N. induction xs as [|x [|y r] IH]; intros H; [reflexivity|inversion H; auto|]. inversion H; subst. change (join d (x :: y :: r)) with (x ++ String d (join d (y :: r))). rewrite mem_app. cbn [mem_char]. rewrite IH by auto.
  destruct (Ascii.eqb_spec d c); [contradiction|]. cbn [orb]. rewrite orb_false_r. auto.
Qed.
(** decimal integers *)
Lemma parse_show z : parse_int (show_int z) = Some z.
Proof.
  unfold parse_int, show_int. rewrite NilZero.isi.
  - cbn. f_equal. apply DecimalZ.of_to.
  - destruct z; cbn; try discriminate; intros E; injection E; apply DecimalPos.Unsigned.to_uint_nonnil.
  - destruct z; cbn; try discriminate; intros E; injection E; apply DecimalPos.Unsigned.to_uint_nonnil.
Qed.
Lemma uint_chars c u : (nat_of_ascii c < 48 \/ 57 < nat_of_ascii c)%nat -> mem_char c (NilEmpty.string_of_uint u) = false.
Proof.
  intros H. induction u; cbn [NilEmpty.string_of_uint mem_char]; auto; rewrite IHu, orb_false_r; match goal with |- (?a =? c)%char = false => destruct (Ascii.eqb_spec a c) as [E|]; auto; subst c; cbn in H; lia end.
Qed.
Lemma show_int_chars c z : (nat_of_ascii c < 48 \/ 57 < nat_of_ascii c)%nat -> c <> "-"%char -> mem_char c (show_int z) = false.
Proof.
  intros H N. assert (U : forall u, mem_char c (NilZero.string_of_uint u) = false).
  { intros u. destruct u; try (match goal with |- mem_char _ (NilZero.string_of_uint ?d) = _ => exact (uint_chars c d H) end). change (Ascii.eqb "0" c || false = false). destruct (Ascii.eqb_spec "0" c) as [E|]; auto. subst c. cbn in H. lia. }
  unfold show_int. destruct (Z.to_int z) as [u|u]; cbn [NilZero.string_of_int]; [apply U|]. cbn [mem_char]. rewrite U, orb_false_r. destruct (Ascii.eqb_spec "-" c); congruence.
Qed.
Lemma show_int_nonempty z : nonempty (show_int z) = true.
Proof.
  unfold show_int. destruct (Z.to_int z) as [u|u]; cbn [NilZero.string_of_int]; [|reflexivity]. destruct u; reflexivity.
Qed.
