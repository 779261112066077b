(** Lemmas about CppObjModel: scanning, numbers, growing matrices. *)
From Coq Require Import String Ascii List ZArith Bool Lia DecimalString DecimalZ.
From Verif Require Import TextModel TextProofs CppObjModel.
Import ListNotations.
Open Scope string_scope.

(** * scanning *)
Fixpoint all_blank (s : string) : bool := match s with EmptyString => true | String a r => blank a && all_blank r end.
(** a non-empty string without blanks *)
Definition word (w : string) : Prop := w <> "" /\ mem_char SP w = false /\ mem_char TAB w = false.
(** a string that consists of the given words with blanks before each of them and possibly after the last *)
Inductive spaced : string -> list string -> Prop :=
| sp_end b : all_blank b = true -> spaced b []
| sp_word b w s ws : all_blank b = true -> b <> "" -> word w -> spaced s ws -> spaced (b ++ w ++ s) (w :: ws).

Lemma skip_blank_app b s : all_blank b = true -> skip_blank (b ++ s) = skip_blank s.
Proof. induction b as [|a b IH]; cbn; auto. intros H. apply andb_true_iff in H. destruct H as (-> & H). auto. Qed.
Lemma app_nil_r_s s : s ++ "" = s. Proof. induction s; cbn; congruence. Qed.
Lemma skip_blank_all b : all_blank b = true -> skip_blank b = "".
Proof. intros H. rewrite <- (app_nil_r_s b), skip_blank_app by auto. auto. Qed.
Definition starts_blank (s : string) : Prop := match s with "" => True | String a _ => blank a = true end.
Lemma word_cons a w : mem_char SP (String a w) = false -> mem_char TAB (String a w) = false -> blank a = false /\ mem_char SP w = false /\ mem_char TAB w = false.
Proof. cbn. rewrite !orb_false_iff. unfold blank. intros (A & B) (C & D). rewrite A, C. auto. Qed.
Lemma take_word_app w s : mem_char SP w = false -> mem_char TAB w = false -> starts_blank s -> take_word (w ++ s) = (w, s).
Proof.
  induction w as [|a w IH]; intros H1 H2 S; cbn [append take_word].
  - destruct s as [|a s]; auto. cbn in *. rewrite S. auto.
  - destruct (word_cons _ _ H1 H2) as (-> & H3 & H4). rewrite IH by auto. auto.
Qed.
Lemma skip_word w s : word w -> skip_blank (w ++ s) = w ++ s.
Proof. intros (N & H1 & H2). destruct w as [|a w]; [congruence|]. destruct (word_cons _ _ H1 H2) as (B & _). cbn. rewrite B. auto. Qed.
Lemma spaced_starts s ws : spaced s ws -> starts_blank s.
Proof. intros [b A|b w s' ws' A N _ _]; destruct b as [|a b]; cbn in *; auto; try congruence; apply andb_true_iff in A; apply A. Qed.
Lemma non_space_word b w s ws : all_blank b = true -> word w -> spaced s ws -> non_space (b ++ w ++ s) = (w, s).
Proof. intros A W S. unfold non_space. rewrite skip_blank_app, skip_word by auto. destruct W as (_ & H1 & H2). apply take_word_app; auto. eapply spaced_starts; eauto. Qed.
Lemma non_space_blank b : all_blank b = true -> non_space b = ("", "").
Proof. intros A. unfold non_space. rewrite skip_blank_all by auto. auto. Qed.
Lemma length_app_s a b : String.length (a ++ b) = (String.length a + String.length b)%nat.
Proof. induction a; cbn; congruence. Qed.
Lemma count_ok s ws : spaced s ws -> forall f, (String.length s <= f)%nat -> count_words f s = List.length ws.
Proof.
  induction 1 as [b A|b w s ws A N W S IH]; intros f L.
  - destruct f as [|f]; auto. cbn [count_words]. rewrite non_space_blank by auto. auto.
  - rewrite !length_app_s in L. destruct W as (WN & W') eqn:EW. clear EW. destruct w as [|a w]; [congruence|]. destruct b as [|c b]; [congruence|]. cbn [String.length] in L. destruct f as [|f]; [lia|]. cbn [count_words].
    rewrite (non_space_word _ _ _ _ A (conj WN W') S). cbn [List.length]. rewrite IH by lia. auto.
Qed.
(** reading word by word *)
Lemma next_at_word b w s ws : all_blank b = true -> word w -> spaced s ws -> ws <> [] -> exists b' w' s' ws', ws = w' :: ws' /\ all_blank b' = true /\ word w' /\ spaced s' ws' /\ next_at (b ++ w ++ s) = b' ++ w' ++ s'.
Proof.
  intros A W S NE. unfold next_at. rewrite (non_space_word _ _ _ _ A W S). cbn [snd]. destruct S as [c C|b' w' s' ws' A' N' W' S']; [congruence|]. destruct b' as [|a b']; [congruence|]. cbn in A'. apply andb_true_iff in A'. exists b', w', s', ws'. cbn. repeat split; try apply A'; auto; apply W'.
Qed.

(** * numbers *)
Lemma string_uint_cons u : u <> Decimal.Nil -> NilZero.string_of_uint u = NilEmpty.string_of_uint u.
Proof. destruct u; auto; congruence. Qed.
Ltac dig := match goal with |- context [digit ?c] => let v := eval vm_compute in (digit c) in change (digit c) with v end; cbv beta iota.
Lemma digits_acc u : forall p, digits (Zpos p) (NilEmpty.string_of_uint u) = Zpos (Pos.of_uint_acc u p).
Proof. induction u as [|u IH|u IH|u IH|u IH|u IH|u IH|u IH|u IH|u IH|u IH]; intros p; cbn [NilEmpty.string_of_uint digits Pos.of_uint_acc]; [auto|..]; dig; rewrite <- IH; f_equal; lia. Qed.
Lemma digits_uint u : digits 0 (NilEmpty.string_of_uint u) = Z.of_N (Pos.of_uint u).
Proof. induction u as [|u IH|u IH|u IH|u IH|u IH|u IH|u IH|u IH|u IH|u IH]; cbn [NilEmpty.string_of_uint digits Pos.of_uint]; [auto|..]; dig; [apply IH|..]; cbn [Z.of_N]; rewrite <- digits_acc; f_equal. Qed.
Lemma number_uint u : u <> Decimal.Nil -> number (NilEmpty.string_of_uint u) = Some (Z.of_N (Pos.of_uint u)).
Proof. intros N. rewrite <- digits_uint. destruct u; [congruence| | | | | | | | | |]; reflexivity. Qed.
Lemma digit_first u s : u <> Decimal.Nil -> s = NilEmpty.string_of_uint u -> exists a r, s = String a r /\ is_space a = false /\ Ascii.eqb a "-"%char = false /\ Ascii.eqb a "+"%char = false.
Proof. intros N ->. destruct u; [congruence| | | | | | | | | |]; cbn; eexists _, _; repeat split; reflexivity. Qed.
Lemma stoi_uint u : u <> Decimal.Nil -> (Z.of_N (Pos.of_uint u) <= 2147483647)%Z -> stoi (NilEmpty.string_of_uint u) = Val (Z.of_N (Pos.of_uint u)).
Proof.
  intros N L. destruct (digit_first u _ N eq_refl) as (a & r & E & E1 & E2 & E3). unfold stoi. rewrite E. cbn [skip_space]. rewrite E1, E2, E3, <- E, number_uint by auto.
  unfold int32. replace (-2147483648 <=? _)%Z with true by (symmetry; apply Z.leb_le; lia). replace (_ <=? 2147483647)%Z with true by (symmetry; apply Z.leb_le; lia). auto.
Qed.
Lemma stoi_show z : int32 z = true -> stoi (show_int z) = Val z.
Proof.
  intros B. pose proof B as B'. unfold int32 in B. apply andb_true_iff in B. destruct B as (B1 & B2). apply Z.leb_le in B1, B2. unfold show_int.
  assert (Q : Z.of_int (Z.to_int z) = z) by apply DecimalZ.of_to. unfold NilZero.string_of_int. destruct (Z.to_int z) as [u|u] eqn:E.
  - destruct (Decimal.uint_eq_dec u Decimal.Nil) as [->|N].
    + cbn in *. rewrite <- Q. reflexivity.
    + rewrite string_uint_cons by auto. cbn in Q. rewrite stoi_uint by (auto; unfold Z.of_uint in Q; lia). unfold Z.of_uint in Q. rewrite Q. auto.
  - cbn in Q. unfold Z.of_uint in Q. assert (N : u <> Decimal.Nil) by (intros ->; destruct z as [|p|p]; cbn in E; try discriminate; injection E as E; exact (DecimalPos.Unsigned.to_uint_nonnil p E)). rewrite string_uint_cons by auto. set (t := NilEmpty.string_of_uint u). unfold stoi. change (skip_space (String "-" t)) with (String "-" t). unfold t. cbv beta iota zeta. change (Ascii.eqb "-" "-") with true. cbv iota.
    rewrite number_uint by auto. cbn [option_map]. rewrite Q, B'. auto.
Qed.
Lemma to_int_show z : int32 z = true -> it_to_int (show_int z) = Some (z - 1)%Z.
Proof. intros B. unfold it_to_int. rewrite stoi_show by auto. auto. Qed.
Lemma cut_clean s : mem_char SLASH s = false -> cut s = (s, None).
Proof. induction s as [|a s IH]; cbn; auto. intros H. apply orb_false_iff in H. destruct H as (-> & H). rewrite IH by auto. auto. Qed.
Lemma cut_app s r : mem_char SLASH s = false -> cut (s ++ String SLASH r) = (s, Some r).
Proof. induction s as [|a s IH]; cbn [append]; intros H; [reflexivity|]. cbn in H. apply orb_false_iff in H. destruct H as (A & H). cbn. rewrite A, IH by auto. auto. Qed.

(** * matrices *)
Definition width {A} (k : nat) (X : list (list A)) : Prop := Forall (fun r => List.length r = k) X.
(** the first n rows are in use and are X *)
Definition holds {A} (k : nat) (M : mat A) (n : nat) (X : list (list A)) : Prop :=
  (X = [] /\ M = empty /\ n = 0%nat) \/ (X <> [] /\ n = List.length X /\ firstn n (rws M) = X /\ (n <= nrows M)%nat /\ mcols M = k /\ width k (rws M)).
Lemma nrows_resize {A} (j : A) r c M : nrows (resize j r c M) = r.
Proof. unfold nrows, resize. cbn [rws]. rewrite app_length, firstn_length, map_length, repeat_length. unfold nrows. lia. Qed.
Lemma map_same {A} (f : A -> A) l : (forall x, In x l -> f x = x) -> map f l = l.
Proof. induction l as [|a l IH]; intros H; cbn; auto. rewrite H, IH by (try (intros; apply H); cbn; auto). auto. Qed.
Lemma rws_resize {A} (j : A) r k M : width k (rws M) -> rws (resize j r k M) = List.app (firstn r (rws M)) (repeat (repeat j k) (r - nrows M)).
Proof. intros W. unfold resize. cbn [rws]. rewrite map_same; auto. intros x I. eapply Forall_forall in W; eauto. cbn in W. rewrite firstn_all2, W, Nat.sub_diag by lia. apply app_nil_r. Qed.
Lemma width_resize {A} (j : A) r k M : width k (rws M) -> width k (rws (resize j r k M)).
Proof. intros W. rewrite rws_resize by auto. apply Forall_app. split; [apply Forall_forall; intros x I; eapply Forall_forall in W; [apply W|]; rewrite <- (firstn_skipn r (rws M)); apply in_app_iff; auto|]. apply Forall_forall. intros x I. apply repeat_spec in I. subst. apply repeat_length. Qed.
Lemma firstn_resize {A} (j : A) r k M n : width k (rws M) -> (n <= r)%nat -> (n <= nrows M)%nat -> firstn n (rws (resize j r k M)) = firstn n (rws M).
Proof. intros W L1 L2. rewrite rws_resize by auto. rewrite firstn_app. rewrite firstn_firstn, Nat.min_l by lia. rewrite firstn_length. unfold nrows in L2. replace (n - Nat.min r (List.length (rws M)))%nat with 0%nat by lia. apply app_nil_r. Qed.
Lemma put_first {A} i (row : list A) M X : i = List.length X -> firstn i (rws M) = X -> firstn (Datatypes.S i) (rws (put i row M)) = List.app X [row].
Proof. intros -> E. unfold put. cbn [rws]. rewrite E. replace (Datatypes.S (List.length X)) with (List.length X + 1)%nat by lia. rewrite firstn_app_2. auto. Qed.
Lemma put_rows {A} i (row : list A) M : (i < nrows M)%nat -> nrows (put i row M) = nrows M.
Proof. unfold nrows, put. cbn [rws]. intros L. rewrite app_length. cbn [List.length]. rewrite firstn_length, skipn_length. lia. Qed.
Lemma put_width {A} k i (row : list A) M : width k (rws M) -> List.length row = k -> width k (rws (put i row M)).
Proof.
  intros W L. unfold put. cbn [rws]. unfold width in *. rewrite Forall_forall in *. intros x I. apply in_app_iff in I. destruct I as [I|[<-|I]]; auto; apply W.
  - rewrite <- (firstn_skipn i (rws M)). apply in_app_iff; auto.
  - rewrite <- (firstn_skipn (Datatypes.S i) (rws M)). apply in_app_iff; auto.
Qed.
Lemma holds_size0 {A} k M n (X : list (list A)) : (1 <= k)%nat -> holds k M n X -> size0 M = match X with [] => true | _ => false end.
Proof.
  intros K [(-> & -> & ->)|(N & E & F & L & C & W)]; [reflexivity|]. destruct X as [|x X]; [congruence|]. unfold size0. destruct (Nat.eqb_spec (nrows M) 0); [cbn in E; lia|]. destruct (Nat.eqb_spec (mcols M) 0); [lia|]. auto.
Qed.
(** adding a row: the first, or a later one with doubling *)
Definition grown {A} (j : A) (M : mat A) (n : nat) : mat A := if Nat.ltb (nrows M) (Datatypes.S n) then resize j (2 * nrows M) (mcols M) M else M.
Lemma holds_first {A} (j : A) k row : List.length row = k -> holds k (put 0 row (resize j 1 k empty)) 1 [row].
Proof.
  intros L. right. split; [discriminate|]. split; [auto|]. assert (W : width k (rws (@empty A))) by constructor. split; [|split; [|split; [reflexivity|]]].
  - apply (put_first 0 row _ []); auto.
  - rewrite put_rows; rewrite nrows_resize; lia.
  - apply put_width; auto. apply width_resize. auto.
Qed.
Lemma holds_next {A} (j : A) k M n X row : X <> [] -> holds k M n X -> List.length row = k -> holds k (put n row (grown j M n)) (Datatypes.S n) (List.app X [row]).
Proof.
  intros NX [(-> & _)|(_ & E & F & L & C & W)] R; [congruence|]. assert (P : (0 < List.length X)%nat) by (destruct X; cbn; [congruence|lia]). right. split; [destruct X; discriminate|]. split; [rewrite app_length; cbn; lia|].
  assert (G : (n < nrows (grown j M n))%nat /\ firstn n (rws (grown j M n)) = X /\ width k (rws (grown j M n)) /\ mcols (grown j M n) = k).
  { unfold grown. destruct (Nat.ltb_spec (nrows M) (Datatypes.S n)); [|repeat split; auto; lia]. rewrite nrows_resize, C. repeat split; [lia|rewrite firstn_resize; auto; lia|apply width_resize; auto]. }
  destruct G as (G1 & G2 & G3 & G4). split; [apply put_first; auto|]. split; [rewrite put_rows; lia|]. split; [exact G4|apply put_width; auto].
Qed.
Lemma shrink_ok {A} (j : A) k M n X : holds k M n X -> rws (shrink j n M) = X.
Proof.
  intros [(-> & -> & ->)|(N & E & F & L & C & W)]; [reflexivity|]. unfold shrink. destruct (Nat.ltb_spec n (nrows M)).
  - rewrite C, rws_resize by auto. replace (n - nrows M)%nat with 0%nat by lia. cbn [repeat]. rewrite app_nil_r. auto.
  - rewrite firstn_all2 in F; auto.
Qed.
