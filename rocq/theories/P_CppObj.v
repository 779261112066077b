(** C94: the C++ OBJ reader and writer. *)
From Coq Require Import String Ascii List ZArith Bool Lia.
From Verif Require Import PyExn TextModel TextProofs ObjModel P_Obj CppObjModel CppObjProofs.
Import ListNotations.
Open Scope string_scope.

(** * Specification: what an OBJ text says *)
(** a corner of a face, with 1-based numbers: v, v/vt, v//vn or v/vt/vn *)
Definition corner3 : Type := Z * option Z * option Z.
Definition corner_text (c : corner3) : string :=
  match c with
  | (a, None, None) => show_int a
  | (a, Some b, None) => show_int a ++ "/" ++ show_int b
  | (a, None, Some c) => show_int a ++ "//" ++ show_int c
  | (a, Some b, Some c) => show_int a ++ "/" ++ show_int b ++ "/" ++ show_int c
  end.
(** a line: a vertex, texture or normal line with its words, a face line with its corners, anything else *)
Inductive item := IV (ws : list string) | IT (ws : list string) | IN (ws : list string) | IF (cs : list corner3) | IO.
Definition other (line : string) : Prop :=
  match line with
  | "" => True
  | String a "" => a <> "v"%char /\ a <> "f"%char
  | String a (String b _) => (a = "v"%char -> b <> " "%char /\ b <> "t"%char /\ b <> "n"%char) /\ (a = "f"%char -> b <> " "%char)
  end.
Definition line_is (it : item) (line : string) : Prop :=
  match it with
  | IV ws => exists s, line = "v " ++ s /\ spaced (" " ++ s) ws
  | IT ws => exists s, line = "vt" ++ s /\ spaced s ws
  | IN ws => exists s, line = "vn" ++ s /\ spaced s ws
  | IF cs => exists s, line = "f " ++ s /\ spaced (" " ++ s) (map corner_text cs)
  | IO => other line
  end.
(** the numbers of a corner fit into an int *)
Definition small (z : Z) : Prop := (-2147483648 <= z <= 2147483647)%Z.
Definition small_corner (c : corner3) : Prop := let '(a, b, n) := c in small a /\ match b with Some z => small z | None => True end /\ match n with Some z => small z | None => True end.
Definition vertices (l : list item) : list (list string) := flat_map (fun it => match it with IV ws => [ws] | _ => [] end) l.
Definition textures (l : list item) : list (list string) := flat_map (fun it => match it with IT ws => [ws] | _ => [] end) l.
Definition normals (l : list item) : list (list string) := flat_map (fun it => match it with IN ws => [ws] | _ => [] end) l.
Definition faces (l : list item) : list (list corner3) := flat_map (fun it => match it with IF cs => [cs] | _ => [] end) l.
(** 0-based; -1 if the corner has no such number *)
Definition zero_based (z : option Z) : Z := match z with Some z => (z - 1)%Z | None => (-1)%Z end.

Lemma F2_length {A B} (R : A -> B -> Prop) l m : Forall2 R l m -> List.length l = List.length m.
Proof. induction 1; cbn; congruence. Qed.
Section Read.
Context {Num : Type}.
Variable stod : string -> conv Num.
Variables nan junk : Num.
Variable junkZ : Z.
Notation read_obj := (read_obj stod nan junk junkZ).
(** the number a word stands for: words that are no number stand for nan *)
Definition reads (w : string) (x : Num) : Prop := stod w = Val x \/ (stod w = Invalid /\ x = nan).
(** lines of one kind have the same, positive, number of words, none of them out of range *)
Definition uniform (L : list (list string)) : Prop := exists k, (1 <= k)%nat /\ forall ws, In ws L -> List.length ws = k /\ forall w, In w ws -> stod w <> Range.

Lemma reads_ok w : stod w <> Range -> exists x, tup_it_to_double stod nan w = Some x /\ reads w x.
Proof. unfold tup_it_to_double, reads. destruct (stod w); intros H; [eauto|eauto|congruence]. Qed.
Lemma read_row_lead ws : forall b w s, all_blank b = true -> word w -> spaced s ws -> (forall v, In v (w :: ws) -> stod v <> Range) ->
  exists row, read_row stod nan (Datatypes.S (List.length ws)) (b ++ w ++ s) = Some row /\ Forall2 reads (w :: ws) row.
Proof.
  induction ws as [|w' ws IH]; intros b w s A W S NR; destruct (reads_ok w) as (x & X & RX); try (apply NR; cbn; auto); cbn [List.length read_row]; rewrite (non_space_word _ _ _ _ A W S); cbn [fst]; rewrite X.
  - exists [x]. split; [reflexivity|]. constructor; [auto|constructor].
  - destruct (next_at_word _ _ _ _ A W S) as (b' & w2 & s' & ws' & E & A' & W' & S' & ->); [discriminate|]. injection E as <- <-. destruct (IH b' w' s' A' W' S') as (row & R & F); [intros; apply NR; cbn in *; tauto|].
    cbn [List.length read_row] in R. rewrite R. exists (x :: row). auto.
Qed.
Lemma read_row_ok s ws : spaced s ws -> (forall v, In v ws -> stod v <> Range) -> exists row, read_row stod nan (List.length ws) s = Some row /\ Forall2 reads ws row.
Proof. intros [b A|b w s' ws' A N W S] NR; [exists []; auto|]. apply read_row_lead; auto. Qed.
Lemma num_line_ok k M n X s ws : (1 <= k)%nat -> holds k M n X -> spaced s ws -> List.length ws = k -> (forall v, In v ws -> stod v <> Range) ->
  exists row M' n', num_line stod nan junk (M, n) s = Ret (M', n') /\ Forall2 reads ws row /\ holds k M' n' (List.app X [row]).
Proof.
  intros K H S L NR. destruct (read_row_ok s ws S NR) as (row & R & F). pose proof (F2_length _ _ _ F) as LR. unfold num_line. rewrite (holds_size0 k M n X K H). destruct X as [|x X].
  - destruct H as [(_ & -> & ->)|(N & _)]; [|congruence]. unfold count_non_spaces. rewrite (count_ok s ws S) by lia. cbn [resize mcols]. rewrite R. eexists row, _, _. split; [reflexivity|]. split; [auto|]. rewrite L. apply holds_first. congruence.
  - change (if Nat.ltb (nrows M) (Datatypes.S n) then resize junk (2 * nrows M) (mcols M) M else M) with (grown junk M n).
    assert (C : mcols (grown junk M n) = k) by (destruct H as [(Q & _)|(_ & _ & _ & _ & C & _)]; [discriminate|]; unfold grown; destruct (Nat.ltb _ _); auto).
    rewrite C, <- L, R. eexists row, _, _. split; [reflexivity|]. split; [auto|]. cbn [Nat.sub]. rewrite Nat.sub_0_r. apply holds_next; auto; [discriminate|congruence].
Qed.

Lemma small_int32 z : small z -> int32 z = true.
Proof. intros (A & B). unfold int32. apply andb_true_iff. split; apply Z.leb_le; auto. Qed.
Lemma no_slash z : mem_char SLASH (show_int z) = false.
Proof. apply show_int_chars; [vm_compute; lia|discriminate]. Qed.
Lemma no_sp z : mem_char SP (show_int z) = false.
Proof. apply show_int_chars; [vm_compute; lia|discriminate]. Qed.
Lemma no_tab z : mem_char TAB (show_int z) = false.
Proof. apply show_int_chars; [vm_compute; lia|discriminate]. Qed.
Lemma show_ne z : show_int z <> "".
Proof. intros E. pose proof (show_int_nonempty z) as H. rewrite E in H. discriminate. Qed.
Lemma corner_word c : word (corner_text c).
Proof.
  destruct c as ((a & [b|]) & [c|]); unfold corner_text, word; rewrite ?mem_app; cbn [mem_char append]; rewrite ?mem_app; cbn [mem_char append]; rewrite ?mem_app, ?no_sp, ?no_tab; cbn [mem_char append orb]; rewrite ?no_sp, ?no_tab; (split; [|split; reflexivity]); pose proof (show_ne a); destruct (show_int a); try congruence; discriminate.
Qed.
Lemma corner_ok u nn c : small_corner c -> corner u nn (corner_text c) (-1) (-1) = Some (fst (fst c) - 1, if u then zero_based (snd (fst c)) else -1, if nn then zero_based (snd c) else -1)%Z.
Proof.
  intros S. destruct c as ((a & b) & n). destruct S as (SA & SB & SC). cbn [fst snd]. assert (NS := fun z => show_int_nonempty z).
  destruct b as [b|], n as [n|]; unfold corner, corner_text; cbn [append].
  - rewrite cut_app by apply no_slash. rewrite to_int_show by (apply small_int32; auto). rewrite cut_app by apply no_slash. rewrite !NS, !andb_true_r, !to_int_show by (apply small_int32; auto). destruct u, nn; reflexivity.
  - rewrite cut_app by apply no_slash. rewrite to_int_show by (apply small_int32; auto). rewrite cut_clean by apply no_slash. rewrite !NS, !andb_true_r, !to_int_show by (apply small_int32; auto). destruct u, nn; reflexivity.
  - rewrite cut_app by apply no_slash. rewrite to_int_show by (apply small_int32; auto). change (cut (String "/" (show_int n))) with ("", Some (show_int n)). cbv beta iota zeta. rewrite NS, andb_true_r, !to_int_show by (apply small_int32; auto). cbn [nonempty]. rewrite andb_false_r. destruct u, nn; reflexivity.
  - rewrite cut_clean by apply no_slash. rewrite to_int_show by (apply small_int32; auto). destruct u, nn; reflexivity.
Qed.
Definition minus1 (l : list Z) : Prop := Forall (eq (-1)%Z) l.
Lemma hd_minus1 l : minus1 l -> hd (-1)%Z l = (-1)%Z /\ minus1 (tl l).
Proof. intros [|x r E M]; cbn; [repeat constructor|split; auto]. Qed.
Lemma read_face_lead u nn cs : forall c b s ts ns, all_blank b = true -> spaced s (map corner_text cs) -> Forall small_corner (c :: cs) -> minus1 ts -> minus1 ns ->
  read_face u nn (Datatypes.S (List.length cs)) (b ++ corner_text c ++ s) ts ns
  = Some (map (fun c => fst (fst c) - 1)%Z (c :: cs), map (fun c => if u then zero_based (snd (fst c)) else -1)%Z (c :: cs), map (fun c => if nn then zero_based (snd c) else -1)%Z (c :: cs)).
Proof.
  induction cs as [|c' cs IH]; intros c b s ts ns A S SC MT MN; inversion SC as [|? ? SC1 SC2]; subst; destruct (hd_minus1 ts MT) as (HT & TT), (hd_minus1 ns MN) as (HN & TN); pose proof (corner_word c) as W; cbn [List.length read_face]; rewrite (non_space_word _ _ _ _ A W S); cbn [fst]; rewrite HT, HN, corner_ok by auto.
  - reflexivity.
  - destruct (next_at_word _ _ _ _ A W S) as (b' & w2 & s' & ws' & E & A' & W' & S' & ->); [discriminate|]. cbn [map] in E. injection E as <- <-. specialize (IH c' b' s' (tl ts) (tl ns) A' S' SC2 TT TN). cbn [List.length read_face] in IH. rewrite IH. reflexivity.
Qed.

(** * the reader's state *)
Variables u nn : bool.
Definition zrows (w : bool) (F M : mat Z) (m : nat) (X : list (list Z)) : Prop :=
  if w then holds 3 M m X /\ nrows M = nrows F /\ Forall minus1 (skipn m (rws M)) else M = empty.
Definition nums (k : nat) (Mn : mat Num * nat) (L : list (list string)) : Prop := exists X, Forall2 (Forall2 reads) L X /\ holds k (fst Mn) (snd Mn) X.
Definition fcol (f : corner3 -> Z) (L : list (list corner3)) : list (list Z) := map (map f) L.
Definition fs0 := fcol (fun c => (fst (fst c) - 1)%Z).
Definition fs1 := fcol (fun c => zero_based (snd (fst c))).
Definition fs2 := fcol (fun c => zero_based (snd c)).
Definition good (kv kt kn : nat) (st : @state Num) (vs ts ns : list (list string)) (fs : list (list corner3)) : Prop :=
  nums kv (sV st) vs /\ (if u then nums kt (sUV st) ts else sUV st = (empty, 0%nat)) /\ (if nn then nums kn (sN st) ns else sN st = (empty, 0%nat))
  /\ holds 3 (sF st) (sm st) (fs0 fs) /\ zrows u (sF st) (sFt st) (sm st) (fs1 fs) /\ zrows nn (sF st) (sFn st) (sm st) (fs2 fs).

Lemma nums_step k Mn L s ws : (1 <= k)%nat -> nums k Mn L -> spaced s ws -> List.length ws = k -> (forall v, In v ws -> stod v <> Range) -> exists Mn', num_line stod nan junk Mn s = Ret Mn' /\ nums k Mn' (List.app L [ws]).
Proof.
  intros K (X & F & H) S E NR. destruct Mn as (M, n). cbn [fst snd] in H. destruct (num_line_ok k M n X s ws K H S E NR) as (row & M' & n' & R & FR & H'). exists (M', n'). split; [auto|]. exists (List.app X [row]). split; [apply Forall2_app; auto|exact H'].
Qed.
Lemma zrows_first w t : List.length t = 3%nat -> forall F', nrows F' = 1%nat -> zrows w F' (if w then put 0 t (fill (-1) (resize junkZ 1 3 (@empty Z))) else empty) 1 [t].
Proof.
  intros L F' N. destruct w; [|reflexivity]. split; [|split; [rewrite put_rows; [auto|cbn; lia]|constructor]]. right. split; [discriminate|]. split; [auto|]. split; [reflexivity|]. split; [rewrite put_rows; cbn; lia|]. split; [reflexivity|]. repeat constructor. auto.
Qed.
Lemma skipn_put {A} i (row : list A) M : (i < nrows M)%nat -> skipn (Datatypes.S i) (rws (put i row M)) = skipn (Datatypes.S i) (rws M).
Proof. intros L. unfold nrows in L. unfold put. cbn [rws]. rewrite skipn_app, firstn_length, Nat.min_l by lia. rewrite skipn_all2 by (rewrite firstn_length; lia). replace (Datatypes.S i - i)%nat with 1%nat by lia. reflexivity. Qed.
Lemma minus1_repeat k : minus1 (repeat (-1)%Z k).
Proof. apply Forall_forall. intros x I. symmetry. eapply repeat_spec; eauto. Qed.
(** growing keeps the unused rows at -1 *)
Lemma grown_unused M m (X : list (list Z)) : X <> [] -> holds 3 M m X -> Forall minus1 (skipn m (rws M)) ->
  (m < nrows (grown (-1)%Z M m))%nat /\ Forall minus1 (skipn m (rws (grown (-1)%Z M m))).
Proof.
  intros NX [(-> & _)|(_ & E & F & L & C & W)] U; [congruence|]. assert (P : (0 < List.length X)%nat) by (destruct X; cbn; [congruence|lia]). unfold grown. destruct (Nat.ltb_spec (nrows M) (Datatypes.S m)); [|split; [lia|auto]].
  rewrite nrows_resize. split; [lia|]. rewrite C, rws_resize by auto. rewrite skipn_app. apply Forall_app. split.
  - unfold nrows in *. rewrite firstn_all2 by lia. auto.
  - rewrite Forall_forall. intros r I. assert (I' : In r (repeat (repeat (-1)%Z 3) (2 * nrows M - nrows M))) by (rewrite <- (firstn_skipn (m - List.length (firstn (2 * nrows M) (rws M))) (repeat _ _)); apply in_app_iff; auto). apply repeat_spec in I'. subst. apply minus1_repeat.
Qed.
Lemma nth_unused m (l : list (list Z)) : Forall minus1 (skipn m l) -> minus1 (nth m l []).
Proof. intros F. destruct (nth_in_or_default m l []) as [I| ->]; [|constructor]. destruct (Nat.lt_ge_cases m (List.length l)) as [L|L]; [|rewrite nth_overflow by auto; constructor]. eapply Forall_forall in F; [exact F|]. rewrite <- (firstn_skipn m l) at 1. rewrite app_nth2 by (rewrite firstn_length; lia). rewrite firstn_length, Nat.min_l, Nat.sub_diag by lia. rewrite <- (firstn_skipn m l) in L. rewrite app_length, firstn_length in L. destruct (skipn m l); cbn in *; [lia|auto]. Qed.
Lemma Forall_skip {A} (P : A -> Prop) n l : Forall P (skipn n l) -> Forall P (skipn (Datatypes.S n) l).
Proof. intros F. revert l F. induction n as [|n IH]; intros [|x l] F; auto. - inversion F; auto. - apply (IH l). auto. Qed.
Lemma zrows_next w F F' M m X t : X <> [] -> holds 3 F m X -> forall T, List.length T = List.length X -> zrows w F M m T -> List.length t = 3%nat -> nrows F' = nrows (grown junkZ F m) ->
  zrows w F' (if w then put m t (if (Nat.ltb (nrows F) (Datatypes.S m) && w)%bool then resize (-1)%Z (2 * nrows F) (mcols M) M else M) else (if (Nat.ltb (nrows F) (Datatypes.S m) && w)%bool then resize (-1)%Z (2 * nrows F) (mcols M) M else M)) (Datatypes.S m) (List.app T [t])
  /\ minus1 (nth m (rws (if (Nat.ltb (nrows F) (Datatypes.S m) && w)%bool then resize (-1)%Z (2 * nrows F) (mcols M) M else M)) []).
Proof.
  intros NX HF T LT Z L N. unfold zrows in *. destruct w; [|rewrite andb_false_r, Z; split; [auto|destruct m; constructor]]. rewrite andb_true_r. destruct Z as (H & E & U). rewrite <- E.
  change (if Nat.ltb (nrows M) (Datatypes.S m) then resize (-1)%Z (2 * nrows M) (mcols M) M else M) with (grown (-1)%Z M m). assert (NT : T <> []) by (destruct T, X; try discriminate; congruence).
  destruct (grown_unused M m T NT H U) as (G1 & G2). split; [|apply nth_unused; auto]. split; [apply holds_next; auto|]. split; [rewrite put_rows by auto; rewrite N; unfold grown; rewrite E; destruct (Nat.ltb _ _); rewrite ?nrows_resize; auto|]. rewrite skipn_put by auto. apply Forall_skip. auto.
Qed.

Lemma fcol_app f L c : fcol f (List.app L [c]) = List.app (fcol f L) [map f c].
Proof. unfold fcol. rewrite map_app. auto. Qed.
Lemma fcol_len f L : List.length (fcol f L) = List.length L.
Proof. apply map_length. Qed.
Lemma face_step kv kt kn st vs ts ns fs s cs : good kv kt kn st vs ts ns fs -> spaced s (map corner_text cs) -> List.length cs = 3%nat -> Forall small_corner cs ->
  exists st', face_line junkZ u nn st s = Ret st' /\ good kv kt kn st' vs ts ns (List.app fs [cs]).
Proof.
  intros (GV & GT & GN & GF & GU & GW) S L SC. assert (HC : exists b c s' cs', s = b ++ corner_text c ++ s' /\ cs = c :: cs' /\ all_blank b = true /\ spaced s' (map corner_text cs')).
  { destruct cs as [|c cs]; [discriminate|]. cbn [map] in S. inversion S; subst. eauto 10. }
  destruct HC as (b & c & s' & cs' & -> & -> & A & S'). assert (RF := fun t n => read_face_lead u nn cs' c b s' t n A S' SC).
  assert (L' : Datatypes.S (List.length cs') = 3%nat) by (cbn in L; auto). rewrite L' in RF. unfold face_line. rewrite (holds_size0 3 (sF st) (sm st) (fs0 fs)) by (auto; lia).
  assert (LM : forall f : corner3 -> Z, List.length (map f (c :: cs')) = 3%nat) by (intros; rewrite map_length; auto).
  destruct fs as [|f0 fs].
  - destruct GF as [(_ & EF & EM)|(N & _)]; [|exfalso; apply N; reflexivity]. cbn [fs0 fcol map]. unfold count_non_spaces. rewrite (count_ok _ _ S) by lia. rewrite map_length, L. cbn [Nat.eqb negb].
    assert (ET : sFt st = empty) by (revert GU; unfold zrows; rewrite EM; destruct u; [intros ([(_ & -> & _)|(N & _)] & _); [auto|exfalso; apply N; reflexivity]|auto]).
    assert (EN : sFn st = empty) by (revert GW; unfold zrows; rewrite EM; destruct nn; [intros ([(_ & -> & _)|(N & _)] & _); [auto|exfalso; apply N; reflexivity]|auto]).
    rewrite ET, EN, EF. cbn [Nat.sub]. rewrite RF.
    2:{ destruct u; [repeat constructor|constructor]. } 2:{ destruct nn; [repeat constructor|constructor]. }
    eexists. split; [reflexivity|]. unfold good. cbn [sV sUV sN sF sFt sFn sm]. split; [auto|]. split; [auto|]. split; [auto|]. cbn [List.app fs0 fs1 fs2 fcol map]. split; [|split].
    + apply holds_first. apply LM.
    + pose proof (zrows_first u (map (fun c => zero_based (snd (fst c))) (c :: cs')) (LM _)) as Z. destruct u; apply Z; (rewrite put_rows; rewrite nrows_resize; lia).
    + pose proof (zrows_first nn (map (fun c => zero_based (snd c)) (c :: cs')) (LM _)) as Z. destruct nn; apply Z; (rewrite put_rows; rewrite nrows_resize; lia).
  - cbn [fs0 fcol map]. fold (fcol (fun c => (fst (fst c) - 1)%Z) fs). set (fs' := f0 :: fs) in *.
    assert (NX : fs0 fs' <> []) by discriminate. assert (LT : forall f, List.length (fcol f fs') = List.length (fs0 fs')) by (intros; unfold fs0; rewrite !fcol_len; auto).
    assert (E0 : (Datatypes.S (sm st) - 1 = sm st)%nat) by lia. rewrite E0.
    change (if Nat.ltb (nrows (sF st)) (Datatypes.S (sm st)) then resize junkZ (2 * nrows (sF st)) (mcols (sF st)) (sF st) else sF st) with (grown junkZ (sF st) (sm st)).
    assert (C3 : mcols (grown junkZ (sF st) (sm st)) = 3%nat) by (destruct GF as [(Q & _)|(_ & _ & _ & _ & C & _)]; [discriminate|]; unfold grown; destruct (Nat.ltb _ _); auto). rewrite C3.
    assert (N1 : nrows (put (sm st) (map (fun c => fst (fst c) - 1)%Z (c :: cs')) (grown junkZ (sF st) (sm st))) = nrows (grown junkZ (sF st) (sm st))).
    { apply put_rows. destruct GF as [(Q & _)|(_ & E & _ & LE & _)]; [congruence|]. rewrite E in LE. unfold grown. destruct (Nat.ltb_spec (nrows (sF st)) (Datatypes.S (sm st))); [rewrite nrows_resize; rewrite E in *; cbn in *; lia|lia]. }
    destruct (zrows_next u (sF st) _ (sFt st) (sm st) (fs0 fs') _ NX GF (fs1 fs') (LT _) GU (LM (fun c => zero_based (snd (fst c)))) N1) as (ZU & MU).
    destruct (zrows_next nn (sF st) _ (sFn st) (sm st) (fs0 fs') _ NX GF (fs2 fs') (LT _) GW (LM (fun c => zero_based (snd c))) N1) as (ZN & MN).
    rewrite RF by auto. eexists. split; [reflexivity|]. unfold good. cbn [sV sUV sN sF sFt sFn sm]. split; [auto|]. split; [auto|]. split; [auto|]. unfold fs0, fs1, fs2. rewrite !fcol_app. split; [|split].
    + apply holds_next; auto.
    + destruct u; exact ZU.
    + destruct nn; exact ZN.
Qed.
(** what one line has to satisfy *)
Definition fits (kv kt kn : nat) (it : item) : Prop :=
  match it with
  | IV ws => List.length ws = kv /\ forall w, In w ws -> stod w <> Range
  | IT ws => u = true -> List.length ws = kt /\ forall w, In w ws -> stod w <> Range
  | IN ws => nn = true -> List.length ws = kn /\ forall w, In w ws -> stod w <> Range
  | IF cs => List.length cs = 3%nat /\ Forall small_corner cs
  | IO => True
  end.
Lemma eqb_no a b : a <> b -> Ascii.eqb a b = false. Proof. apply Ascii.eqb_neq. Qed.
Lemma step kv kt kn st it line vs ts ns fs : (1 <= kv)%nat -> (1 <= kt)%nat -> (1 <= kn)%nat -> good kv kt kn st vs ts ns fs -> line_is it line -> fits kv kt kn it ->
  exists st', read_line stod nan junk junkZ u nn st line = Ret st' /\ good kv kt kn st' (List.app vs (vertices [it])) (List.app ts (textures [it])) (List.app ns (normals [it])) (List.app fs (faces [it])).
Proof.
  intros KV KT KN G LI FI. pose proof G as G0. destruct G as (GV & GT & GN & GF & GU & GW). destruct it as [ws|ws|ws|cs|]; cbn [fits] in FI; cbn [vertices textures normals faces flat_map List.app]; rewrite ?app_nil_r.
  - destruct LI as (s & -> & S). destruct FI as (L & NR). destruct (nums_step kv (sV st) vs _ ws KV GV S L NR) as (M & R & NM). cbn [append]. cbn [append] in R. unfold read_line. cbn [Ascii.eqb Bool.eqb]. change (Ascii.eqb " " SP) with true. cbv iota. rewrite R. cbn [obind]. eexists. split; [reflexivity|]. unfold good. cbn [sV sUV sN sF sFt sFn sm]. auto 10.
  - destruct LI as (s & -> & S). cbn [append]. unfold read_line. cbn [Ascii.eqb Bool.eqb]. change (Ascii.eqb "t" SP) with false. cbv iota. unfold good in *. destruct u.
    + destruct (FI eq_refl) as (L & NR). destruct (nums_step kt (sUV st) ts _ ws KT GT S L NR) as (M & R & NM). rewrite R. cbn [obind]. eexists. split; [reflexivity|]. cbn [sV sUV sN sF sFt sFn sm]. auto 10.
    + exists st. auto 10.
  - destruct LI as (s & -> & S). cbn [append]. unfold read_line. cbn [Ascii.eqb Bool.eqb]. change (Ascii.eqb "n" SP) with false. cbv iota. unfold good in *. destruct nn.
    + destruct (FI eq_refl) as (L & NR). destruct (nums_step kn (sN st) ns _ ws KN GN S L NR) as (M & R & NM). rewrite R. cbn [obind]. eexists. split; [reflexivity|]. cbn [sV sUV sN sF sFt sFn sm]. auto 10.
    + exists st. auto 10.
  - destruct LI as (s & -> & S). destruct FI as (L & SC). destruct (face_step kv kt kn st vs ts ns fs _ cs G0 S L SC) as (st' & R & G'). exists st'. split; [|exact G']. cbn [append] in *. unfold read_line. cbn [Ascii.eqb Bool.eqb]. change (Ascii.eqb " " SP) with true. cbn [negb]. exact R.
  - exists st. split; [|exact G0]. cbn [line_is other] in LI. unfold read_line. destruct line as [|a line]; [auto|]. destruct (Ascii.eqb a "#"); [auto|]. destruct line as [|b line].
    + destruct LI as (A & B). rewrite !eqb_no by auto. auto.
    + destruct LI as (A & B). destruct (Ascii.eqb_spec a "v") as [->|NV].
      * destruct (A eq_refl) as (B1 & B2 & B3). rewrite !eqb_no by auto. auto.
      * destruct (Ascii.eqb_spec a "f") as [->|NF]; [|auto]. rewrite eqb_no by auto. auto.
Qed.
Lemma steps kv kt kn items lines : (1 <= kv)%nat -> (1 <= kt)%nat -> (1 <= kn)%nat -> Forall2 line_is items lines -> Forall (fits kv kt kn) items -> forall st vs ts ns fs, good kv kt kn st vs ts ns fs ->
  exists st', read_lines stod nan junk junkZ u nn st lines = Ret st' /\ good kv kt kn st' (List.app vs (vertices items)) (List.app ts (textures items)) (List.app ns (normals items)) (List.app fs (faces items)).
Proof.
  intros KV KT KN F. induction F as [|it line items lines LI F IH]; intros FI st vs ts ns fs G.
  - exists st. cbn. rewrite !app_nil_r. auto.
  - inversion FI as [|? ? F1 F2]; subst. destruct (step kv kt kn st it line vs ts ns fs KV KT KN G LI F1) as (st1 & R1 & G1). destruct (IH F2 st1 _ _ _ _ G1) as (st2 & R2 & G2). exists st2. split; [cbn [read_lines]; rewrite R1; exact R2|].
    revert G2. rewrite <- !app_assoc. unfold vertices, textures, normals, faces. cbn [flat_map]. rewrite !app_nil_r. auto.
Qed.
(** ** Whatever the order, the spacing and the comments: a text whose vertex, texture and normal lines are uniform and whose faces have three corners is read completely, in order, with the conversion to 0-based indices *)
Theorem C94_read items text : Forall2 line_is items (split_on NL text) ->
  uniform (vertices items) -> (u = true -> uniform (textures items)) -> (nn = true -> uniform (normals items)) -> (forall cs, In cs (faces items) -> List.length cs = 3%nat /\ Forall small_corner cs) ->
  exists r, read_obj u nn text = Ret r
    /\ Forall2 (Forall2 reads) (vertices items) (rws (oV r))
    /\ Forall2 (Forall2 reads) (if u then textures items else []) (rws (oUV r)) /\ Forall2 (Forall2 reads) (if nn then normals items else []) (rws (oN r))
    /\ rws (oF r) = map (map (fun '(a, _, _) => (a - 1)%Z)) (faces items)
    /\ rws (oFt r) = (if u then map (map (fun '(_, b, _) => zero_based b)) (faces items) else []) /\ rws (oFn r) = (if nn then map (map (fun '(_, _, c) => zero_based c)) (faces items) else []).
Proof.
  intros LI (kv & KV & UV) UT UN UF.
  assert (HT : exists kt, (1 <= kt)%nat /\ (u = true -> forall ws, In ws (textures items) -> List.length ws = kt /\ forall w, In w ws -> stod w <> Range)) by (destruct u; [destruct (UT eq_refl) as (k & K & H); exists k; auto|exists 1%nat; split; [lia|discriminate]]).
  assert (HN : exists kn, (1 <= kn)%nat /\ (nn = true -> forall ws, In ws (normals items) -> List.length ws = kn /\ forall w, In w ws -> stod w <> Range)) by (destruct nn; [destruct (UN eq_refl) as (k & K & H); exists k; auto|exists 1%nat; split; [lia|discriminate]]).
  destruct HT as (kt & KT & HT), HN as (kn & KN & HN).
  assert (FI : Forall (fits kv kt kn) items).
  { apply Forall_forall. intros it I. destruct it as [ws|ws|ws|cs|]; cbn [fits]; auto; intros; first [apply UV|apply HT|apply HN|apply UF]; auto; apply in_flat_map; eexists; (split; [exact I|]); cbn; auto. }
  set (st0 := {| sV := (empty, 0%nat) : mat Num * nat; sUV := (empty, 0%nat); sN := (empty, 0%nat); sF := empty; sFt := empty; sFn := empty; sm := 0%nat |}).
  assert (HE : forall (A : Type) k, holds k (@empty A) 0 ([] : list (list A))) by (left; auto).
  assert (G0 : good kv kt kn st0 [] [] [] []).
  { unfold good, st0, zrows, nums. cbn [sV sUV sN sF sFt sFn sm fst snd fs0 fs1 fs2 fcol map]. assert (NE : forall k, exists X, Forall2 (Forall2 reads) [] X /\ holds k (@empty Num) 0 X) by (intros; exists []; auto). split; [auto|]. split; [destruct u; auto|]. split; [destruct nn; auto|]. split; [auto|]. split; [destruct u|destruct nn]; auto; (split; [auto|split; [auto|constructor]]). }
  destruct (steps kv kt kn items _ KV KT KN LI FI st0 _ _ _ _ G0) as (st & R & (X & FX & HX) & GT & GN & GF & GU & GW). cbn [List.app] in *.
  unfold CppObjModel.read_obj. fold st0. rewrite R. cbn [obind]. eexists. split; [reflexivity|]. cbn [oV oF oUV oFt oN oFn].
  split; [rewrite (shrink_ok _ _ _ _ _ HX); auto|].
  split; [revert GT; destruct u; [intros (Y & FY & HY); rewrite (shrink_ok _ _ _ _ _ HY); auto|intros ->; constructor]|].
  split; [revert GN; destruct nn; [intros (Y & FY & HY); rewrite (shrink_ok _ _ _ _ _ HY); auto|intros ->; constructor]|].
  split; [rewrite (shrink_ok _ _ _ _ _ GF); apply map_ext; intros l; apply map_ext; intros ((a & b) & c); auto|].
  split.
  - revert GU. unfold zrows. destruct u; [intros (HY & _); rewrite (shrink_ok _ _ _ _ _ HY); apply map_ext; intros l; apply map_ext; intros ((a & b) & c); auto|intros ->; unfold shrink; destruct (sm st); reflexivity].
  - revert GW. unfold zrows. destruct nn; [intros (HY & _); rewrite (shrink_ok _ _ _ _ _ HY); apply map_ext; intros l; apply map_ext; intros ((a & b) & c); auto|intros ->; unfold shrink; destruct (sm st); reflexivity].
Qed.
End Read.
