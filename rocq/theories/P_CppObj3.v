(** C94: both engines write the same text; what the C++ reader returns for an arbitrary text; where it deviates. *)
From Coq Require Import String Ascii List ZArith Bool Lia.
From Verif Require Import PyExn TextModel TextProofs ObjModel P_Obj CppObjModel CppObjProofs P_CppObj P_CppObj2.
Import ListNotations.
Open Scope string_scope.

Definition arg {A} (M : mat A) : option (list (list A)) := match rws M with [] => None | x => Some x end.
Section Engines.
Context {Num : Type}.
Variable show : Num -> string.
Lemma zip_none f : zip_face f None None = elements f None None.
Proof. induction f as [|a f IH]; cbn [zip_face elements option_map]; [auto|]. rewrite IH. f_equal. unfold element. cbn [append]. rewrite app_nil_r_s. auto. Qed.
Lemma zip_t f : forall t, List.length t = List.length f -> zip_face f (Some t) None = elements f (Some t) None.
Proof. induction f as [|a f IH]; intros [|b t] E; cbn in E; try discriminate; [auto|]. cbn [zip_face elements option_map hd tl]. rewrite IH by lia. f_equal. unfold element. cbn [append]. rewrite app_nil_r_s. auto. Qed.
Lemma zip_n f : forall n, List.length n = List.length f -> zip_face f None (Some n) = elements f None (Some n).
Proof. induction f as [|a f IH]; intros [|b n] E; cbn in E; try discriminate; [auto|]. cbn [zip_face elements option_map hd tl]. rewrite IH by lia. f_equal. Qed.
Lemma zip_tn f : forall t n, List.length t = List.length f -> List.length n = List.length f -> zip_face f (Some t) (Some n) = elements f (Some t) (Some n).
Proof. induction f as [|a f IH]; intros [|b t] [|c n] E1 E2; cbn in E1, E2; try discriminate; [auto|]. cbn [zip_face elements option_map hd tl]. rewrite IH by lia. f_equal. Qed.
(** ** The Python writer and the C++ writer write the same file *)
Theorem C94_engines (V : mat Num) F UV Ft N Fn : rws V <> [] -> triangles F -> attached F Ft -> attached F Fn ->
  exists text, CppObjModel.write_obj show V F UV Ft N Fn = Ret text /\ ObjModel.write_obj show (rws V) (rws F) (arg UV) (arg Ft) (arg N) (arg Fn) = Ok text.
Proof.
  intros NV (CF & WF) AT AN.
  assert (fits : forall X, attached F X -> nrows X = 0%nat \/ (nrows X = nrows F /\ mcols X = mcols F)) by (intros X [E|(E & C & _)]; [left; unfold nrows; rewrite E; auto|right; split; congruence]).
  destruct (C94_writer_checks show V F UV Ft N Fn) as (WC & _). destruct (proj1 WC (conj (fits _ AT) (fits _ AN))) as (text & ET). exists text. split; [auto|].
  unfold CppObjModel.write_obj in ET. destruct (_ && (negb (Nat.eqb (nrows Ft) _) || _))%bool; [discriminate|]. destruct (_ && (negb (Nat.eqb (nrows Fn) _) || _))%bool; [discriminate|]. injection ET as <-.
  (* the numbers written next to the faces *)
  assert (D : forall (DD : mat Num) X, attached F X -> exists o, default_indices (rws V) (rws F) (arg DD) (arg X) = o /\ match o with Some x => List.length x = nrows F /\ width 3 x | None => True end
    /\ forall i, (if (Nat.ltb 0 (nrows X) || (Nat.eqb (nrows X) 0 && Nat.eqb (nrows DD) (nrows V)))%bool then Some (nth i (rws (if (Nat.eqb (nrows X) 0 && Nat.eqb (nrows DD) (nrows V))%bool then F else X)) []) else None) = nth_row o i).
  { intros DD X A. eexists. split; [reflexivity|]. unfold arg, default_indices. destruct (rws X) as [|x xs] eqn:EX.
    - assert (X0 : nrows X = 0%nat) by (unfold nrows; rewrite EX; auto). rewrite X0. cbn [Nat.ltb Nat.leb Nat.eqb orb andb]. destruct (rws DD) as [|d ds] eqn:ED.
      + split; [auto|]. intros i. assert (D0 : nrows DD = 0%nat) by (unfold nrows; rewrite ED; auto). rewrite D0. destruct (Nat.eqb_spec 0 (nrows V)) as [Q|]; [|auto]. unfold nrows in Q. destruct (rws V); [congruence|discriminate].
      + assert (Q : nrows DD = List.length (d :: ds)) by (unfold nrows; rewrite ED; auto). rewrite Q. unfold nrows. rewrite Nat.eqb_sym. destruct (Nat.eqb _ _); [split; [split; [auto|exact WF]|auto]|auto].
    - assert (NX : Nat.eqb (nrows X) 0 = false) by (unfold nrows; rewrite EX; auto). assert (PX : Nat.ltb 0 (nrows X) = true) by (unfold nrows; rewrite EX; auto). rewrite NX, PX. cbn [andb orb].
      destruct A as [E|(E & _ & W)]; [congruence|]. unfold nrows in E. rewrite EX in *. destruct (rws DD); (split; [split; [exact E|exact W]|intros i; reflexivity]). }
  destruct (D UV Ft AT) as (ot & EO & HT & NT), (D N Fn AN) as (on & EN & HN & NN). unfold ObjModel.write_obj. rewrite EO, EN.
  replace (match ot with Some t => negb (Nat.eqb (List.length t) (List.length (rws F))) | None => false end) with false by (destruct ot as [t|]; [destruct HT as (-> & _); unfold nrows; rewrite Nat.eqb_refl|]; auto).
  replace (match on with Some n => negb (Nat.eqb (List.length n) (List.length (rws F))) | None => false end) with false by (destruct on as [n|]; [destruct HN as (-> & _); unfold nrows; rewrite Nat.eqb_refl|]; auto).
  f_equal. f_equal. f_equal. f_equal; [unfold arg; destruct (rws UV); auto|]. f_equal; [unfold arg; destruct (rws N); auto|]. apply map_ext_in. intros i I. apply in_seq in I. rewrite NT, NN. unfold ObjModel.write_row, CppObjModel.write_row. do 3 f_equal.
  assert (LF : List.length (nth i (rws F) []) = 3%nat) by (unfold width in WF; rewrite Forall_forall in WF; apply WF, nth_In; unfold nrows in *; lia).
  assert (LN : forall o, match o with Some x => List.length x = nrows F /\ width 3 x | None => True end -> match nth_row o i with Some l => List.length l = List.length (nth i (rws F) []) | None => True end).
  { intros [x|] H; cbn [nth_row option_map]; [|auto]. destruct H as (H1 & H2). rewrite LF. unfold width in H2. rewrite Forall_forall in H2. apply H2, nth_In. unfold nrows in *. lia. }
  pose proof (LN ot HT) as LT. pose proof (LN on HN) as LN'. destruct (nth_row ot i) as [t|], (nth_row on i) as [n|]; f_equal; [apply zip_tn; auto|apply zip_t; auto|apply zip_n; auto|apply zip_none].
Qed.
End Engines.

Section Any.
Context {Num : Type}.
Variable stod : string -> conv Num.
Variables nan junk : Num.
Variable junkZ : Z.
Variables u nn : bool.
Notation read := (CppObjModel.read_obj stod nan junk junkZ u nn).
Definition is_face (line : string) : bool := match line with String a (String b _) => Ascii.eqb a "f"%char && Ascii.eqb b " "%char | _ => false end.
Definition nfaces (ls : list string) : nat := List.length (filter is_face ls).
Definition shaped (Mn : mat Num * nat) : Prop := exists k X, (1 <= k)%nat /\ holds k (fst Mn) (snd Mn) X \/ (k = 0%nat /\ mcols (fst Mn) = 0%nat /\ nrows (fst Mn) = 1%nat /\ snd Mn = 1%nat /\ width 0 (rws (fst Mn))).
Lemma read_row_len k : forall s row, read_row stod nan k s = Some row -> List.length row = k.
Proof. induction k as [|k IH]; intros s row E; cbn in E; [injection E as <-; auto|]. destruct (tup_it_to_double _ _ _); [|discriminate]. destruct (read_row _ _ k _) as [r|] eqn:R; [|discriminate]. injection E as <-. cbn. f_equal. eauto. Qed.
Lemma read_face_len k : forall s ts ns f t n, read_face u nn k s ts ns = Some (f, t, n) -> List.length f = k /\ List.length t = k /\ List.length n = k.
Proof. induction k as [|k IH]; intros s ts ns f t n E; cbn in E; [injection E as <- <- <-; auto|]. destruct (corner _ _ _ _ _) as [((a, b), c)|]; [|discriminate]. destruct (read_face _ _ k _ _ _) as [((fs, t'), n')|] eqn:R; [|discriminate]. injection E as <- <- <-. cbn. destruct (IH _ _ _ _ _ _ R) as (A & B & C). auto. Qed.
Lemma num_shaped Mn s Mn' : shaped Mn -> num_line stod nan junk Mn s = Ret Mn' -> shaped Mn'.
Proof.
  intros (k & X & H) E. destruct Mn as (M, n). cbn [fst snd] in H. unfold num_line in E. destruct (size0 M) eqn:S0.
  - assert (R0 : rws M = [] \/ (nrows M = 1%nat /\ mcols M = 0%nat /\ width 0 (rws M))).
    { destruct H as [(K & H)|(_ & A & B & _ & C)]; [|auto]. rewrite (holds_size0 k M n X K H) in S0. destruct X; [|discriminate]. destruct H as [(_ & -> & _)|(N & _)]; [auto|congruence]. }
    cbn [resize mcols] in E. destruct (read_row _ _ _ s) as [row|] eqn:R; [|discriminate]. injection E as <-. apply read_row_len in R. set (c := count_non_spaces s) in *.
    assert (W : rws (resize junk 1 c M) = [repeat junk c] /\ mcols (resize junk 1 c M) = c).
    { split; [|reflexivity]. unfold resize. cbn [rws]. destruct R0 as [E0|(N1 & _ & W)]; [unfold nrows; rewrite E0; reflexivity|]. unfold nrows in *. destruct (rws M) as [|x [|y l]]; try discriminate. inversion W as [|? ? L _]; subst. cbn [map firstn List.length]. rewrite L. destruct x; [|discriminate]. rewrite firstn_nil, Nat.sub_0_r. cbn [List.app firstn]. auto. }
    destruct W as (W1 & W2). exists c, [row]. cbn [fst snd]. destruct (Nat.eq_dec c 0) as [C0|C0]; [right|left].
    + split; [auto|]. split; [unfold put; cbn [mcols]; lia|]. split; [rewrite put_rows; [unfold nrows; rewrite W1; auto|unfold nrows; rewrite W1; cbn; lia]|]. split; [auto|]. apply put_width; [rewrite W1, C0; repeat constructor|lia].
    + split; [lia|]. right. split; [discriminate|]. split; [auto|]. split; [apply (put_first 0 row _ []); auto|]. split; [rewrite put_rows; unfold nrows; rewrite W1; cbn; lia|]. split; [reflexivity|]. apply put_width; [rewrite W1; repeat constructor; apply repeat_length|auto].
  - destruct H as [(K & H)|(_ & A & _)]; [|unfold size0 in S0; rewrite A in S0; rewrite orb_true_r in S0; discriminate]. pose proof (holds_size0 k M n X K H) as Q. destruct X as [|x X]; [congruence|].
    change (if Nat.ltb (nrows M) (Datatypes.S n) then resize junk (2 * nrows M) (mcols M) M else M) with (grown junk M n) in E. destruct (read_row _ _ _ s) as [row|] eqn:R; [|discriminate]. injection E as <-. apply read_row_len in R. cbn [Nat.sub]. rewrite Nat.sub_0_r.
    exists k, (List.app (x :: X) [row]). left. split; [auto|]. cbn [fst snd]. apply holds_next; [discriminate|auto|]. rewrite R. destruct H as [(Q' & _)|(_ & _ & _ & _ & C & _)]; [discriminate|]. unfold grown. destruct (Nat.ltb _ _); auto.
Qed.
Definition inv (k : nat) (st : @state Num) : Prop := shaped (sV st) /\ shaped (sUV st) /\ shaped (sN st)
  /\ exists X T N, List.length X = k /\ List.length T = k /\ List.length N = k /\ holds 3 (sF st) (sm st) X /\ zrows u (sF st) (sFt st) (sm st) T /\ zrows nn (sF st) (sFn st) (sm st) N.
Lemma face_inv k st s st' : inv k st -> face_line junkZ u nn st s = Ret st' -> inv (Datatypes.S k) st'.
Proof.
  intros (SV & SU & SN & X & T & N & LX & LT & LN & HX & HT & HN) E. unfold face_line in E. rewrite (holds_size0 3 (sF st) (sm st) X) in E by (auto; lia). destruct X as [|x X].
  - destruct (Nat.eqb_spec (count_non_spaces s) 3) as [C|]; [|discriminate]. cbn [negb] in E. rewrite C in E. destruct HX as [(_ & EF & EM)|(Q & _)]; [|congruence]. cbn in LX. subst k. destruct T; [|discriminate]. destruct N; [|discriminate].
    assert (ET : sFt st = empty) by (revert HT; unfold zrows; rewrite EM; destruct u; [intros ([(_ & -> & _)|(Q & _)] & _); [auto|congruence]|auto]).
    assert (EN : sFn st = empty) by (revert HN; unfold zrows; rewrite EM; destruct nn; [intros ([(_ & -> & _)|(Q & _)] & _); [auto|congruence]|auto]).
    rewrite EF, ET, EN in E. change (mcols (resize junkZ 1 3 empty)) with 3%nat in E. destruct (read_face _ _ _ _ _ _) as [((f, t), n)|] eqn:R; [|discriminate]. injection E as <-. apply read_face_len in R. destruct R as (RF & RT & RN).
    split; [auto|]. split; [auto|]. split; [auto|]. exists [f], [t], [n]. cbn [sF sFt sFn sm Nat.sub]. repeat (split; [reflexivity|]). split; [|split].
    + apply holds_first. auto.
    + pose proof (zrows_first junkZ u t RT) as Z. destruct u; apply Z; (rewrite put_rows; rewrite nrows_resize; lia).
    + pose proof (zrows_first junkZ nn n RN) as Z. destruct nn; apply Z; (rewrite put_rows; rewrite nrows_resize; lia).
  - assert (E0 : (Datatypes.S (sm st) - 1 = sm st)%nat) by lia. rewrite E0 in E. clear E0. assert (NX : x :: X <> []) by discriminate. set (XX := x :: X) in *.
    change (if Nat.ltb (nrows (sF st)) (Datatypes.S (sm st)) then resize junkZ (2 * nrows (sF st)) (mcols (sF st)) (sF st) else sF st) with (grown junkZ (sF st) (sm st)) in E.
    assert (C3 : mcols (grown junkZ (sF st) (sm st)) = 3%nat) by (destruct HX as [(Q & _)|(_ & _ & _ & _ & C & _)]; [congruence|]; unfold grown; destruct (Nat.ltb _ _); auto). rewrite C3 in E.
    destruct (read_face _ _ _ _ _ _) as [((f, t), n)|] eqn:R; [|discriminate]. injection E as <-. apply read_face_len in R. destruct R as (RF & RT & RN).
    assert (N1 : nrows (put (sm st) f (grown junkZ (sF st) (sm st))) = nrows (grown junkZ (sF st) (sm st))).
    { apply put_rows. destruct HX as [(Q & _)|(_ & E & _ & LE & _)]; [congruence|]. rewrite E in LE. unfold grown. destruct (Nat.ltb_spec (nrows (sF st)) (Datatypes.S (sm st))); [rewrite nrows_resize; unfold XX in *; rewrite E in *; cbn in *; lia|lia]. }
    destruct (zrows_next junkZ u (sF st) _ (sFt st) (sm st) XX t NX HX T ltac:(congruence) HT RT N1) as (ZU & _).
    destruct (zrows_next junkZ nn (sF st) _ (sFn st) (sm st) XX n NX HX N ltac:(congruence) HN RN N1) as (ZN & _).
    split; [auto|]. split; [auto|]. split; [auto|]. exists (List.app XX [f]), (List.app T [t]), (List.app N [n]). cbn [sF sFt sFn sm]. rewrite !app_length, LX, LT, LN. cbn [List.length]. split; [lia|]. split; [lia|]. split; [lia|]. split; [apply holds_next; auto|]. split; [destruct u; exact ZU|destruct nn; exact ZN].
Qed.
Lemma line_inv k st line st' : inv k st -> read_line stod nan junk junkZ u nn st line = Ret st' -> inv (if is_face line then Datatypes.S k else k) st'.
Proof.
  intros I E. unfold read_line in E. destruct line as [|a r]; [injection E as <-; auto|]. cbn [is_face]. destruct (Ascii.eqb_spec a "#"%char) as [->|N1]; [injection E as <-; destruct r; auto|]. destruct (Ascii.eqb_spec a "v"%char) as [->|N2].
  - cbn [Ascii.eqb Bool.eqb andb]. destruct r as [|b r]; [discriminate|]. pose proof I as I0. destruct I as (SV & SU & SN & HF). destruct (Ascii.eqb b SP); [|destruct (Ascii.eqb b "t"%char); [|destruct (Ascii.eqb b "n"%char)]].
    + destruct (num_line _ _ _ (sV st) _) as [M| |] eqn:R; try discriminate. injection E as <-. split; [exact (num_shaped _ _ _ SV R)|]. split; [auto|]. split; [auto|]. exact HF.
    + destruct (bool_dec u true) as [Q|Q]; [rewrite Q in E|apply not_true_is_false in Q; rewrite Q in E; injection E as <-; exact I0]. destruct (num_line _ _ _ (sUV st) _) as [M| |] eqn:R; try discriminate. injection E as <-. split; [auto|]. split; [exact (num_shaped _ _ _ SU R)|]. split; [auto|]. exact HF.
    + destruct (bool_dec nn true) as [Q|Q]; [rewrite Q in E|apply not_true_is_false in Q; rewrite Q in E; injection E as <-; exact I0]. destruct (num_line _ _ _ (sN st) _) as [M| |] eqn:R; try discriminate. injection E as <-. split; [auto|]. split; [auto|]. split; [exact (num_shaped _ _ _ SN R)|]. exact HF.
    + injection E as <-. auto.
  - destruct (Ascii.eqb_spec a "f"%char) as [->|N3]; [|injection E as <-; destruct r; auto]. destruct r as [|b r]; [discriminate|]. change SP with " "%char in E. cbn [Ascii.eqb Bool.eqb andb]. destruct (Ascii.eqb b " "%char); cbn [negb] in E; [eapply face_inv; eauto|injection E as <-; auto].
Qed.
Lemma lines_inv ls : forall k st st', inv k st -> read_lines stod nan junk junkZ u nn st ls = Ret st' -> inv (k + nfaces ls) st'.
Proof.
  induction ls as [|l ls IH]; intros k st st' I E; cbn [read_lines] in E.
  - injection E as <-. unfold nfaces. cbn. rewrite Nat.add_0_r. auto.
  - destruct (read_line _ _ _ _ _ _ st l) as [st1| |] eqn:R; try discriminate. cbn [obind] in E. apply (line_inv k) in R; auto. apply IH with (k := if is_face l then Datatypes.S k else k) in E; auto. unfold nfaces in *. cbn [filter]. destruct (is_face l); cbn [List.length]; [replace (k + Datatypes.S _)%nat with (Datatypes.S k + List.length (filter is_face ls))%nat by lia|]; auto.
Qed.
(** ** For every text: if the reader returns matrices, there is one face of three numbers for each line that starts with "f ", the texture and normal numbers have the shape of the faces if they are asked for and are empty otherwise, and every other matrix has rows of equal length *)
Theorem C94_shape text r : read text = Ret r ->
  let n := List.length (filter (fun l => prefix "f " l) (split_on NL text)) in
  List.length (rws (oF r)) = n /\ width 3 (rws (oF r)) /\ List.length (rws (oFt r)) = (if u then n else 0%nat) /\ width 3 (rws (oFt r)) /\ List.length (rws (oFn r)) = (if nn then n else 0%nat) /\ width 3 (rws (oFn r))
  /\ (exists k, width k (rws (oV r))) /\ (exists k, width k (rws (oUV r))) /\ (exists k, width k (rws (oN r))).
Proof.
  intros E n. unfold CppObjModel.read_obj in E. set (st0 := {| sV := (empty, 0%nat) : mat Num * nat; sUV := (empty, 0%nat); sN := (empty, 0%nat); sF := empty; sFt := empty; sFn := empty; sm := 0%nat |}) in E.
  assert (SE : shaped (@empty Num, 0%nat)) by (exists 1%nat, []; left; split; [lia|left; auto]).
  assert (I0 : inv 0 st0).
  { split; [auto|]. split; [auto|]. split; [auto|]. exists [], [], []. repeat (split; [reflexivity|]). split; [left; auto|]. unfold zrows, st0. cbn [sF sFt sFn sm]. split; [destruct u; auto|destruct nn; auto]; (split; [left; auto|split; [auto|constructor]]). }
  destruct (read_lines _ _ _ _ _ _ st0 (split_on NL text)) as [st| |] eqn:R; try discriminate. cbn [obind] in E. injection E as <-. apply (lines_inv _ 0) in R; auto. cbn [Nat.add] in R.
  assert (NE : nfaces (split_on NL text) = n).
  { unfold nfaces, n. f_equal. apply filter_ext. intros [|a [|b l]]; [reflexivity| |]; [change (prefix "f " (String a "")) with (if Ascii.ascii_dec "f" a then false else false); cbn [is_face]; destruct (Ascii.ascii_dec "f" a); reflexivity|]. unfold is_face. change (prefix "f " (String a (String b l))) with (if Ascii.ascii_dec "f" a then (if Ascii.ascii_dec " " b then prefix "" l else false) else false).
    destruct (Ascii.ascii_dec "f" a) as [<-|N1]; [|rewrite eqb_no by auto; auto]. rewrite Ascii.eqb_refl. destruct (Ascii.ascii_dec " " b) as [<-|N2]; [rewrite Ascii.eqb_refl; destruct l; auto|rewrite eqb_no by auto; auto]. }
  rewrite NE in R. destruct R as (SV & SU & SN & X & T & N & LX & LT & LN & HX & HT & HN). cbn [oV oF oUV oFt oN oFn].
  assert (WX : forall (j : Z) (M : mat Z) Y, holds 3 M (sm st) Y -> width 3 (rws (shrink j (sm st) M)) /\ rws (shrink j (sm st) M) = Y).
  { intros j M Y H. rewrite (shrink_ok j 3 M (sm st) Y H). split; [|auto]. destruct H as [(-> & _)|(_ & _ & F & _ & _ & W)]; [constructor|]. rewrite <- F. unfold width in *. rewrite Forall_forall in *. intros x I. apply W. rewrite <- (firstn_skipn (sm st) (rws M)). apply in_app_iff. auto. }
  assert (WV : forall (M : mat Num * nat), shaped M -> exists k, width k (rws (shrink junk (snd M) (fst M)))).
  { intros (M, m) (k & Y & [(K & H)|(K & A & B & C & W)]); cbn [fst snd] in *.
    - exists k. rewrite (shrink_ok junk k M m Y H). destruct H as [(-> & _)|(_ & _ & F & _ & _ & W)]; [constructor|]. rewrite <- F. unfold width in *. rewrite Forall_forall in *. intros x I. apply W. rewrite <- (firstn_skipn m (rws M)). apply in_app_iff. auto.
    - exists 0%nat. unfold shrink. rewrite B, C. auto. }
  destruct (WX junkZ _ _ HX) as (WX1 & WX2). split; [congruence|]. split; [auto|].
  assert (WZ : forall w M Y, List.length Y = n -> zrows w (sF st) M (sm st) Y -> List.length (rws (shrink junkZ (sm st) M)) = (if w then n else 0%nat) /\ width 3 (rws (shrink junkZ (sm st) M))).
  { intros w M Y LY Z. destruct w; cbn [zrows] in Z; [destruct Z as (Z & _); destruct (WX junkZ _ _ Z) as (W1 & W2); split; [congruence|auto]|]. subst M. unfold shrink. destruct (sm st); split; auto; constructor. }
  destruct (WZ _ _ _ LT HT) as (A1 & A2), (WZ _ _ _ LN HN) as (B1 & B2). split; [auto|]. split; [auto|]. split; [auto|]. split; [auto|]. split; [auto|]. split; auto.
Qed.
End Any.

(** ** Deviations *)
Definition nl : string := String NL EmptyString.
(** a row that is shorter than the first one repeats its last number; the Python reader raises an exception *)
Theorem C94_short_row_refuted : forall Num (stod : string -> conv Num) nan junk junkZ a b c d e u nn, stod "1" = Val a -> stod "2" = Val b -> stod "3" = Val c -> stod "4" = Val d -> stod "5" = Val e ->
  (exists r, CppObjModel.read_obj stod nan junk junkZ u nn ("v 1 2 3" ++ nl ++ "v 4 5" ++ nl) = Ret r /\ rws (oV r) = [[a; b; c]; [d; e; e]])
  /\ forall (parse : string -> option Num), parse "1" = Some a -> parse "2" = Some b -> parse "3" = Some c -> ObjModel.read_obj parse u nn ("v 1 2 3" ++ nl ++ "v 4 5" ++ nl) = Err AssertionError.
Proof.
  intros Num stod nan junk junkZ a b c d e u nn H1 H2 H3 H4 H5. split.
  - eexists. split. { unfold CppObjModel.read_obj. cbn. unfold tup_it_to_double. rewrite H1, H2, H3. cbn. unfold tup_it_to_double. rewrite H4, H5. cbn. reflexivity. } reflexivity.
  - intros parse P1 P2 P3. unfold ObjModel.read_obj. cbn. rewrite P1, P2, P3. cbn. reflexivity.
Qed.
(** a face with four corners after a triangle loses its fourth corner without an error; as the first face it is an error, as it is in the Python reader *)
Theorem C94_quad_refuted : forall Num (stod : string -> conv Num) nan junk junkZ (parse : string -> option Num),
  (exists r, CppObjModel.read_obj stod nan junk junkZ false false ("f 1 2 3" ++ nl ++ "f 1 3 4 5" ++ nl) = Ret r /\ rws (oF r) = [[0; 1; 2]; [0; 2; 3]]%Z)
  /\ CppObjModel.read_obj stod nan junk junkZ false false ("f 1 3 4 5" ++ nl ++ "f 1 2 3" ++ nl) = Code (-8)
  /\ ObjModel.read_obj parse false false ("f 1 2 3" ++ nl ++ "f 1 3 4 5" ++ nl) = Err AssertionError.
Proof. intros. split; [eexists; split; vm_compute; reflexivity|]. split; vm_compute; reflexivity. Qed.
(** a face number that is missing or no number becomes -1; a tab after the letter makes the line invisible *)
Theorem C94_lenient_refuted : forall Num (stod : string -> conv Num) nan junk junkZ,
  (exists r, CppObjModel.read_obj stod nan junk junkZ false false ("f 1 x /2" ++ nl) = Ret r /\ rws (oF r) = [[0; -1; -1]]%Z)
  /\ (exists r, CppObjModel.read_obj stod nan junk junkZ false false (String "f" (String TAB "1 2 3")) = Ret r /\ rws (oF r) = []).
Proof. intros. split; eexists; split; vm_compute; reflexivity. Qed.
(** ** A case: a triangle and a quad's half with texture numbers, written and read *)
Definition V3 : mat Z := {| rws := [[0; 0]; [1; 0]; [0; 1]; [1; 1]]%Z; mcols := 2 |}.
Definition F3 : mat Z := {| rws := [[0; 1; 2]; [1; 3; 2]]%Z; mcols := 3 |}.
Definition U3 : mat Z := {| rws := [[7]; [8]; [9]]%Z; mcols := 1 |}.
Definition T3 : mat Z := {| rws := [[0; 1; 1]; [2; 2; 0]]%Z; mcols := 3 |}.
Definition stoz (w : string) : conv Z := match parse_int w with Some z => Val z | None => Invalid end.
Theorem C94_example : prints show_int stoz /\ wf V3 /\ wf U3 /\ triangles F3 /\ attached F3 T3 /\ attached F3 empty /\ indices F3 /\ indices T3
  /\ exists text, CppObjModel.write_obj show_int V3 F3 U3 T3 empty empty = Ret text /\ exists r, CppObjModel.read_obj stoz 0%Z 0%Z 0%Z true true text = Ret r
     /\ rws (oV r) = rws V3 /\ rws (oF r) = rws F3 /\ rws (oUV r) = rws U3 /\ rws (oFt r) = rws T3 /\ rws (oN r) = [] /\ rws (oFn r) = [[-1; -1; -1]; [-1; -1; -1]]%Z.
Proof.
  split. { intros v. unfold stoz. rewrite parse_show. split; [auto|]. split; [split; [apply show_ne|split; [apply no_sp|apply no_tab]]|]. apply show_int_chars; [vm_compute; lia|discriminate]. }
  split; [split; [repeat constructor|right; cbn; lia]|]. split; [split; [repeat constructor|right; cbn; lia]|]. split; [split; [reflexivity|repeat constructor]|]. split; [right; split; [reflexivity|split; [reflexivity|repeat constructor]]|]. split; [left; reflexivity|].
  split; [unfold indices, index; repeat constructor; lia|]. split; [unfold indices, index; repeat constructor; lia|].
  eexists. split; [vm_compute; reflexivity|]. eexists. split; [vm_compute; reflexivity|]. repeat split.
Qed.
