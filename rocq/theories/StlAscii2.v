(** What the ASCII writer writes is read back, and the vertex list and face list that come out. *)
From Coq Require Import String Ascii List ZArith Bool Lia Arith.
From Verif Require Import TextModel TextProofs StlModel StlProofs StlAscii.
Import ListNotations.
Open Scope string_scope.

Fixpoint all_chars (P : ascii -> Prop) (s : string) : Prop := match s with EmptyString => True | String a r => P a /\ all_chars P r end.
Lemma all_app P s t : all_chars P (s ++ t) <-> all_chars P s /\ all_chars P t.
Proof. induction s as [|a s IH]; cbn; [tauto|]. rewrite IH. tauto. Qed.
Lemma all_imp (P Q : ascii -> Prop) s : (forall a, P a -> Q a) -> all_chars P s -> all_chars Q s.
Proof. intros H. induction s as [|a s IH]; cbn; [auto|]. intros (A & B). auto. Qed.
Lemma all_get P s k a : all_chars P s -> String.get k s = Some a -> P a.
Proof. revert k. induction s as [|b s IH]; intros k H G; [destruct k; discriminate|]. destruct H as [H1 H2]. destruct k; cbn in G; [injection G as <-; exact H1|eauto]. Qed.
(** printable, not blank *)
Definition graphic (a : ascii) : Prop := (33 <= value a)%Z.
(** any byte of a text file *)
Definition plain (a : ascii) : Prop := (10 <= value a)%Z.
Lemma graphic_not_white a : graphic a -> white a = false.
Proof.
  unfold graphic, value, white. intros H. destruct (Ascii.eqb_spec a TAB) as [->|]; [cbn in H; lia|]. destruct (Ascii.eqb_spec a SP) as [->|]; [cbn in H; lia|].
  destruct (Ascii.eqb_spec a CR) as [->|]; [cbn in H; lia|]. destruct (Ascii.eqb_spec a NL) as [->|]; [cbn in H; lia|]. reflexivity.
Qed.
Lemma trim_left_graphic s t : s <> "" -> all_chars graphic s -> trim_left (s ++ t) = s ++ t.
Proof. destruct s as [|a s]; [congruence|]. intros _ (A & _). cbn. rewrite graphic_not_white by auto. reflexivity. Qed.
Lemma trim_right_app s t : trim_right t = t -> t <> "" -> trim_right (s ++ t) = s ++ t.
Proof.
  intros E N. induction s as [|a s IH]; [exact E|]. cbn. rewrite IH. destruct (s ++ t) eqn:Q; [|reflexivity]. destruct s; [cbn in Q; congruence|discriminate].
Qed.
Lemma trim_right_graphic t : all_chars graphic t -> trim_right t = t.
Proof.
  induction t as [|a t IH]; [reflexivity|]. intros (A & B). cbn. rewrite IH by auto. destruct t; [rewrite graphic_not_white by auto|]; reflexivity.
Qed.
Lemma no_nl s : all_chars (fun a => a <> NL) s -> mem_char NL s = false.
Proof. induction s as [|a s IH]; [reflexivity|]. intros (A & B). cbn. destruct (Ascii.eqb_spec a NL); [contradiction|]. cbn. auto. Qed.
Lemma graphic_no_nl s : all_chars graphic s -> all_chars (fun a => a <> NL) s.
Proof. apply all_imp. intros a G ->. unfold graphic, value in G. cbn in G. lia. Qed.
Lemma graphic_plain s : all_chars graphic s -> all_chars plain s.
Proof. apply all_imp. unfold graphic, plain. intros. lia. Qed.
Lemma trim_one a : comment (trim (String a "")).
Proof.
  intros k I. unfold trim. cbn. destruct (white a) eqn:W; cbn; [|rewrite W]; cbn in I; repeat (destruct I as [<-|I]; [cbn; rewrite ?andb_false_r; reflexivity|]); contradiction.
Qed.
Lemma trim_nil : comment (trim "").
Proof. intros k I. cbn in I. repeat (destruct I as [<-|I]; [reflexivity|]). contradiction. Qed.
Lemma trim_junk junk : comment (trim (junk_end junk)).
Proof. unfold junk_end. destruct (Ascii.eqb junk NL); [apply trim_nil|apply trim_one]. Qed.

Section Write.
Variable getf : string -> option (Z * string).
Variable show : Z -> string.
Variable junk : ascii.
Variable fin : Z -> Prop.
Variable rt : Z -> Z.
Hypothesis fin_zero : fin 0.
Hypothesis show_ok : forall x, fin x -> show x <> "" /\ all_chars graphic (show x) /\ (String.length (show x) <= 64)%nat.
Hypothesis get_show : forall x r, fin x -> (r = "" \/ exists r', r = String SP r') -> getf (show x ++ r) = Some (rt x, r).
Hypothesis get_blank : forall s, getf (String SP s) = getf s.
Definition rt_point (p : point) : point := let '(x, y, z) := p in (rt x, rt y, rt z).
Definition fin_point (p : point) : Prop := let '(x, y, z) := p in fin x /\ fin y /\ fin z.
Definition rt_facet (f : facet) : facet := let '(a, b, c) := f in (rt_point a, rt_point b, rt_point c).
Definition fin_facet (f : facet) : Prop := let '(a, b, c) := f in fin_point a /\ fin_point b /\ fin_point c.
Lemma point_back p : fin_point p -> three_values getf (show_point show p) = Some (rt_point p).
Proof.
  destruct p as [[x y] z]. intros (A & B & C). unfold three_values, show_point.
  rewrite get_show by (auto; right; eexists; reflexivity). cbn [append]. rewrite get_blank, get_show by (auto; right; eexists; reflexivity).
  rewrite get_blank. pose proof (get_show z "" C (or_introl eq_refl)) as E. rewrite app_nil_s in E. rewrite E. reflexivity.
Qed.
Lemma point_trim p : fin_point p -> trim_left (show_point show p) = show_point show p /\ trim_right (show_point show p) = show_point show p /\ show_point show p <> "".
Proof.
  destruct p as [[x y] z]. intros (A & B & C). unfold show_point. destruct (show_ok x A) as (X1 & X2 & _), (show_ok z C) as (Z1 & Z2 & _). split; [|split].
  - apply trim_left_graphic; auto.
  - apply trim_right_app; [apply trim_right_app; [apply trim_right_app; [apply trim_right_app; [apply trim_right_graphic|]|]|]|]; auto; destruct (show y); cbn; congruence.
  - destruct (show x); cbn; congruence.
Qed.
Lemma point_chars p : fin_point p -> all_chars (fun a => a <> NL) (show_point show p) /\ all_chars plain (show_point show p) /\ (String.length (show_point show p) <= 194)%nat.
Proof.
  destruct p as [[x y] z]. intros (A & B & C). unfold show_point. destruct (show_ok x A) as (X1 & X2 & X3), (show_ok y B) as (Y1 & Y2 & Y3), (show_ok z C) as (Z1 & Z2 & Z3).
  split; [|split].
  - rewrite !all_app. repeat split; try (apply graphic_no_nl; assumption); discriminate.
  - rewrite !all_app. repeat split; try (apply graphic_plain; assumption); unfold plain, value; cbn; lia.
  - rewrite !app_len. cbn [String.length]. lia.
Qed.
(** ** the lines *)
Definition facet_lines (f : facet) : list string :=
  let '(a, b, c) := f in
  ["  facet normal " ++ show_point show (0, 0, 0)%Z; "    outer loop"; "      vertex " ++ show_point show a; "      vertex " ++ show_point show b; "      vertex " ++ show_point show c; "    endloop"; "  endfacet"].
Definition ascii_lines (fs : list facet) : list string := ("solid microstl" :: flat_map facet_lines fs ++ ["endsolid"])%list.
Lemma cat_app xs ys : cat (xs ++ ys)%list = cat xs ++ cat ys.
Proof. induction xs as [|x xs IH]; cbn; [reflexivity|]. rewrite IH, app_assoc_s. reflexivity. Qed.
Lemma write_lines fs : write_ascii show fs = cat (map (fun l => l ++ String NL EmptyString) (ascii_lines fs)).
Proof.
  unfold write_ascii, ascii_lines. cbn [map cat]. rewrite map_app, cat_app. cbn [map cat]. rewrite app_nil_s. rewrite app_assoc_s. do 2 f_equal. f_equal.
  induction fs as [|[[a b] c] fs IH]; [reflexivity|]. cbn [flat_map map cat]. rewrite map_app, cat_app, <- IH. cbn [map cat facet_lines]. rewrite app_nil_s.
  unfold write_facet, nl. rewrite !app_assoc_s. cbn [append]. reflexivity.
Qed.
Lemma line_ok (P : string -> Prop) fs : P "solid microstl" -> P "endsolid" -> P "    outer loop" -> P "    endloop" -> P "  endfacet" ->
  (forall p, fin_point p -> P ("  facet normal " ++ show_point show p)) -> (forall p, fin_point p -> P ("      vertex " ++ show_point show p)) ->
  Forall fin_facet fs -> Forall P (ascii_lines fs).
Proof.
  intros P1 P2 P3 P4 P5 P6 P7 H. unfold ascii_lines. constructor; [exact P1|]. apply Forall_app. split; [|repeat constructor; exact P2].
  induction H as [|[[a b] c] fs (A & B & C) H IH]; [constructor|]. cbn [flat_map]. apply Forall_app. split; [|exact IH]. unfold facet_lines.
  repeat (apply Forall_cons; [auto|]); try apply Forall_nil. apply P6. cbn. auto.
Qed.
Lemma lines_no_nl fs : Forall fin_facet fs -> Forall (fun s => mem_char NL s = false) (ascii_lines fs).
Proof.
  apply line_ok; try reflexivity; intros p Hp; apply no_nl, all_app; (split; [cbn; repeat split; discriminate|apply point_chars; exact Hp]).
Qed.
Lemma lines_short fs : Forall fin_facet fs -> Forall (fun l => (String.length l <= 256)%nat) (ascii_lines fs).
Proof.
  apply line_ok; try (cbn; lia); intros p Hp; rewrite app_len; cbn [String.length]; pose proof (point_chars p Hp) as (_ & _ & L); lia.
Qed.
Lemma lines_plain fs : Forall fin_facet fs -> Forall (all_chars plain) (ascii_lines fs).
Proof.
  apply line_ok; try (unfold plain, value; cbn; repeat split; lia); intros p Hp; apply all_app; (split; [unfold plain, value; cbn; repeat split; lia|apply point_chars; exact Hp]).
Qed.
Lemma split_lines_of fs : Forall fin_facet fs -> split_on NL (write_ascii show fs) = (ascii_lines fs ++ [""])%list.
Proof. intros H. rewrite write_lines. apply split_lines, lines_no_nl, H. Qed.
Lemma with_end_app ls x : with_end junk (ls ++ [x])%list = (ls ++ [(x ++ junk_end junk)%string])%list.
Proof. induction ls as [|l ls IH]; [reflexivity|]. cbn [app]. rewrite <- IH. cbn [with_end]. destruct (ls ++ [x])%list eqn:E; [destruct ls; discriminate|reflexivity]. Qed.
Lemma tokens_app ls ls' ts ts' : tokens getf ls ts -> tokens getf ls' ts' -> tokens getf (ls ++ ls')%list (ts ++ ts')%list.
Proof. induction 1; intros H'; cbn; [exact H'|apply tokens_comment; auto|apply tokens_line; auto]. Qed.
Lemma trim_left_blank n s : trim_left s = s -> trim_left (rep n SP ++ s) = s.
Proof. intros E. induction n; [exact E|]. cbn. exact IHn. Qed.
Lemma normal_reads p : fin_point p -> reads getf (trim ("  facet normal " ++ show_point show p)) TNormal.
Proof.
  intros H. destruct (point_trim p H) as (T1 & T2 & T3). unfold trim. change (trim_left ("  facet normal " ++ show_point show p)) with ("facet normal " ++ show_point show p).
  rewrite trim_right_app by auto. split; [reflexivity|]. exists (rt_point p).
  unfold trim. change (drop 12 ("facet normal " ++ show_point show p)) with (String SP (show_point show p)). change (trim_left (String SP (show_point show p))) with (trim_left (show_point show p)).
  rewrite T1, T2. apply point_back, H.
Qed.
Lemma vertex_reads p : fin_point p -> reads getf (trim ("      vertex " ++ show_point show p)) (TVertex (rt_point p)).
Proof.
  intros H. destruct (point_trim p H) as (T1 & T2 & T3). unfold trim. change (trim_left ("      vertex " ++ show_point show p)) with ("vertex " ++ show_point show p).
  rewrite trim_right_app by auto. split; [reflexivity|].
  unfold trim. change (drop 6 ("vertex " ++ show_point show p)) with (String SP (show_point show p)). change (trim_left (String SP (show_point show p))) with (trim_left (show_point show p)).
  rewrite T1, T2. apply point_back, H.
Qed.
Lemma facet_tokens_ok f : fin_facet f -> tokens getf (map trim (facet_lines f)) (facet_tokens (rt_facet f)).
Proof.
  destruct f as [[a b] c]. intros (A & B & C). cbn [facet_lines map facet_tokens rt_facet].
  apply tokens_line; [apply normal_reads; cbn; auto|]. apply tokens_line; [reflexivity|]. apply tokens_line; [apply vertex_reads; auto|]. apply tokens_line; [apply vertex_reads; auto|].
  apply tokens_line; [apply vertex_reads; auto|]. apply tokens_line; [reflexivity|]. apply tokens_line; [reflexivity|]. apply tokens_nil.
Qed.
Lemma ascii_back fs : Forall fin_facet fs -> read_ascii getf junk (write_ascii show fs) = Ret (map rt_facet fs).
Proof.
  intros H. assert (SP : split_on NL (write_ascii show fs) = (ascii_lines fs ++ [""])%list) by (apply split_lines_of, H).
  rewrite read_ascii_run by (unfold short; rewrite SP; apply Forall_app; split; [apply lines_short, H|repeat constructor; cbn; lia]).
  unfold file_lines. rewrite SP, with_end_app, map_app. apply run_tokens.
  exists (TSolid :: flat_map facet_tokens (map rt_facet fs) ++ [TEndSolid])%list. split; [|apply grammar; reflexivity].
  rewrite <- (app_nil_r (TSolid :: _)). apply tokens_app; [|apply tokens_comment; [apply trim_junk|apply tokens_nil]].
  unfold ascii_lines. cbn [map]. apply tokens_line; [reflexivity|]. rewrite map_app. apply tokens_app; [|apply tokens_line; [reflexivity|apply tokens_nil]].
  induction H as [|f fs HF H IH]; [apply tokens_nil|]. cbn [flat_map map]. rewrite map_app. apply tokens_app; [apply facet_tokens_ok, HF|].
  apply IH. apply split_lines_of, H.
Qed.
(** a text file is not taken for a binary one, unless it has gigabytes *)
Lemma plain_u32 s k : all_chars plain s -> (k + 3 < String.length s)%nat -> (167772160 <= u32 s k)%Z.
Proof.
  intros H L. unfold u32. assert (Q : forall i, (0 <= at_ s i)%Z) by (intros i; unfold at_, value; destruct (String.get i s); lia).
  assert (P : (10 <= at_ s (k + 3))%Z).
  { unfold at_. destruct (String.get (k + 3) s) as [a|] eqn:E; [exact (all_get _ _ _ _ H E)|]. exfalso. revert E L. generalize (k + 3)%nat. clear. induction s as [|b s IH]; intros n E L; cbn in *; [lia|]. destruct n; [discriminate|]. eapply IH; eauto. lia. }
  pose proof (Q k). pose proof (Q (k + 1)%nat). pose proof (Q (k + 2)%nat). lia.
Qed.
Lemma cat_plain ls : Forall (all_chars plain) ls -> all_chars plain (cat (map (fun l => l ++ String NL EmptyString) ls)).
Proof. induction 1 as [|l ls A B IH]; [exact I|]. cbn [map cat]. rewrite !all_app. repeat split; auto. unfold plain, value; cbn; lia. Qed.
Lemma ascii_is_ascii fs : Forall fin_facet fs -> (Z.of_nat (String.length (write_ascii show fs)) < 8388608084)%Z -> is_ascii (write_ascii show fs) = true.
Proof.
  intros H L. unfold is_ascii. replace (starts "solid" (write_ascii show fs)) with true by reflexivity. cbn [negb].
  destruct (84 <=? Z.of_nat (String.length (write_ascii show fs)))%Z eqn:G; [|reflexivity]. apply Z.leb_le in G. cbn [andb].
  assert (P : all_chars plain (write_ascii show fs)) by (rewrite write_lines; apply cat_plain, lines_plain, H).
  pose proof (plain_u32 _ 80 P ltac:(lia)) as U. destruct (Z.eqb_spec (Z.of_nat (String.length (write_ascii show fs))) (84 + u32 (write_ascii show fs) 80 * 50)); [lia|reflexivity].
Qed.
End Write.

(** ** the arrays *)
Section Arrays.
Context {Dbl : Type}.
Variable to32 : Dbl -> Z.
Variable to64 : Z -> Dbl.
Lemma soup_len fs : List.length (fst (soup to64 fs)) = (3 * List.length fs)%nat /\ List.length (snd (soup to64 fs)) = List.length fs.
Proof. cbn [soup fst snd]. split; [|rewrite map_length, seq_length; reflexivity]. induction fs as [|[[a b] c] fs IH]; [reflexivity|]. cbn [flat_map app List.length]. rewrite IH. lia. Qed.
Lemma soup_F fs i : (i < List.length fs)%nat -> nth_error (snd (soup to64 fs)) i = Some (let k := Z.of_nat (3 * i) in [k; k + 1; k + 2]%Z).
Proof.
  intros L. cbn [soup snd]. cbv zeta. apply (map_nth_error (fun i : nat => let k := Z.of_nat (3 * i) in [k; (k + 1)%Z; (k + 2)%Z]) i (seq 0 (List.length fs)) (d := i)).
  rewrite (nth_error_nth' _ 0%nat) by (rewrite seq_length; exact L). rewrite seq_nth by exact L. reflexivity.
Qed.
Lemma soup_V fs : forall i a b c, nth_error fs i = Some (a, b, c) -> nth_error (fst (soup to64 fs)) (3 * i) = Some (row64 to64 a) /\ nth_error (fst (soup to64 fs)) (3 * i + 1) = Some (row64 to64 b) /\ nth_error (fst (soup to64 fs)) (3 * i + 2) = Some (row64 to64 c).
Proof.
  cbn [soup fst]. induction fs as [|[[a' b'] c'] fs IH]; intros i a b c E; [destruct i; discriminate|]. destruct i as [|i]; cbn in E.
  - injection E as -> -> ->. repeat split.
  - specialize (IH i a b c E). replace (3 * S i)%nat with (S (S (S (3 * i)))) by lia. cbn [flat_map app nth_error Nat.add]. exact IH.
Qed.
Lemma facets_nth V F : forall fs, facets32 to32 V F = Some fs -> List.length fs = List.length F /\ forall i f, nth_error F i = Some f -> exists g, nth_error fs i = Some g /\ facet32 to32 V f = Some g.
Proof.
  induction F as [|f F IH]; intros fs E; cbn in E; [injection E as <-; split; [reflexivity|intros [|i]; discriminate]|].
  destruct (facet32 to32 V f) as [g|] eqn:G; [|discriminate]. destruct (facets32 to32 V F) as [gs|]; [|discriminate]. injection E as <-. destruct (IH gs eq_refl) as (L & N).
  split; [cbn; congruence|]. intros [|i] f' E; cbn in *; [injection E as <-; eauto|eauto].
Qed.
Lemma corner_inv V f k p : corner32 to32 V f k = Some p -> exists j x y z r, nth_error f k = Some j /\ (0 <= j)%Z /\ nth_error V (Z.to_nat j) = Some (x :: y :: z :: r) /\ p = (to32 x, to32 y, to32 z).
Proof.
  unfold corner32. destruct (nth_error f k) as [j|]; [|discriminate]. destruct (Z.ltb_spec j 0); [discriminate|]. destruct (nth_error V (Z.to_nat j)) as [[|x [|y [|z r]]]|] eqn:E; try discriminate.
  intros Q. injection Q as <-. exists j, x, y, z, r. auto.
Qed.
Lemma facet_inv V f a b c : facet32 to32 V f = Some (a, b, c) -> corner32 to32 V f 0 = Some a /\ corner32 to32 V f 1 = Some b /\ corner32 to32 V f 2 = Some c.
Proof. unfold facet32. destruct (corner32 to32 V f 0), (corner32 to32 V f 1), (corner32 to32 V f 2); try discriminate. intros Q. injection Q as -> -> ->. auto. Qed.
End Arrays.
