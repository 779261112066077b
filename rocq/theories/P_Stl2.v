(** C96, continued: exactly which files are read, and what cannot be read back.  Code: StlModel.v.  Vocabulary: P_Stl.v. *)
From Coq Require Import String Ascii List ZArith Bool Lia Arith.
From Verif Require Import NumpyModel TextModel TextProofs RelabelModel StlModel StlProofs StlAscii StlAscii2 P_Stl.
Import ListNotations.
Open Scope string_scope.

(** the little endian number in the four bytes from offset k on *)
Definition number_at (s : string) (k : nat) (n : Z) : Prop :=
  exists a b c d, String.get k s = Some a /\ String.get (k + 1) s = Some b /\ String.get (k + 2) s = Some c /\ String.get (k + 3) s = Some d /\
    n = (Z.of_nat (nat_of_ascii a) + 256 * Z.of_nat (nat_of_ascii b) + 65536 * Z.of_nat (nat_of_ascii c) + 16777216 * Z.of_nat (nat_of_ascii d))%Z.
(** the file does not begin with "solid", or its size is that of a binary file with the number of facets it states *)
Definition binary_file (s : string) : Prop :=
  (forall r, s <> "solid" ++ r) \/ exists n, number_at s 80 n /\ Z.of_nat (String.length s) = (84 + 50 * n)%Z.

Lemma get_some s k : (k < String.length s)%nat -> exists a, String.get k s = Some a.
Proof. revert k. induction s as [|a s IH]; intros k L; cbn in L; [lia|]. destruct k; cbn; [eauto|]. apply IH. lia. Qed.
Lemma get_lt s k a : String.get k s = Some a -> (k < String.length s)%nat.
Proof. revert k. induction s as [|b s IH]; intros k E; [destruct k; discriminate|]. destruct k; cbn in *; [lia|]. apply IH in E. lia. Qed.
Lemma number_u32 s k n : number_at s k n <-> (k + 4 <= String.length s)%nat /\ n = u32 s k.
Proof.
  unfold u32, at_, value. split.
  - intros (a & b & c & d & A & B & C & D & ->). apply get_lt in D as L. split; [lia|]. rewrite A, B, C, D. reflexivity.
  - intros (L & ->). destruct (get_some s k ltac:(lia)) as (a & A), (get_some s (k + 1) ltac:(lia)) as (b & B), (get_some s (k + 2) ltac:(lia)) as (c & C), (get_some s (k + 3) ltac:(lia)) as (d & D).
    exists a, b, c, d. rewrite A, B, C, D. auto.
Qed.
Lemma starts_iff p s : starts p s = true <-> exists r, s = p ++ r.
Proof.
  revert s. induction p as [|a p IH]; intros s; cbn; [split; [eauto|reflexivity]|]. destruct s as [|b s]; [split; [discriminate|intros (r & E); discriminate]|].
  rewrite andb_true_iff, IH. split; [intros (A & r & ->); apply Ascii.eqb_eq in A as ->; eauto|]. intros (r & E). injection E as -> ->. rewrite Ascii.eqb_refl. eauto.
Qed.
Lemma binary_iff s : is_ascii s = false <-> binary_file s.
Proof.
  unfold is_ascii, binary_file. cbv zeta. destruct (starts "solid" s) eqn:E; cbn [negb].
  - split.
    + intros H. right. destruct (84 <=? Z.of_nat (String.length s))%Z eqn:G; [|discriminate]. apply Z.leb_le in G. cbn [andb] in H.
      destruct (Z.eqb_spec (Z.of_nat (String.length s)) (84 + u32 s 80 * 50)) as [Q|]; [|discriminate]. exists (u32 s 80). split; [apply number_u32; split; [lia|reflexivity]|lia].
    + intros [H|(n & N & L)]; [apply starts_iff in E as (r & ->); exfalso; exact (H r eq_refl)|]. apply number_u32 in N as (K & ->).
      destruct (Z.leb_spec 84 (Z.of_nat (String.length s))); [|lia]. cbn [andb]. destruct (Z.eqb_spec (Z.of_nat (String.length s)) (84 + u32 s 80 * 50)); [reflexivity|lia].
  - split; [intros _; left; intros r ->|reflexivity]. assert (starts "solid" ("solid" ++ r) = true) by (apply starts_iff; eauto). congruence.
Qed.
Section Files.
Context {Dbl : Type}.
Variable getf : string -> option (Z * string).
Variable junk : ascii.
Variable to64 : Z -> Dbl.
(** a binary file is read iff it states 1 to 500000000 facets and has room for them; bytes that follow are ignored *)
Theorem C96_binary_format : forall s, binary_file s ->
  ((exists V' F', read_stl getf junk to64 s = Ret (V', F')) <-> exists n, number_at s 80 n /\ (1 <= n <= 500000000)%Z /\ (84 + 50 * n <= Z.of_nat (String.length s))%Z) /\
  forall V' F', read_stl getf junk to64 s = Ret (V', F') -> exists n, number_at s 80 (Z.of_nat n) /\ List.length V' = (3 * n)%nat /\ List.length F' = n /\
    forall i, (i < n)%nat -> nth_error F' i = Some [Z.of_nat (3 * i); Z.of_nat (3 * i + 1); Z.of_nat (3 * i + 2)] /\
      forall k, (k < 3)%nat -> exists x y z, nth_error V' (3 * i + k) = Some [to64 x; to64 y; to64 z] /\
        number_at s (84 + 50 * i + 12 + 12 * k) x /\ number_at s (84 + 50 * i + 12 + 12 * k + 4) y /\ number_at s (84 + 50 * i + 12 + 12 * k + 8) z.
Proof.
  intros s B. apply binary_iff in B. unfold read_stl, read_stream. rewrite B.
  assert (K : forall fs, read_binary s = Ret fs <-> (84 <= String.length s)%nat /\ (1 <= u32 s 80 <= 500000000)%Z /\ read_facets (Z.to_nat (u32 s 80)) (drop 84 s) = Ret fs).
  { intros fs. unfold read_binary. cbv zeta. destruct (Nat.ltb_spec (String.length s) 80); [split; [discriminate|lia]|]. destruct (Nat.ltb_spec (String.length s) 84); [split; [discriminate|lia]|].
    assert (U : (0 <= u32 s 80)%Z). { unfold u32, at_, value. destruct (String.get 80 s), (String.get (80 + 1) s), (String.get (80 + 2) s), (String.get (80 + 3) s); lia. }
    destruct (Z.eqb_spec (u32 s 80) 0); [split; [discriminate|lia]|]. destruct (Z.ltb_spec 500000000 (u32 s 80)); [split; [discriminate|lia]|]. split; [intros E; repeat split; auto; lia|tauto]. }
  split.
  - split.
    + intros (V' & F' & E). destruct (read_binary s) as [fs|] eqn:R; [|discriminate]. destruct (proj1 (K fs) eq_refl) as (L & N & RF). apply read_facets_spec in RF as (L2 & _). rewrite drop_len in L2.
      exists (u32 s 80). split; [apply number_u32; split; [lia|reflexivity]|]. split; lia.
    + intros (n & N & NB & L). apply number_u32 in N as (L0 & ->).
      assert (R : exists fs, read_facets (Z.to_nat (u32 s 80)) (drop 84 s) = Ret fs).
      { assert (Q : forall n t, (50 * n <= String.length t)%nat -> exists fs, read_facets n t = Ret fs).
        { clear. induction n as [|n IH]; intros t L; cbn [read_facets]; [eauto|]. destruct (Nat.ltb_spec (String.length t) 50); [lia|].
          destruct (IH (drop 50 t) ltac:(rewrite drop_len; lia)) as (fs & ->). cbn. eauto. }
        apply Q. rewrite drop_len. lia. }
      destruct R as (fs & R). rewrite (proj2 (K fs)) by (repeat split; try lia; exact R). cbn [obind]. eexists _, _. reflexivity.
  - intros V' F' E. destruct (read_binary s) as [fs|] eqn:R; [|discriminate]. cbn [obind] in E. injection E as EV EF. destruct (proj1 (K fs) eq_refl) as (L & N & RF). apply read_facets_spec in RF as (L2 & LF & C). rewrite drop_len in L2.
    destruct (soup_len to64 fs) as (L3 & L4).
    assert (EV' : V' = fst (soup to64 fs)) by (rewrite <- EV; reflexivity). assert (EF' : F' = snd (soup to64 fs)) by (rewrite <- EF; reflexivity). clear EV EF. subst V' F'.
    exists (Z.to_nat (u32 s 80)). split; [apply number_u32; split; [lia|]; rewrite Z2Nat.id; [reflexivity|lia]|]. split; [congruence|]. split; [congruence|].
    intros i Hi. split; [rewrite soup_F by congruence; cbv zeta; do 2 f_equal; f_equal; [lia|]; f_equal; lia|].
    destruct (nth_error fs i) as [[[a b] c]|] eqn:EI; [|apply nth_error_None in EI; lia]. pose proof (C i (a, b, c) EI) as Q. rewrite !point_drop in Q. apply pair_equal_spec in Q as (Q & ->). apply pair_equal_spec in Q as (-> & ->).
    destruct (soup_V to64 fs i _ _ _ EI) as (VA & VB & VC). intros k Hk.
    assert (P : forall o, (84 + 50 * i + o + 12 <= String.length s)%nat -> forall m, point_at s (84 + (50 * i + o)) = m -> exists x y z, row64 to64 m = [to64 x; to64 y; to64 z] /\
        number_at s (84 + 50 * i + o) x /\ number_at s (84 + 50 * i + o + 4) y /\ number_at s (84 + 50 * i + o + 8) z).
    { intros o LO m <-. unfold point_at. eexists _, _, _. split; [reflexivity|]. repeat split; apply number_u32; (split; [lia|f_equal; lia]). }
    destruct k as [|[|[|k]]]; [| | |lia].
    + destruct (P 12%nat ltac:(lia) _ eq_refl) as (x & y & z & R1 & R2). exists x, y, z. rewrite R1 in VA. rewrite !Nat.add_0_r. split; [exact VA|exact R2].
    + destruct (P 24%nat ltac:(lia) _ eq_refl) as (x & y & z & R1 & R2). exists x, y, z. rewrite R1 in VB. split; [exact VB|]. replace (84 + 50 * i + 12 + 12 * 1)%nat with (84 + 50 * i + 24)%nat by lia. exact R2.
    + destruct (P 36%nat ltac:(lia) _ eq_refl) as (x & y & z & R1 & R2). exists x, y, z. rewrite R1 in VC. split; [exact VC|]. replace (84 + 50 * i + 12 + 12 * 2)%nat with (84 + 50 * i + 36)%nat by lia. exact R2.
Qed.

(** ** ASCII files *)
Definition blank (a : ascii) : Prop := a = "009"%char \/ a = " "%char \/ a = "013"%char \/ a = "010"%char.
(** the line is blanks, the keyword, and a rest *)
Definition begins (k l r : string) : Prop := exists w, all_chars blank w /\ l = w ++ k ++ r.
(** the line l says t; the normal and the corners are three numbers after the keyword *)
Definition says (l : string) (t : token) : Prop :=
  match t with
  | TSolid => exists r, begins "solid" l r
  | TEndSolid => exists r, begins "endsolid" l r
  | TNormal => exists r p, begins "facet normal" l r /\ three_values getf (trim r) = Some p
  | TEndFacet => exists r, begins "endfacet" l r
  | TLoop => exists r, begins "outer loop" l r
  | TEndLoop => exists r, begins "endloop" l r
  | TVertex p => exists r, begins "vertex" l r /\ three_values getf (trim r) = Some p
  end.
(** the lines that begin with one of the seven keywords say ts, in order; all other lines are ignored *)
Inductive spelled : list string -> list token -> Prop :=
| spelled_nil : spelled [] []
| spelled_other l ls ts : (forall k r, In k ["solid"; "endsolid"; "facet normal"; "endfacet"; "outer loop"; "endloop"; "vertex"] -> ~ begins k l r) -> spelled ls ts -> spelled (l :: ls) ts
| spelled_line l ls t ts : says l t -> spelled ls ts -> spelled (l :: ls) (t :: ts).
Definition facet_says (f : facet) : list token := let '(a, b, c) := f in [TNormal; TLoop; TVertex a; TVertex b; TVertex c; TEndLoop; TEndFacet].

Lemma white_blank a : white a = true <-> blank a.
Proof.
  unfold white, blank, TAB, SP, CR, NL. rewrite !orb_true_iff, !Ascii.eqb_eq. tauto.
Qed.
Lemma trim_left_split s : exists w, all_chars blank w /\ s = w ++ trim_left s.
Proof.
  induction s as [|a s (w & A & E)]; [exists ""; split; [exact I|reflexivity]|]. cbn. destruct (white a) eqn:W; [|exists ""; split; [exact I|reflexivity]].
  exists (String a w). split; [split; [apply white_blank, W|exact A]|]. cbn. congruence.
Qed.
Lemma trim_left_skip w s : all_chars blank w -> trim_left (w ++ s) = trim_left s.
Proof. induction w as [|a w IH]; [reflexivity|]. intros (A & B). cbn. apply white_blank in A. rewrite A. auto. Qed.
Fixpoint last_black (k : string) : Prop := match k with EmptyString => False | String a EmptyString => white a = false | String _ r => last_black r end.
Lemma starts_trim_right k : last_black k -> forall s, starts k (trim_right s) = starts k s.
Proof.
  induction k as [|a k IH]; [intros []|]. intros L s. destruct s as [|b s]; [reflexivity|]. cbn [trim_right].
  destruct k as [|a' k].
  - cbn in L. destruct (trim_right s) eqn:T; [|cbn; reflexivity]. destruct (white b) eqn:W; [|reflexivity]. cbn. destruct (Ascii.eqb_spec a b); [subst; congruence|reflexivity].
  - specialize (IH L s). destruct (trim_right s) eqn:T.
    + cbn [starts] in *. rewrite <- IH. rewrite andb_false_r. destruct (white b); cbn; [reflexivity|apply andb_false_r].
    + cbn [starts] in *. rewrite <- IH. reflexivity.
Qed.
Lemma trim_left_right s : trim_left (trim_right s) = trim_right (trim_left s).
Proof.
  induction s as [|a s IH]; [reflexivity|]. cbn [trim_left]. destruct (white a) eqn:W.
  - rewrite <- IH. cbn [trim_right]. destruct (trim_right s) eqn:T; [rewrite W; reflexivity|]. cbn [trim_left]. rewrite W. reflexivity.
  - cbn [trim_right]. destruct (trim_right s) eqn:T; [rewrite W; cbn; rewrite W; reflexivity|]. cbn [trim_left]. rewrite W. reflexivity.
Qed.
Lemma trim_right_idem s : trim_right (trim_right s) = trim_right s.
Proof.
  induction s as [|a s IH]; [reflexivity|]. cbn [trim_right]. destruct (trim_right s) eqn:T.
  - destruct (white a) eqn:W; [reflexivity|]. cbn. rewrite W. reflexivity.
  - cbn [trim_right] in *. rewrite IH. reflexivity.
Qed.
Lemma trim_trim_right s : trim (trim_right s) = trim s.
Proof. unfold trim. rewrite trim_left_right, trim_right_idem. reflexivity. Qed.
Lemma drop_trim_right k r : last_black k -> drop (String.length k) (trim_right (k ++ r)) = trim_right r.
Proof.
  induction k as [|a k IH]; [intros []|]. intros L. cbn [append trim_right String.length]. destruct k as [|b k].
  - cbn [append] in *. cbn in L. destruct (trim_right r); [rewrite L|]; reflexivity.
  - specialize (IH L). destruct (trim_right (String b k ++ r)) eqn:T; [|cbn [drop]; exact IH].
    exfalso. pose proof (starts_trim_right (String b k) L (String b k ++ r)) as Q. rewrite T in Q. cbn in Q.
    assert (starts (String b k) (String b k ++ r) = true) by (apply starts_iff; eauto). cbn in H. congruence.
Qed.
Definition first_black (k : string) : Prop := match k with EmptyString => False | String a _ => white a = false end.
Lemma begins_iff k l : last_black k -> first_black k -> starts k (trim l) = true <-> exists r, begins k l r.
Proof.
  intros L FB. unfold trim. rewrite starts_trim_right by exact L. rewrite starts_iff. destruct (trim_left_split l) as (w & W & E). split.
  - intros (r & Q). exists r, w. split; [exact W|]. rewrite <- Q. exact E.
  - intros (r & w' & W' & ->). exists r. rewrite trim_left_skip by exact W'. destruct k; [destruct FB|]. cbn in FB. cbn. rewrite FB. reflexivity.
Qed.
Lemma begins_rest k l r : last_black k -> first_black k -> begins k l r -> trim (drop (String.length k) (trim l)) = trim r.
Proof.
  intros L FB (w & W & ->). unfold trim at 2. rewrite trim_left_skip by exact W.
  replace (trim_left (k ++ r)) with (k ++ r) by (destruct k; [destruct FB|]; cbn in FB; cbn; rewrite FB; reflexivity).
  rewrite drop_trim_right by exact L. apply trim_trim_right.
Qed.
Lemma keyword_black k : In k keywords -> last_black k /\ first_black k.
Proof. cbn [keywords In]. intros I. repeat (destruct I as [<-|I]; [split; reflexivity|]). contradiction. Qed.
Lemma kw_iff k l : In k keywords -> starts k (trim l) = true <-> exists r, begins k l r.
Proof. intros I. destruct (keyword_black k I). apply begins_iff; auto. Qed.
Lemma says_iff l t : reads getf (trim l) t <-> says l t.
Proof.
  assert (B : forall k r, In k keywords -> begins k l r -> trim (drop (String.length k) (trim l)) = trim r) by (intros k r I; destruct (keyword_black k I); apply begins_rest; auto).
  destruct t; cbn [reads says]; try (apply kw_iff; cbn; tauto).
  - split.
    + intros (S & p & P). apply kw_iff in S as (r & S); [|cbn; tauto]. exists r, p. split; [exact S|]. rewrite <- (B "facet normal" r ltac:(cbn; tauto) S). exact P.
    + intros (r & p & S & P). split; [apply kw_iff; [cbn; tauto|eauto]|]. exists p. rewrite <- (B "facet normal" r ltac:(cbn; tauto) S) in P. exact P.
  - split.
    + intros (S & P). apply kw_iff in S as (r & S); [|cbn; tauto]. exists r. split; [exact S|]. rewrite <- (B "vertex" r ltac:(cbn; tauto) S). exact P.
    + intros (r & S & P). split; [apply kw_iff; [cbn; tauto|eauto]|]. rewrite <- (B "vertex" r ltac:(cbn; tauto) S) in P. exact P.
Qed.
Lemma spelled_iff ls ts : tokens getf (map trim ls) ts <-> spelled ls ts.
Proof.
  split.
  - revert ts. induction ls as [|l ls IH]; intros ts H; inversion H; subst; [constructor| |].
    + apply spelled_other; [|auto]. intros k r I Bg. assert (Q : starts k (trim l) = true) by (apply kw_iff; eauto). rewrite (H2 k I) in Q. discriminate.
    + apply spelled_line; [apply says_iff; assumption|auto].
  - induction 1 as [|l ls ts N H IH|l ls t ts S H IH]; [constructor| |].
    + cbn. apply tokens_comment; [|exact IH]. intros k I. destruct (starts k (trim l)) eqn:Q; [|reflexivity]. apply kw_iff in Q as (r & Q); [|exact I]. exfalso. exact (N k r I Q).
    + cbn. apply tokens_line; [apply says_iff; assumption|exact IH].
Qed.
(** the lines of the file, the uninitialised byte added to the last one unless it happens to be a newline *)
Definition lines_of (s : string) (ls : list string) : Prop :=
  exists l0 l, split_on NL s = (l0 ++ [l])%list /\ ls = (l0 ++ [(l ++ (if Ascii.eqb junk NL then "" else String junk ""))%string])%list.

(** an ASCII file with lines of at most 256 bytes is read iff its keyword lines are solid, then for each facet normal, outer loop, three
    vertices, endloop, endfacet, then endsolid; the result are the vertices in this order *)
Theorem C96_ascii_grammar : forall s ls V' F', ~ binary_file s -> Forall (fun l => (String.length l <= 256)%nat) (split_on NL s) -> lines_of s ls ->
  read_stl getf junk to64 s = Ret (V', F') <->
  exists fs, spelled ls (TSolid :: flat_map facet_says fs ++ [TEndSolid]) /\
    V' = map (fun p => let '(x, y, z) := p in [to64 x; to64 y; to64 z]) (flat_map (fun f => let '(a, b, c) := f in [a; b; c]) fs) /\
    F' = map (fun i => [Z.of_nat (3 * i); Z.of_nat (3 * i + 1); Z.of_nat (3 * i + 2)]) (seq 0 (List.length fs)).
Proof.
  intros s ls V' F' NB SH (l0 & l & SP & ->). unfold read_stl, read_stream. destruct (is_ascii s) eqn:A; [|exfalso; apply NB, binary_iff, A].
  assert (FL : file_lines junk s = (l0 ++ [(l ++ (if Ascii.eqb junk NL then "" else String junk ""))%string])%list) by (unfold file_lines; rewrite SP, with_end_app; reflexivity).
  rewrite <- FL. rewrite read_ascii_run by exact SH.
  assert (R : forall fs, run getf (map trim (file_lines junk s)) start = Ret fs <-> spelled (file_lines junk s) (TSolid :: flat_map facet_says fs ++ [TEndSolid])).
  { intros fs. rewrite <- spelled_iff, run_tokens. split; [intros (ts & T & G); apply grammar in G as ->; exact T|]. intros T. eexists. split; [exact T|]. apply grammar. reflexivity. }
  assert (SO : forall fs, soup to64 fs = (map (fun p => let '(x, y, z) := p in [to64 x; to64 y; to64 z]) (flat_map (fun f => let '(a, b, c) := f in [a; b; c]) fs),
      map (fun i => [Z.of_nat (3 * i); Z.of_nat (3 * i + 1); Z.of_nat (3 * i + 2)]) (seq 0 (List.length fs)))).
  { intros fs. unfold soup. f_equal.
    - clear. induction fs as [|[[a b] c] fs IH]; [reflexivity|]. cbn [flat_map app map]. rewrite IH. reflexivity.
    - apply map_ext. intros i. cbv zeta. f_equal. f_equal; [lia|f_equal; lia]. }
  split.
  - destruct (run getf (map trim (file_lines junk s)) start) as [fs|] eqn:E; [|discriminate]. cbn [obind]. rewrite SO. intros Q. injection Q as <- <-. exists fs. split; [apply R; reflexivity|auto].
  - intros (fs & T & -> & ->). apply R in T. rewrite T. cbn [obind]. rewrite SO. reflexivity.
Qed.
(** a file with a longer line is not read *)
Theorem C96_long_line : forall s l, ~ binary_file s -> In l (split_on NL s) -> (257 < String.length l)%nat -> forall VF, read_stl getf junk to64 s <> Ret VF.
Proof.
  intros s l NB I L VF. unfold read_stl, read_stream. destruct (is_ascii s) eqn:A; [|exfalso; apply NB, binary_iff, A]. unfold read_ascii.
  destruct (read_lines getf junk (S (S (String.length s))) (Some s) start) as [fs|] eqn:E; [|discriminate].
  exfalso. apply (read_lines_long getf junk (S (S (String.length s))) s start) with (fs := fs) in E; [exact E|eauto|lia].
Qed.
End Files.
Print Assumptions C96_binary_format.
Print Assumptions C96_ascii_grammar.
Print Assumptions C96_long_line.
