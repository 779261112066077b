(** Lemmas about PlyModel: bytes, and the reading pass over a body whose cells have the declared types. *)
From Coq Require Import String Ascii List ZArith Bool Lia Arith.
From Verif Require Import TextModel TextProofs PlyModel.
From Verif Require CppObjModel StlModel StlProofs.
Import ListNotations.
Open Scope string_scope.
Notation is_space := CppObjModel.is_space.
Notation zero := "000"%char.

(** ** bytes *)
Lemma le_len n : forall z, String.length (le n z) = n.
Proof. induction n; intros; cbn; auto. Qed.
Lemma len_app a b : String.length (a ++ b) = (String.length a + String.length b)%nat. Proof. apply StlProofs.app_len. Qed.
Lemma app_as a b c : (a ++ b) ++ c = a ++ (b ++ c). Proof. apply StlProofs.app_assoc_s. Qed.
Lemma app_e a : a ++ "" = a. Proof. apply StlProofs.app_nil_s. Qed.
Lemma drop_ap a b : drop (String.length a) (a ++ b) = b. Proof. apply StlProofs.drop_app. Qed.
Lemma take_app a : forall b, take (String.length a) (a ++ b) = a.
Proof. induction a; intros; cbn; [destruct b; reflexivity|]. f_equal. auto. Qed.
Lemma drop_n n a b : String.length a = n -> drop n (a ++ b) = b. Proof. intros <-. apply drop_ap. Qed.
Lemma take_n n a b : String.length a = n -> take n (a ++ b) = a. Proof. intros <-. apply take_app. Qed.
Lemma back_len s : String.length (backwards s) = String.length s.
Proof. induction s; cbn; auto. rewrite len_app, IHs. cbn. lia. Qed.
Lemma back_app a b : backwards (a ++ b) = backwards b ++ backwards a.
Proof. induction a; cbn; [rewrite app_e; auto|]. rewrite IHa, app_as. auto. Qed.
Lemma back_back s : backwards (backwards s) = s.
Proof. induction s; cbn; auto. rewrite back_app, IHs. reflexivity. Qed.
Lemma pow256 n : (256 ^ Z.of_nat (S n) = 256 * 256 ^ Z.of_nat n)%Z.
Proof. rewrite Nat2Z.inj_succ, Z.pow_succ_r by lia. auto. Qed.
Lemma pow256_pos n : (0 < 256 ^ Z.of_nat n)%Z. Proof. apply Z.pow_pos_nonneg; lia. Qed.
Lemma num_le n : forall z s, (0 <= z < 256 ^ Z.of_nat n)%Z -> num n (le n z ++ s) = z.
Proof.
  induction n as [|n IH]; intros z s H; [cbn in *; lia|]. rewrite pow256 in H. cbn [le append num]. rewrite StlProofs.value_byte by (apply Z.mod_pos_bound; lia).
  rewrite IH; [pose proof (Z.div_mod z 256 ltac:(lia)); lia|]. split; [apply Z.div_pos; lia|apply Z.div_lt_upper_bound; lia].
Qed.
Lemma num_le' n z : (0 <= z < 256 ^ Z.of_nat n)%Z -> num n (le n z) = z.
Proof. intros H. rewrite <- (app_e (le n z)). apply num_le; auto. Qed.
Lemma num_zeros n : forall k, num n (rep k zero) = 0%Z.
Proof. induction n; intros [|k]; cbn; auto. rewrite IHn. reflexivity. Qed.
Lemma rep_len k a : String.length (rep k a) = k. Proof. induction k; cbn; auto. Qed.
Lemma rep_app k l a : rep (k + l) a = rep k a ++ rep l a. Proof. induction k; cbn; congruence. Qed.
Lemma le_zero n : le n 0 = rep n zero.
Proof. induction n; auto. change (le (S n) 0) with (String (byte (0 mod 256)) (le n (0 / 256))). rewrite Zdiv_0_l, IHn. reflexivity. Qed.
Lemma le_small n m z : (0 <= z < 256)%Z -> (1 <= n <= m)%nat -> le n z ++ rep (m - n) zero = le m z.
Proof.
  intros H L. destruct n as [|n]; [lia|]. destruct m as [|m]; [lia|]. cbn [le append]. rewrite Z.div_small by lia. f_equal. rewrite !le_zero, <- rep_app. f_equal. lia.
Qed.
Lemma cat_app a b : cat (a ++ b)%list = cat a ++ cat b.
Proof. induction a; cbn; auto. rewrite IHa, app_as. auto. Qed.

(** ** what a body is *)
(** the bytes of a number in a binary file of the given byte order; in memory they have the order Little *)
Definition enc (f : format) (t : ptype) (z : Z) : string := match f with Big => backwards (le (stride t) z) | _ => le (stride t) z end.
Lemma enc_len f t z : String.length (enc f t z) = stride t.
Proof. destruct f; cbn [enc]; rewrite ?back_len; apply le_len. Qed.
Fixpoint all_space (s : string) : bool := match s with EmptyString => true | String a r => is_space a && all_space r end.
Fixpoint no_space (s : string) : bool := match s with EmptyString => true | String a r => negb (is_space a) && no_space r end.
Definition wordy (w : string) : Prop := w <> "" /\ no_space w = true.
Definition ends (r : string) : Prop := match r with "" => True | String a _ => is_space a = true end.
Inductive cellv := One (z : Z) | Many (zs : list Z).
Definition cell_vals (v : cellv) : list Z := match v with One z => [z] | Many zs => zs end.

Section Body.
Variable geta : ptype -> string -> option (Z * string).
Variable junk : ascii.
(** the file has the number z of type t here, and r follows *)
Inductive scalar_at : format -> ptype -> Z -> string -> string -> Prop :=
| at_little t z r : scalar_at Little t z (enc Little t z ++ r) r
| at_big t z r : scalar_at Big t z (enc Big t z ++ r) r
| at_text t z b w r : all_space b = true -> wordy w -> ends r -> geta t (b ++ w ++ r) = Some (z, r) -> scalar_at Text t z (b ++ w ++ r) r.
Inductive scalars_at (f : format) (t : ptype) : list Z -> string -> string -> Prop :=
| scalars_nil s : scalars_at f t [] s s
| scalars_cons z zs s m r : scalar_at f t z s m -> scalars_at f t zs m r -> scalars_at f t (z :: zs) s r.
(** a property: one number, or a count and that many numbers *)
Inductive cell_at (f : format) (p : prop) : cellv -> string -> string -> Prop :=
| cell_one z s r : plist p = None -> scalar_at f (pty p) z s r -> cell_at f p (One z) s r
| cell_many lt zs s m r : plist p = Some lt -> scalar_at f lt (Z.of_nat (List.length zs)) s m -> scalars_at f (pty p) zs m r -> cell_at f p (Many zs) s r.
Inductive row_at (f : format) : list prop -> list cellv -> string -> string -> Prop :=
| row_nil s : row_at f [] [] s s
| row_cons p v ps vs s m r : cell_at f p v s m -> row_at f ps vs m r -> row_at f (p :: ps) (v :: vs) s r.
Inductive rows_at (f : format) (ps : list prop) : list (list cellv) -> string -> string -> Prop :=
| rows_nil s : rows_at f ps [] s s
| rows_cons vs vss s m r : row_at f ps vs s m -> rows_at f ps vss m r -> rows_at f ps (vs :: vss) s r.
Inductive body_at (f : format) : list element -> list (list (list cellv)) -> string -> string -> Prop :=
| body_nil s : body_at f [] [] s s
| body_cons e es vss D s m r : List.length vss = esize e -> rows_at f (eprops e) vss s m -> body_at f es D m r -> body_at f (e :: es) (vss :: D) s r.

(** the bytes that the cells of group t take, in file order *)
Definition cell_raw (f : format) (p : prop) (v : cellv) : string := cat (map (enc f (pty p)) (cell_vals v)).
Definition owned (gs : list group) (e : element) (p : prop) (t : tag) : bool := match owner gs (key e p) with Some g => tag_beq (gtag g) t | None => false end.
Definition cell_part gs f e p v t : string := if owned gs e p t then cell_raw f p v else "".
Fixpoint row_raw gs f e (ps : list prop) (vs : list cellv) (t : tag) : string :=
  match ps, vs with p :: ps', v :: vs' => cell_part gs f e p v t ++ row_raw gs f e ps' vs' t | _, _ => "" end.
Definition rows_raw gs f e (ps : list prop) (vss : list (list cellv)) (t : tag) : string := cat (map (fun vs => row_raw gs f e ps vs t) vss).
Fixpoint body_raw gs f (es : list element) (D : list (list (list cellv))) (t : tag) : string :=
  match es, D with e :: es', vss :: D' => rows_raw gs f e (eprops e) vss t ++ body_raw gs f es' D' t | _, _ => "" end.

Variable gs : list group.
Variable T : tag.
Definition list_type (t : ptype) : Prop := match t with INVALID | FLOAT32 | FLOAT64 => False | _ => True end.
(** lists have fewer than 256 entries; requested numbers have a type, requested lists are those of group T, of three four-byte numbers *)
Definition cell_good (e : element) (p : prop) (v : cellv) : Prop :=
  (forall lt, plist p = Some lt -> list_type lt /\ (List.length (cell_vals v) < 256)%nat) /\
  (forall g, owner gs (key e p) = Some g -> pty p <> INVALID /\ (plist p <> None -> gtag g = T /\ stride (pty p) = 4%nat /\ List.length (cell_vals v) = 3%nat)).
Definition row_good (e : element) (ps : list prop) (vs : list cellv) : Prop := Forall2 (cell_good e) ps vs.
Definition body_good (es : list element) (D : list (list (list cellv))) : Prop := Forall2 (fun e vss => Forall (row_good e (eprops e)) vss) es D.

(** ** one number *)
Lemma skip_space_app b s : all_space b = true -> CppObjModel.skip_space (b ++ s) = CppObjModel.skip_space s.
Proof. induction b as [|a b IH]; cbn; auto. intros H. apply andb_true_iff in H as (-> & H). auto. Qed.
Lemma take_word_word w r : no_space w = true -> ends r -> take_word (w ++ r) = (w, r).
Proof.
  induction w as [|a w IH]; cbn [append take_word no_space]; intros H E.
  - destruct r as [|a r]; [reflexivity|]. cbn in *. rewrite E. reflexivity.
  - apply andb_true_iff in H as (A & H). apply negb_true_iff in A. rewrite A, IH by auto. reflexivity.
Qed.
Lemma token_word b w r : all_space b = true -> wordy w -> ends r -> token (b ++ w ++ r) = (w, r).
Proof.
  intros B (N & W) E. unfold token. rewrite skip_space_app by auto. destruct w as [|a w]; [congruence|]. pose proof W as W0. cbn in W. apply andb_true_iff in W as (A & W). apply negb_true_iff in A.
  replace (CppObjModel.skip_space (String a w ++ r)) with (String a w ++ r) by (cbn; rewrite A; reflexivity). apply take_word_word; auto.
Qed.
Lemma rd_app n a s : String.length a = n -> rd n (Some (a ++ s)) = (a, Some s).
Proof. intros L. unfold rd. rewrite len_app. destruct (Nat.ltb_spec (String.length a + String.length s) n); [lia|]. rewrite take_n, drop_n by auto. reflexivity. Qed.
Lemma scalars_binary f t zs s r : f <> Text -> scalars_at f t zs s r -> s = cat (map (enc f t) zs) ++ r.
Proof.
  intros NT H. induction H as [|z zs s m r H1 H2 IH]; [reflexivity|]. cbn [map cat]. rewrite app_as, <- IH. destruct H1; congruence.
Qed.
Lemma cat_enc_len f t zs : String.length (cat (map (enc f t) zs)) = (stride t * List.length zs)%nat.
Proof. induction zs; cbn [map cat List.length]; [cbn; lia|]. rewrite len_app, enc_len, IHzs. lia. Qed.
Lemma scalar_binary f t z s r : f <> Text -> scalar_at f t z s r -> s = enc f t z ++ r.
Proof. intros NT H. destruct H; congruence. Qed.
Lemma scalar_text t z s r : scalar_at Text t z s r -> geta t s = Some (z, r) /\ exists w, w <> "" /\ token s = (w, r).
Proof. intros H. inversion H as [| |? ? b w ? B W E G]; subst. split; auto. exists w. split; [apply W|apply token_word; auto]. Qed.

Definition small (l : string) : Prop := exists a, l = String a (rep 3 zero).
(** the stream is at s, listSize is below 256, dummyCount is bounded by what was read *)
Definition Inv (st : state) (s : string) : Prop := strm st = Some s /\ small (lsz st) /\ (dc st <= 4 + String.length (bufs st T))%nat.
Lemma list_size_small n l : (n < 256)%nat -> l = le 4 (Z.of_nat n) -> Z.to_nat (num 4 l) = n /\ small l.
Proof.
  intros L ->. split; [rewrite num_le' by (cbn; lia); apply Nat2Z.id|]. change (le 4 (Z.of_nat n)) with (String (byte (Z.of_nat n mod 256)) (le 3 (Z.of_nat n / 256))).
  rewrite Z.div_small by lia. rewrite le_zero. eexists. reflexivity.
Qed.
Lemma list_type_stride lt : list_type lt -> (1 <= stride lt <= 4)%nat.
Proof. destruct lt; cbn; intuition lia. Qed.
Lemma drop_small k l : (1 <= k <= 4)%nat -> small l -> drop k l = rep (4 - k) zero.
Proof. intros K (a & ->). destruct k as [|[|[|[|[|k]]]]]; try lia; reflexivity. Qed.
Lemma backwards_one s : String.length s = 1%nat -> backwards s = s.
Proof. destruct s as [|a [|]]; try discriminate. reflexivity. Qed.
Lemma get_list_ok f lt n st s r : f <> Text -> list_type lt -> (n < 256)%nat -> scalar_at f lt (Z.of_nat n) s r -> Inv st s ->
  exists st', get_list_size f lt st = Ret st' /\ list_size st' = n /\ Inv st' r /\ bufs st' = bufs st.
Proof.
  intros NT LT L A (I1 & I2 & I3). apply scalar_binary in A; auto. subst s. pose proof (list_type_stride lt LT) as K. unfold get_list_size.
  destruct (Nat.ltb_spec 4 (stride lt)); [lia|]. rewrite I1, rd_app by apply enc_len. rewrite enc_len, drop_small by auto.
  set (l := if big f && ints lt then _ else _). assert (E : l = le 4 (Z.of_nat n)).
  { unfold l. rewrite take_n, drop_n by apply enc_len. destruct f; [congruence| |]; cbn [big andb enc].
    - apply le_small; auto. lia.
    - destruct (ints lt) eqn:Q.
      + rewrite back_back. apply le_small; auto. lia.
      + rewrite backwards_one; [apply le_small; auto; lia|]. rewrite le_len. destruct lt; cbn in *; intuition congruence. }
  destruct (list_size_small n l L E) as (E1 & E2). eexists. split; [reflexivity|]. unfold list_size, Inv; cbn. auto.
Qed.
Lemma text_size_ok lt n st s r d : list_type lt -> (n < 256)%nat -> scalar_at Text lt (Z.of_nat n) s r -> strm st = Some s -> small (lsz st) ->
  exists st', get_text_size geta junk lt d st = Ret st' /\ list_size st' = n /\ strm st' = Some r /\ small (lsz st') /\ dc st' = (d + stride lt)%nat /\ bufs st' = bufs st.
Proof.
  intros LT L A I1 I2. apply scalar_text in A as (G & _). pose proof (list_type_stride lt LT) as K. unfold get_text_size.
  destruct (Nat.ltb_spec 4 (stride lt)); [lia|]. rewrite I1. cbn [get_number]. rewrite G, drop_small by auto.
  destruct (list_size_small n (le (stride lt) (Z.of_nat n) ++ rep (4 - stride lt) zero) L) as (E1 & E2); [apply le_small; auto; lia|].
  eexists. split; [reflexivity|]. unfold list_size; cbn. auto 8.
Qed.
(** ** one cell *)
Lemma upd_same {A} (f : tag -> A) t x : upd f t x t = x. Proof. unfold upd. destruct t; reflexivity. Qed.
Lemma tag_eqb t u : tag_beq t u = true <-> t = u. Proof. split; [destruct t, u; (reflexivity || discriminate)|intros ->; destruct u; reflexivity]. Qed.
Lemma upd_other {A} (f : tag -> A) t x u : t <> u -> upd f t x u = f u.
Proof. unfold upd. intros N. destruct (tag_beq u t) eqn:E; auto. apply tag_eqb in E. congruence. Qed.
Lemma upd_append (f : tag -> string) t x u : upd f t (f t ++ x) u = f u ++ (if tag_beq t u then x else "").
Proof. unfold upd. destruct (tag_beq u t) eqn:E, (tag_beq t u) eqn:E'; rewrite ?app_e; auto; try (apply tag_eqb in E; subst; auto); try (apply tag_eqb in E'; subst; destruct u; discriminate). destruct t; discriminate. Qed.
(** what a step does: the stream moves on and the groups grow *)
Definition does (step : state -> outcome state) (s r : string) (add : tag -> string) (st : state) : Prop :=
  exists st', step st = Ret st' /\ Inv st' r /\ forall t, bufs st' t = bufs st t ++ add t.
Definition fits (cap : tag -> nat) (st : state) (add : tag -> string) : Prop := forall t, (String.length (bufs st t ++ add t) <= cap t)%nat.
Lemma get_bytes_ok f cap t st a r : strm st = Some (a ++ r) -> (String.length (bufs st t) + String.length a <= cap t)%nat ->
  exists st', get_bytes junk f cap t (String.length a) st = Ret st' /\ strm st' = Some r /\ lsz st' = lsz st /\ dc st' = dc st /\ forall u, bufs st' u = bufs st u ++ (if tag_beq t u then a else "").
Proof.
  intros I L. unfold get_bytes. destruct (Nat.ltb_spec (cap t) (String.length (bufs st t) + String.length a)); [lia|]. rewrite I, rd_app by auto. eexists. split; [reflexivity|]. cbn.
  rewrite Nat.sub_diag. cbn. rewrite app_e. repeat split. intros u. apply upd_append.
Qed.
Lemma get_text_ok cap t ty z st s r : ty <> INVALID -> scalar_at Text ty z s r -> strm st = Some s -> (String.length (bufs st t) + stride ty <= cap t)%nat ->
  exists st', get_text geta junk cap t ty st = Ret st' /\ strm st' = Some r /\ lsz st' = lsz st /\ dc st' = dc st /\ forall u, bufs st' u = bufs st u ++ (if tag_beq t u then enc Text ty z else "").
Proof.
  intros N A I L. apply scalar_text in A as (G & _). unfold get_text. destruct (Nat.ltb_spec (cap t) (String.length (bufs st t) + stride ty)); [lia|]. rewrite I. cbn [get_number]. rewrite G.
  eexists. split; [destruct ty; [congruence|reflexivity..]|]. cbn. repeat split. intros u. apply upd_append.
Qed.
Lemma get_texts_ok cap t ty zs : ty <> INVALID -> forall st s r, scalars_at Text ty zs s r -> strm st = Some s -> (String.length (bufs st t) + stride ty * List.length zs <= cap t)%nat ->
  exists st', times (List.length zs) (get_text geta junk cap t ty) st = Ret st' /\ strm st' = Some r /\ lsz st' = lsz st /\ dc st' = dc st /\ forall u, bufs st' u = bufs st u ++ (if tag_beq t u then cat (map (enc Text ty) zs) else "").
Proof.
  intros N. induction zs as [|z zs IH]; intros st s r A I L; inversion A; subst.
  - exists st. cbn. repeat split; auto. intros u. destruct (tag_beq t u); rewrite app_e; auto.
  - cbn [List.length] in L. destruct (get_text_ok cap t ty z st s m N) as (st1 & E1 & I1 & L1 & D1 & B1); auto; [lia|].
    assert (X : tag_beq t t = true) by (apply tag_eqb; auto).
    destruct (IH st1 m r) as (st2 & E2 & I2 & L2 & D2 & B2); auto.
    { rewrite B1, X, len_app, enc_len. lia. }
    exists st2. cbn [List.length times]. rewrite E1. cbn [obind]. split; [exact E2|]. split; auto. split; [congruence|]. split; [congruence|].
    intros u. rewrite B2, B1. destruct (tag_beq t u); cbn [map cat]; rewrite ?app_as, ?app_e; auto.
Qed.
Lemma cell_raw_len f p v : String.length (cell_raw f p v) = (stride (pty p) * List.length (cell_vals v))%nat.
Proof. apply cat_enc_len. Qed.
Lemma skip_word_ok st s w r : strm st = Some s -> w <> "" -> token s = (w, r) ->
  exists st', skip_word st = Ret st' /\ strm st' = Some r /\ lsz st' = lsz st /\ dc st' = dc st /\ bufs st' = bufs st.
Proof. intros I N E. unfold skip_word. rewrite I, E. destruct w; [congruence|]. eexists. split; [reflexivity|]. auto. Qed.
Lemma skip_words_ok ty zs : forall st s r, scalars_at Text ty zs s r -> strm st = Some s ->
  exists st', times (List.length zs) skip_word st = Ret st' /\ strm st' = Some r /\ lsz st' = lsz st /\ dc st' = dc st /\ bufs st' = bufs st.
Proof.
  induction zs as [|z zs IH]; intros st s r A I; inversion A; subst; [exists st; auto|].
  match goal with H : scalar_at _ _ _ _ _ |- _ => apply scalar_text in H as (_ & w & W & K) end.
  destruct (skip_word_ok st s w m I W K) as (st1 & E1 & I1 & L1 & D1 & B1). destruct (IH st1 m r) as (st2 & E2 & I2 & L2 & D2 & B2); auto.
  exists st2. cbn [List.length times]. rewrite E1. cbn [obind]. repeat split; congruence.
Qed.
Lemma skip_ok f e p v st s r : cell_at f p v s r -> cell_good e p v -> Inv st s ->
  exists st' n, skip_cell geta junk f p st = Ret (st', n) /\ Inv st' r /\ bufs st' = bufs st.
Proof.
  intros A (G & _) I. destruct A as [z s r P A|lt zs s m r P A1 A2].
  - pose proof I as (I1 & I2 & I3). destruct f.
    + apply scalar_text in A as (_ & w & W & K). destruct (skip_word_ok st s w r I1 W K) as (st1 & E1 & J1 & L1 & D1 & B1). unfold skip_cell. rewrite P, E1. cbn [obind].
      eexists _, _. split; [reflexivity|]. unfold Inv. rewrite L1, D1, B1. auto.
    + apply scalar_binary in A; [|discriminate]. subst s. unfold skip_cell. rewrite P, I1, rd_app by apply enc_len. eexists _, _. split; [reflexivity|]. unfold Inv; cbn. auto.
    + apply scalar_binary in A; [|discriminate]. subst s. unfold skip_cell. rewrite P, I1, rd_app by apply enc_len. eexists _, _. split; [reflexivity|]. unfold Inv; cbn. auto.
  - destruct (G lt P) as (LT & L). cbn in L. destruct f.
    + destruct I as (I1 & I2 & I3). destruct (text_size_ok lt (List.length zs) st s m 0 LT L A1 I1 I2) as (st1 & E1 & S1 & J1 & M1 & D1 & B1).
      destruct (skip_words_ok (pty p) zs st1 m r A2 J1) as (st2 & E2 & J2 & L2 & D2 & B2). pose proof (list_type_stride lt LT).
      exists st2, (list_size st1 * stride (pty p))%nat. unfold skip_cell. rewrite P. split; [|split; [split; [exact J2|split; [rewrite L2; exact M1|lia]]|congruence]].
      destruct lt; [destruct LT|..]; rewrite E1; cbn [obind]; rewrite S1, E2; reflexivity.
    + apply scalars_binary in A2; [|discriminate]. subst m. destruct (get_list_ok Little lt (List.length zs) st s _ ltac:(discriminate) LT L A1 I) as (st1 & E1 & S1 & (J1 & M1 & D1) & B1).
      unfold skip_cell. rewrite P, E1. cbn [obind]. eexists _, _. split; [reflexivity|]. unfold Inv; cbn. rewrite J1, S1. cbn. rewrite drop_n by apply cat_enc_len. rewrite B1 in *. auto.
    + apply scalars_binary in A2; [|discriminate]. subst m. destruct (get_list_ok Big lt (List.length zs) st s _ ltac:(discriminate) LT L A1 I) as (st1 & E1 & S1 & (J1 & M1 & D1) & B1).
      unfold skip_cell. rewrite P, E1. cbn [obind]. eexists _, _. split; [reflexivity|]. unfold Inv; cbn. rewrite J1, S1. cbn. rewrite drop_n by apply cat_enc_len. rewrite B1 in *. auto.
Qed.
Lemma binary_cell_ok f cap t p v st s r e : f <> Text -> cell_at f p v s r -> cell_good e p v -> Inv st s -> (String.length (bufs st t) + String.length (cell_raw f p v) <= cap t)%nat ->
  exists st', read_cell geta junk f cap t p st = Ret st' /\ strm st' = Some r /\ small (lsz st') /\ dc st' = dc st /\ forall u, bufs st' u = bufs st u ++ (if tag_beq t u then cell_raw f p v else "").
Proof.
  intros NT A (G & _) I L. assert (Q : read_cell geta junk f cap t p st = match plist p with None => get_bytes junk f cap t (stride (pty p)) st
    | Some lt => obind (get_list_size f lt st) (fun s' => get_bytes junk f cap t (stride (pty p) * list_size s') s') end) by (destruct f; [congruence|reflexivity..]).
  rewrite Q. clear Q. destruct A as [z s r P A|lt zs s m r P A1 A2]; rewrite P.
  - destruct I as (I1 & I2 & I3). apply scalar_binary in A; auto. subst s. unfold cell_raw in *. cbn [cell_vals map cat] in *. rewrite app_e in *. 
    destruct (get_bytes_ok f cap t st (enc f (pty p) z) r I1 L) as (st' & E & J1 & J2 & J3 & J4). rewrite enc_len in E. exists st'. rewrite J2. auto.
  - destruct (G lt P) as (LT & LL). cbn in LL. destruct (get_list_ok f lt (List.length zs) st s m NT LT LL A1 I) as (st1 & E1 & S1 & (J1 & M1 & D1) & B1).
    apply scalars_binary in A2; auto. subst m. rewrite E1. cbn [obind]. rewrite S1. rewrite <- B1 in L.
    destruct (get_bytes_ok f cap t st1 (cat (map (enc f (pty p)) zs)) r J1 L) as (st' & E & K1 & K2 & K3 & K4). rewrite cat_enc_len in E. exists st'. split; [exact E|]. rewrite K2, K3. split; auto. split; auto.
    split; [|intros u; rewrite K4, B1; reflexivity]. unfold get_list_size in E1. destruct (Nat.ltb 4 (stride lt)); [discriminate|]. destruct (rd (stride lt) (strm st)). injection E1 as <-. reflexivity.
Qed.
Lemma visit_ok f cap i j e p v st s r : cell_at f p v s r -> cell_good e p v -> Inv st s -> fits cap st (cell_part gs f e p v) ->
  does (visit geta junk f gs cap i j e p) s r (cell_part gs f e p v) st.
Proof.
  intros A G I F. unfold does, visit, cell_part, owned in *. destruct (owner gs (key e p)) as [g|] eqn:O.
  2:{ destruct (skip_ok f e p v st s r A G I) as (st' & n & E & J & B). rewrite E. cbn [obind]. exists st'. split; [reflexivity|]. split; auto. intros t. rewrite B, app_e. reflexivity. }
  set (t := gtag g) in *. assert (X : tag_beq t t = true) by (apply tag_eqb; auto). pose proof (F t) as L. cbv beta in L. rewrite X, len_app in L.
  assert (HT : plist p <> None -> t = T /\ stride (pty p) = 4%nat /\ List.length (cell_vals v) = 3%nat) by apply (proj2 G g O).
  assert (HI : pty p <> INVALID) by apply (proj2 G g O).
  assert (NB : f = Text \/ f <> Text) by (destruct f; [left; reflexivity|right; discriminate..]). destruct NB as [-> |NB].
  2:{ destruct (binary_cell_ok f cap t p v st s r e NB A G I L) as (st' & E & J1 & J2 & J3 & J4). exists st'. split; [exact E|]. split; [|exact J4].
      destruct I as (I1 & I2 & I3). split; [auto|split; [auto|rewrite J3, J4, len_app; lia]]. }
  destruct I as (I1 & I2 & I3). destruct A as [z s r P A|lt zs s m r P A1 A2].
  - unfold cell_raw in *. cbn [cell_vals map cat] in *. rewrite app_e, enc_len in L. destruct (get_text_ok cap t (pty p) z st s r HI A I1 L) as (st' & E & J1 & J2 & J3 & J4).
    unfold read_cell. rewrite P. exists st'. split; [exact E|]. split; [split; [auto|split; [rewrite J2; auto|rewrite J3, J4, len_app; lia]]|]. intros u. rewrite J4, app_e. reflexivity.
  - destruct (proj1 G lt P) as (LT & LL). cbn in LL. destruct (HT ltac:(congruence)) as (ET & S4 & L3). cbn in L3. rewrite cell_raw_len in L. cbn [cell_vals] in L. rewrite S4, L3 in L.
    pose proof (list_type_stride lt LT) as K. unfold read_cell. rewrite P. rewrite <- ET in I3. destruct (Nat.ltb_spec (cap t) (dc st + stride lt)); [lia|].
    destruct (text_size_ok lt (List.length zs) st s m (dc st) LT LL A1 I1 I2) as (st1 & E1 & S1 & J1 & M1 & D1 & B1).
    destruct (get_texts_ok cap t (pty p) zs HI st1 m r A2 J1) as (st2 & E2 & J2 & M2 & D2 & B2); [rewrite B1, S4, L3; lia|].
    exists st2. split; [destruct lt; [destruct LT|..]; rewrite E1; cbn [obind]; rewrite S1; exact E2|]. split.
    + split; [auto|]. split; [rewrite M2; auto|]. rewrite D2, D1, B2, B1, <- ET, X, len_app, cat_enc_len, S4, L3. lia.
    + intros u. rewrite B2, B1. reflexivity.
Qed.
(** ** the loops *)
Lemma fits_split cap st a b : fits cap st (fun t => a t ++ b t) -> fits cap st a.
Proof. intros F t. specialize (F t). cbn in F. rewrite !len_app in *. lia. Qed.
Lemma fits_next cap st st' a b : fits cap st (fun t => a t ++ b t) -> (forall t, bufs st' t = bufs st t ++ a t) -> fits cap st' b.
Proof. intros F B t. rewrite B, app_as. apply F. Qed.
Lemma props_ok f cap i e ps : forall j vs st s r, row_at f ps vs s r -> row_good e ps vs -> Inv st s -> fits cap st (row_raw gs f e ps vs) ->
  does (over_props (visit geta junk f gs cap) i j e ps) s r (row_raw gs f e ps vs) st.
Proof.
  induction ps as [|p ps IH]; intros j vs st s r A G I F; inversion A; subst.
  - exists st. cbn. repeat split; auto; try apply I. intros t. rewrite app_e. reflexivity.
  - inversion G; subst. cbn [row_raw] in F. destruct (visit_ok f cap i j e p v st s m) as (st1 & E1 & I1 & B1); auto; [eapply fits_split; exact F|].
    destruct (IH (S j) vs0 st1 m r) as (st2 & E2 & I2 & B2); auto; [eapply fits_next; eauto|].
    exists st2. cbn [over_props]. rewrite E1. cbn [obind]. split; [exact E2|]. split; auto. intros t. rewrite B2, B1, app_as. reflexivity.
Qed.
Lemma rows_ok f cap i e ps vss : forall st s r, rows_at f ps vss s r -> Forall (row_good e ps) vss -> Inv st s -> fits cap st (rows_raw gs f e ps vss) ->
  does (times (List.length vss) (over_props (visit geta junk f gs cap) i 0 e ps)) s r (rows_raw gs f e ps vss) st.
Proof.
  induction vss as [|vs vss IH]; intros st s r A G I F; inversion A; subst.
  - exists st. cbn. repeat split; auto; try apply I. intros t. unfold rows_raw; cbn. rewrite app_e. reflexivity.
  - inversion G; subst. destruct (props_ok f cap i e ps 0 vs st s m) as (st1 & E1 & I1 & B1); auto; [eapply fits_split; exact F|].
    destruct (IH st1 m r) as (st2 & E2 & I2 & B2); auto; [eapply fits_next; [exact F|exact B1]|].
    exists st2. cbn [List.length times]. rewrite E1. cbn [obind]. split; [exact E2|]. split; auto. intros t. rewrite B2, B1, app_as. reflexivity.
Qed.
Lemma elements_ok f cap es : forall i D st s r, body_at f es D s r -> body_good es D -> Inv st s -> fits cap st (body_raw gs f es D) ->
  does (over_elements (visit geta junk f gs cap) i es) s r (body_raw gs f es D) st.
Proof.
  induction es as [|e es IH]; intros i D st s r A G I F; inversion A; subst.
  - exists st. cbn. repeat split; auto; try apply I. intros t. rewrite app_e. reflexivity.
  - inversion G; subst. destruct (rows_ok f cap i e (eprops e) vss st s m) as (st1 & E1 & I1 & B1); auto; [eapply fits_split; exact F|].
    destruct (IH (S i) D0 st1 m r) as (st2 & E2 & I2 & B2); auto; [eapply fits_next; [exact F|exact B1]|].
    exists st2. cbn [over_elements]. match goal with H : List.length vss = esize e |- _ => rewrite <- H end. rewrite E1. cbn [obind]. split; [exact E2|]. split; auto. intros t. rewrite B2, B1, app_as. reflexivity.
Qed.
(** reading a body into empty buffers that are large enough *)
Lemma read_body_ok f cap es D s r : body_at f es D s r -> body_good es D -> (forall t, (String.length (body_raw gs f es D t) <= cap t)%nat) ->
  exists st, over_elements (visit geta junk f gs cap) 0 es (initial (Some s)) = Ret st /\ forall t, bufs st t = body_raw gs f es D t.
Proof.
  intros A G L. destruct (elements_ok f cap es 0 D (initial (Some s)) s r A G) as (st & E & _ & B).
  - split; [reflexivity|]. split; [exists zero; reflexivity|cbn; lia].
  - intros t. apply L.
  - exists st. split; [exact E|]. intros t. rewrite B. reflexivity.
Qed.
End Body.
