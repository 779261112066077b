(** C94: what the C++ OBJ writer writes, the C++ reader reads back; and both engines write the same text. *)
From Coq Require Import String Ascii List ZArith Bool Lia.
From Verif Require Import PyExn TextModel TextProofs ObjModel P_Obj CppObjModel CppObjProofs P_CppObj.
Import ListNotations.
Open Scope string_scope.

(** * Specification *)
(** the rows of a matrix have its number of columns, and there is a column if there is a row *)
Definition wf {A} (M : mat A) : Prop := width (mcols M) (rws M) /\ (rws M = [] \/ (1 <= mcols M)%nat).
(** an index whose 1-based form fits into an int *)
Definition index (z : Z) : Prop := (-2147483649 <= z <= 2147483646)%Z.
Definition indices (M : mat Z) : Prop := Forall (Forall index) (rws M).
(** triangles, and a matrix that is either absent or gives every corner of them an index *)
Definition triangles (F : mat Z) : Prop := mcols F = 3%nat /\ width 3 (rws F).
Definition attached (F X : mat Z) : Prop := rws X = [] \/ (nrows X = nrows F /\ triangles X).
(** what the file says about the texture (or normal) numbers: those given; without any, the vertex numbers if there are as many texture coordinates as vertices; else nothing *)
Definition numbers {Num} (V : mat Num) (F : mat Z) (D : mat Num) (X : mat Z) : list (list Z) :=
  match rws X with [] => if Nat.eqb (nrows D) (nrows V) then rws F else map (map (fun _ => (-1)%Z)) (rws F) | x => x end.
(** contract of the number formatting: printed numbers are words without line breaks that are read as the number itself *)
Definition prints {Num} (show : Num -> string) (stod : string -> conv Num) : Prop := forall v, stod (show v) = Val v /\ word (show v) /\ mem_char NL (show v) = false.

Lemma nth_map_seq_id {A} (l : list (list A)) : map (fun i => nth i l []) (seq 0 (List.length l)) = l.
Proof. induction l as [|x l IH]; [auto|]. cbn [List.length seq map nth]. f_equal. rewrite <- seq_shift, map_map. exact IH. Qed.
Section Write.
Context {Num : Type}.
Variable show : Num -> string.
Notation write := (CppObjModel.write_obj show).

(** ** The writer fails exactly if texture or normal numbers are given whose shape is not that of the faces, and then with the code of the first such matrix *)
Theorem C94_writer_checks V F UV Ft N Fn : let fits (X : mat Z) := nrows X = 0%nat \/ (nrows X = nrows F /\ mcols X = mcols F) in
  (fits Ft /\ fits Fn <-> exists text, write V F UV Ft N Fn = Ret text) /\ (~ fits Ft -> write V F UV Ft N Fn = Code (-11)) /\ (fits Ft /\ ~ fits Fn -> write V F UV Ft N Fn = Code (-12)).
Proof.
  cbv zeta. unfold CppObjModel.write_obj. assert (D : forall (X : mat Z) D, ((Nat.ltb 0 (nrows X) || (Nat.eqb (nrows X) 0 && D)) && negb (Nat.eqb (nrows X) 0 && D) && (negb (Nat.eqb (nrows X) (nrows F)) || negb (Nat.eqb (mcols X) (mcols F))))%bool = true <-> ~ (nrows X = 0%nat \/ (nrows X = nrows F /\ mcols X = mcols F))).
  { intros X D. destruct (Nat.eqb_spec (nrows X) 0) as [E|E]; [rewrite E; destruct D; cbn; split; [discriminate|intros H; exfalso; auto|discriminate|intros H; exfalso; auto]|]. assert (L : Nat.ltb 0 (nrows X) = true) by (apply Nat.ltb_lt; lia). rewrite L. cbn [andb orb negb].
    destruct (Nat.eqb_spec (nrows X) (nrows F)), (Nat.eqb_spec (mcols X) (mcols F)); cbn; (split; [intros ? [?|?]; congruence || tauto || discriminate|intros H; auto; exfalso; apply H; auto]). }
  pose proof (D Ft (Nat.eqb (nrows UV) (nrows V))) as D1. pose proof (D Fn (Nat.eqb (nrows N) (nrows V))) as D2. destruct (_ && (negb (Nat.eqb (nrows Ft) _) || _))%bool.
  - assert (H : ~ (nrows Ft = 0%nat \/ nrows Ft = nrows F /\ mcols Ft = mcols F)) by (apply D1; auto). split; [split; [tauto|intros (t & Q); discriminate]|]. split; [auto|tauto].
  - assert (H : nrows Ft = 0%nat \/ nrows Ft = nrows F /\ mcols Ft = mcols F) by (destruct (Nat.eq_dec (nrows Ft) 0), (Nat.eq_dec (nrows Ft) (nrows F)), (Nat.eq_dec (mcols Ft) (mcols F)); auto; exfalso; assert (false = true) by (apply D1; tauto); discriminate).
    destruct (_ && (negb (Nat.eqb (nrows Fn) _) || _))%bool.
    + assert (H2 : ~ (nrows Fn = 0%nat \/ nrows Fn = nrows F /\ mcols Fn = mcols F)) by (apply D2; auto). split; [split; [tauto|intros (t & Q); discriminate]|]. split; [tauto|auto].
    + assert (H2 : nrows Fn = 0%nat \/ nrows Fn = nrows F /\ mcols Fn = mcols F) by (destruct (Nat.eq_dec (nrows Fn) 0), (Nat.eq_dec (nrows Fn) (nrows F)), (Nat.eq_dec (mcols Fn) (mcols F)); auto; exfalso; assert (false = true) by (apply D2; tauto); discriminate).
      split; [split; [eauto|auto]|]. split; tauto.
Qed.

(** the corners of one written face *)
Fixpoint corners (f : list Z) (t n : option (list Z)) : list corner3 :=
  match f with [] => [] | a :: f' => ((a + 1)%Z, option_map (fun l => hd (-1) l + 1)%Z t, option_map (fun l => hd (-1) l + 1)%Z n) :: corners f' (option_map (@tl Z) t) (option_map (@tl Z) n) end.
Lemma elements_text f : forall t n, elements f t n = map corner_text (corners f t n).
Proof.
  induction f as [|a f IH]; intros t n; cbn [elements corners map]; [auto|]. rewrite IH. f_equal. destruct t as [t|], n as [n|]; unfold element, corner_text; cbn [option_map append]; rewrite ?app_nil_r_s; auto.
Qed.
Lemma corners_len f : forall t n, List.length (corners f t n) = List.length f.
Proof. induction f; intros; cbn; auto. Qed.
Lemma corners_f f : forall t n, map (fun '(a, _, _) => (a - 1)%Z) (corners f t n) = f.
Proof. induction f as [|a f IH]; intros; cbn; [auto|]. rewrite IH. f_equal. lia. Qed.
Lemma corners_t f : forall l n, List.length l = List.length f -> map (fun '(_, b, _) => zero_based b) (corners f (Some l) n) = l.
Proof. induction f as [|a f IH]; intros [|b l] n E; cbn in *; try discriminate; [auto|]. rewrite IH by lia. f_equal. lia. Qed.
Lemma corners_t0 f : forall n, map (fun '(_, b, _) => zero_based b) (corners f None n) = map (fun _ => (-1)%Z) f.
Proof. induction f as [|a f IH]; intros n; cbn in *; [auto|]. rewrite IH. auto. Qed.
Lemma corners_n f : forall t l, List.length l = List.length f -> map (fun '(_, _, c) => zero_based c) (corners f t (Some l)) = l.
Proof. induction f as [|a f IH]; intros t [|b l] E; cbn in *; try discriminate; [auto|]. rewrite IH by lia. f_equal. lia. Qed.
Lemma corners_n0 f : forall t, map (fun '(_, _, c) => zero_based c) (corners f t None) = map (fun _ => (-1)%Z) f.
Proof. induction f as [|a f IH]; intros t; cbn in *; [auto|]. rewrite IH. auto. Qed.
Lemma corners_small f : forall t n, Forall index f -> match t with Some l => Forall index l /\ List.length l = List.length f | None => True end -> match n with Some l => Forall index l /\ List.length l = List.length f | None => True end -> Forall small_corner (corners f t n).
Proof.
  induction f as [|a f IH]; intros t n HF HT HN; cbn [corners]; [constructor|]. inversion HF; subst. constructor.
  - unfold small_corner, small, index in *. split; [lia|]. split; [destruct t as [[|b t]|]; cbn in *; auto; [lia|destruct HT as (HT & _); inversion HT; lia]|destruct n as [[|b n]|]; cbn in *; auto; [lia|destruct HN as (HN & _); inversion HN; lia]].
  - apply IH; auto; [destruct t as [[|b t]|]; cbn in *; auto; [destruct HT; discriminate|destruct HT as (HT & E); inversion HT; auto]|destruct n as [[|b n]|]; cbn in *; auto; [destruct HN; discriminate|destruct HN as (HN & E); inversion HN; auto]].
Qed.

(** the written lines *)
Lemma join_spaced ws : ws <> [] -> Forall word ws -> spaced (" " ++ join SP ws) ws.
Proof.
  induction ws as [|w ws IH]; intros N W; [congruence|]. inversion W; subst. destruct ws as [|w' ws].
  - cbn [join]. pose proof (sp_word " " w "" [] eq_refl) as Q. rewrite app_nil_r_s in Q. apply Q; auto; [discriminate|constructor; auto].
  - change (join SP (w :: w' :: ws)) with (w ++ (" " ++ join SP (w' :: ws))). apply sp_word; auto; [discriminate|]. apply IH; [discriminate|auto].
Qed.
Definition lines_of (id : string) (rows : list (list string)) : list string := map (fun r => id ++ " " ++ join SP r) rows.
Lemma write_rows {A} id (f : A -> list string) l : map (fun r => CppObjModel.write_row id (f r)) l = map (fun s => s ++ String NL EmptyString) (lines_of id (map f l)).
Proof. unfold lines_of. rewrite !map_map. apply map_ext. intros r. unfold CppObjModel.write_row. rewrite <- str_app_assoc. induction id as [|a id IH]; [reflexivity|]. cbn [append]. f_equal. exact IH. Qed.
Definition item_rows (c : list string -> item) (id : string) (rows : list (list string)) : Prop := Forall2 line_is (map c rows) (lines_of id rows).
Lemma items_rows c id rows : (forall r, In r rows -> line_is (c r) (id ++ " " ++ join SP r)) -> item_rows c id rows.
Proof. unfold item_rows, lines_of. induction rows as [|r rows IH]; intros H; cbn; constructor; [apply H; cbn; auto|apply IH; intros; apply H; cbn; auto]. Qed.

Section Round.
Variable stod : string -> conv Num.
Variables nan junk : Num.
Variable junkZ : Z.
Notation read := (CppObjModel.read_obj stod nan junk junkZ).
Hypothesis PR : prints show stod.
Lemma shown r : Forall word (map show r) /\ Forall (fun s => mem_char NL s = false) (map show r).
Proof. split; apply Forall_forall; intros s I; apply in_map_iff in I; destruct I as (v & <- & _); apply PR. Qed.
Lemma line_clean id r : mem_char NL id = false -> Forall (fun s => mem_char NL s = false) r -> mem_char NL (id ++ " " ++ join SP r) = false.
Proof. intros H F. rewrite !mem_app, H. cbn [mem_char orb]. rewrite mem_join; auto. discriminate. Qed.
Lemma reads_back (X : list (list Num)) Y : Forall2 (Forall2 (reads stod nan)) (map (map show) X) Y -> Y = X.
Proof.
  assert (G : forall (r : list Num) y, Forall2 (reads stod nan) (map show r) y -> y = r).
  { induction r as [|v r IH]; intros y F; inversion F as [|? x ? y' R F']; subst; [auto|]. f_equal; [|auto]. destruct R as [R|(R & _)]; rewrite (proj1 (PR v)) in R; congruence. }
  revert Y. induction X as [|r X IH]; intros Y F; inversion F; subst; [auto|]. f_equal; auto.
Qed.
(** ** Reading what was written: the same vertices, faces, texture and normal coordinates, and their numbers as the file defines them *)
Theorem C94_roundtrip V F UV Ft N Fn u nn : wf V -> wf UV -> wf N -> triangles F -> attached F Ft -> attached F Fn -> indices F -> indices Ft -> indices Fn ->
  exists text r, write V F UV Ft N Fn = Ret text /\ read u nn text = Ret r
    /\ rws (oV r) = rws V /\ rws (oF r) = rws F /\ rws (oUV r) = (if u then rws UV else []) /\ rws (oN r) = (if nn then rws N else [])
    /\ rws (oFt r) = (if u then numbers V F UV Ft else []) /\ rws (oFn r) = (if nn then numbers V F N Fn else []).
Proof.
  intros WV WU WN (CF & WF) AT AN IF_ IT_ IN_.
  assert (fitsT : nrows Ft = 0%nat \/ (nrows Ft = nrows F /\ mcols Ft = mcols F)) by (destruct AT as [E|(E & C & _)]; [left; unfold nrows; rewrite E; auto|right; split; congruence]).
  assert (fitsN : nrows Fn = 0%nat \/ (nrows Fn = nrows F /\ mcols Fn = mcols F)) by (destruct AN as [E|(E & C & _)]; [left; unfold nrows; rewrite E; auto|right; split; congruence]).
  destruct (C94_writer_checks V F UV Ft N Fn) as (WC & _). destruct (proj1 WC (conj fitsT fitsN)) as (text & ET). exists text.
  (* the numbers written next to face i *)
  set (num := fun (D : mat Num) (X : mat Z) (i : nat) => if (Nat.ltb 0 (nrows X) || (Nat.eqb (nrows X) 0 && Nat.eqb (nrows D) (nrows V)))%bool then Some (nth i (rws (if (Nat.eqb (nrows X) 0 && Nat.eqb (nrows D) (nrows V))%bool then F else X)) []) else None).
  set (fc := fun i => corners (nth i (rws F) []) (num UV Ft i) (num N Fn i)).
  set (items := List.app (map IV (map (map show) (rws V))) (List.app (map IT (map (map show) (rws UV))) (List.app (map IN (map (map show) (rws N))) (List.app (map IF (map fc (seq 0 (nrows F)))) [IO])))).
  set (ls := List.app (lines_of "v" (map (map show) (rws V))) (List.app (lines_of "vt" (map (map show) (rws UV))) (List.app (lines_of "vn" (map (map show) (rws N))) (lines_of "f" (map (fun i => map corner_text (fc i)) (seq 0 (nrows F))))))).
  assert (TX : text = cat (map (fun s => s ++ String NL EmptyString) ls)).
  { unfold CppObjModel.write_obj in ET. destruct (_ && (negb (Nat.eqb (nrows Ft) _) || _))%bool; [discriminate|]. destruct (_ && (negb (Nat.eqb (nrows Fn) _) || _))%bool; [discriminate|]. injection ET as <-. unfold ls. rewrite !map_app. f_equal. rewrite <- !write_rows. do 3 f_equal. apply map_ext. intros i. unfold fc. rewrite <- elements_text. reflexivity. }
  assert (nthF : forall i, (i < nrows F)%nat -> In (nth i (rws F) []) (rws F)) by (intros; apply nth_In; auto).
  assert (wF : forall i, (i < nrows F)%nat -> List.length (nth i (rws F) []) = 3%nat) by (intros i L; unfold width in WF; rewrite Forall_forall in WF; apply WF; auto).
  assert (numW : forall D X i, attached F X -> indices X -> (i < nrows F)%nat -> match num D X i with Some l => Forall index l /\ List.length l = List.length (nth i (rws F) []) | None => True end).
  { intros D X i A I L. unfold num. destruct (_ || _)%bool eqn:W; [|auto]. rewrite (wF i L). destruct (_ && _)%bool eqn:Q.
    - split; [|apply wF; auto]. unfold indices in IF_. rewrite Forall_forall in IF_. apply IF_. auto.
    - rewrite orb_false_r in W. apply Nat.ltb_lt in W. destruct A as [E|(E & C & A)]; [unfold nrows in W; rewrite E in W; cbn in W; lia|]. assert (In (nth i (rws X) []) (rws X)) by (apply nth_In; unfold nrows in *; lia). unfold indices, width in *. rewrite Forall_forall in I, A. split; [apply I; auto|apply A; auto]. }
  assert (SPL : split_on NL text = List.app ls [""]).
  { rewrite TX. apply split_lines. unfold ls, lines_of. rewrite !Forall_app, !Forall_map. repeat split; apply Forall_forall; intros x I; apply line_clean; try reflexivity; try apply shown.
    apply Forall_forall. intros s Is. apply in_map_iff in Is. destruct Is as (((a & b) & c) & <- & _). assert (NLs : forall z, mem_char NL (show_int z) = false) by (intros; apply show_int_chars; [vm_compute; lia|discriminate]). destruct b, c; unfold corner_text; rewrite ?mem_app; cbn [mem_char append]; rewrite ?mem_app, ?NLs; cbn [mem_char append]; rewrite ?mem_app, ?NLs; reflexivity. }
  assert (NE : forall (M : mat Num) r, wf M -> In r (map (map show) (rws M)) -> r <> [] /\ Forall word r /\ List.length r = mcols M /\ (1 <= mcols M)%nat).
  { intros M r (W & [E|K]) I; [rewrite E in I; destruct I|]. apply in_map_iff in I. destruct I as (x & <- & I). unfold width in W. rewrite Forall_forall in W. specialize (W x I). split; [|split; [apply shown|split; [rewrite map_length; auto|auto]]]. destruct x; [cbn in W; lia|discriminate]. }
  assert (LI : Forall2 line_is items (split_on NL text)).
  { rewrite SPL. unfold items, ls. rewrite <- !app_assoc. repeat apply Forall2_app.
    - apply (items_rows IV "v"). intros r I. destruct (NE V r WV I) as (A & B & _). exists (join SP r). split; [reflexivity|]. apply join_spaced; auto.
    - apply (items_rows IT "vt"). intros r I. destruct (NE UV r WU I) as (A & B & _). exists (" " ++ join SP r). split; [reflexivity|]. apply join_spaced; auto.
    - apply (items_rows IN "vn"). intros r I. destruct (NE N r WN I) as (A & B & _). exists (" " ++ join SP r). split; [reflexivity|]. apply join_spaced; auto.
    - unfold lines_of. rewrite !map_map. assert (G : forall l, (forall i, In i l -> (i < nrows F)%nat) -> Forall2 line_is (map (fun x => IF (fc x)) l) (map (fun x => "f" ++ " " ++ join SP (map corner_text (fc x))) l)); [|apply G; intros i I; apply in_seq in I; lia].
      induction l as [|i l IH]; intros H; cbn [map]; constructor; [|apply IH; intros; apply H; cbn; auto]. exists (join SP (map corner_text (fc i))). split; [reflexivity|]. apply join_spaced.
      + assert (L : (i < nrows F)%nat) by (apply H; cbn; auto). intros E. apply (f_equal (@List.length string)) in E. rewrite map_length in E. unfold fc in E. rewrite corners_len, wF in E by auto. discriminate.
      + apply Forall_forall. intros s I. apply in_map_iff in I. destruct I as (c & <- & _). apply corner_word.
    - constructor; [exact I|constructor]. }
  assert (FM : forall A (f : item -> list A) B (c : B -> item) l, flat_map f (map c l) = flat_map (fun x => f (c x)) l) by (intros A f B c l; induction l; cbn; congruence).
  assert (F0 : forall A B (l : list A), flat_map (fun _ : A => [] : list B) l = []) by (intros A B l; induction l; auto).
  assert (F1 : forall A (l : list A), flat_map (fun x => [x]) l = l) by (intros A l; induction l; cbn; congruence).
  assert (EV : vertices items = map (map show) (rws V)) by (unfold vertices, items; rewrite !flat_map_app, !FM; cbn [flat_map]; rewrite !F0, F1, !app_nil_r; auto).
  assert (EU : textures items = map (map show) (rws UV)) by (unfold textures, items; rewrite !flat_map_app, !FM; cbn [flat_map]; rewrite !F0, F1, !app_nil_r; auto).
  assert (EN : normals items = map (map show) (rws N)) by (unfold normals, items; rewrite !flat_map_app, !FM; cbn [flat_map]; rewrite !F0, F1, !app_nil_r; auto).
  assert (EF : faces items = map fc (seq 0 (nrows F))) by (unfold faces, items; rewrite !flat_map_app, !FM; cbn [flat_map]; rewrite !F0, F1, !app_nil_r; auto).
  assert (UM : forall M : mat Num, wf M -> uniform stod (map (map show) (rws M))).
  { intros M W. exists (Nat.max 1 (mcols M)). split; [lia|]. intros ws I. destruct (NE M ws W I) as (_ & _ & L & K). split; [lia|]. intros w Iw. apply in_map_iff in I. destruct I as (x & <- & _). apply in_map_iff in Iw. destruct Iw as (v & <- & _). rewrite (proj1 (PR v)). discriminate. }
  destruct (C94_read stod nan junk junkZ u nn items text LI) as (r & R & RV & RU & RN & RF & RT & RW).
  - rewrite EV. auto. - rewrite EU. auto. - rewrite EN. auto.
  - intros cs I. rewrite EF in I. apply in_map_iff in I. destruct I as (i & <- & I). apply in_seq in I. split; [unfold fc; rewrite corners_len; apply wF; lia|]. apply corners_small; [unfold indices in IF_; rewrite Forall_forall in IF_; apply IF_, nthF; lia|apply numW; auto; lia|apply numW; auto; lia].
  - exists r. split; [auto|]. split; [exact R|]. rewrite EV in RV. rewrite EU in RU. rewrite EN in RN. rewrite EF in RF, RT, RW.
    assert (SQ : forall (X : mat Z), nrows X = nrows F -> map (fun i => nth i (rws X) []) (seq 0 (nrows F)) = rws X) by (intros X <-; unfold nrows; clear; apply nth_map_seq_id).
    split; [apply reads_back; auto|]. split.
    { rewrite RF, map_map. rewrite <- (SQ F eq_refl). apply map_ext. intros i. unfold fc. apply corners_f. }
    split; [destruct u; [apply reads_back; auto|inversion RU; auto]|]. split; [destruct nn; [apply reads_back; auto|inversion RN; auto]|].
    assert (NUM : forall D X, attached F X -> numbers V F D X = map (fun i => match num D X i with Some l => l | None => map (fun _ => (-1)%Z) (nth i (rws F) []) end) (seq 0 (nrows F))).
    { intros D X A. unfold numbers, num. destruct A as [E|(E & T)].
      - rewrite E. assert (X0 : nrows X = 0%nat) by (unfold nrows; rewrite E; auto). rewrite X0. cbn [Nat.eqb Nat.ltb Nat.leb andb orb]. destruct (Nat.eqb (nrows D) (nrows V)); [symmetry; apply SQ; auto|]. rewrite <- (SQ F eq_refl) at 1. rewrite map_map. auto.
      - destruct (rws X) as [|x0 xs] eqn:EX.
        + assert (X0 : nrows X = 0%nat) by (unfold nrows; rewrite EX; auto). rewrite X0 in E. unfold nrows in E. destruct (rws F) eqn:EFR; [|cbn in E; lia]. unfold nrows. rewrite EFR. destruct (Nat.eqb _ _); auto.
        + assert (NX : Nat.eqb (nrows X) 0 = false) by (unfold nrows; rewrite EX; auto). assert (PX : Nat.ltb 0 (nrows X) = true) by (unfold nrows; rewrite EX; auto). rewrite NX, PX. cbn [andb orb]. rewrite <- EX. symmetry. apply SQ. auto. }
    split.
    + rewrite RT. destruct u; [|auto]. rewrite (NUM UV Ft AT), map_map. apply map_ext_in. intros i I. apply in_seq in I. pose proof (numW UV Ft i AT IT_) as W. unfold fc. destruct (num UV Ft i) as [l|]; [apply corners_t; apply W; lia|apply corners_t0].
    + rewrite RW. destruct nn; [|auto]. rewrite (NUM N Fn AN), map_map. apply map_ext_in. intros i I. apply in_seq in I. pose proof (numW N Fn i AN IN_) as W. unfold fc. destruct (num N Fn i) as [l|]; [apply corners_n; apply W; lia|apply corners_n0].
Qed.
End Round.
End Write.
