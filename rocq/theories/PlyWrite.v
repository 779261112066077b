(** Lemmas about PlyModel: what the writer writes. *)
From Coq Require Import String Ascii List ZArith Bool Lia Arith.
From Verif Require Import TextModel TextProofs PlyModel PlyProofs PlyProofs2 PlyProofs3 PlyHeader.
From Verif Require CppObjModel StlModel StlProofs.
Import ListNotations.
Open Scope string_scope.

(** ** the header *)
Definition elem_of (e : welem) : element := {| ename := wname e; esize := wsize e; eprops := map wp (wprops e) |}.
Definition prop_line (p : prop) : string :=
  match plist p with Some lt => "property list " ++ type_name lt ++ " " ++ type_name (pty p) ++ " " ++ pname p | None => "property " ++ type_name (pty p) ++ " " ++ pname p end.
Definition elem_lines (e : welem) : list string := ("element " ++ wname e ++ " " ++ show_int (Z.of_nat (wsize e))) :: map (fun p => prop_line (wp p)) (wprops e).
Definition writable (p : prop) : Prop := wordy (pname p) /\ pty p <> INVALID /\ plist p <> Some INVALID.
Lemma props_described ps : Forall (fun p => writable (wp p)) ps -> forall ls es n k ps0, describes ls (es ++ [{| ename := n; esize := k; eprops := ps0 |}])%list ->
  describes (ls ++ map (fun p => prop_line (wp p)) ps)%list (es ++ [{| ename := n; esize := k; eprops := ps0 ++ map wp ps |}])%list.
Proof.
  induction 1 as [|p ps (W & TY & LT) H IH]; intros ls es n k ps0 D; cbn [map]; [rewrite !app_nil_r; exact D|].
  change (prop_line (wp p) :: map (fun p => prop_line (wp p)) ps) with ([prop_line (wp p)] ++ map (fun p => prop_line (wp p)) ps)%list.
  change (wp p :: map wp ps) with ([wp p] ++ map wp ps)%list. rewrite !app_assoc. apply IH. destruct (wp p) as [pn pt [lt|]] eqn:E; cbn in *; unfold prop_line; cbn [plist pty pname].
  - apply d_list; auto; apply type_name_spelling; congruence.
  - apply d_property; auto. apply type_name_spelling; auto.
Qed.
Lemma elems_described ws : Forall (fun e => wordy (wname e) /\ Forall (fun p => writable (wp p)) (wprops e)) ws -> forall ls es, describes ls es -> describes (ls ++ flat_map elem_lines ws)%list (es ++ map elem_of ws)%list.
Proof.
  induction 1 as [|e ws (W & P) H IH]; intros ls es D; cbn [map flat_map]; [rewrite !app_nil_r; exact D|].
  change (elem_of e :: map elem_of ws) with ([elem_of e] ++ map elem_of ws)%list. rewrite !app_assoc. apply IH. unfold elem_lines, elem_of.
  change (?l :: map (fun p => prop_line (wp p)) (wprops e)) with ([l] ++ map (fun p => prop_line (wp p)) (wprops e))%list. rewrite app_assoc.
  apply (props_described (wprops e) P _ es (wname e) (wsize e) []). apply d_element; auto.
Qed.
Lemma prop_text p : header_property p = prop_line p ++ NLs.
Proof. unfold header_property, prop_line. destruct (plist p); rewrite !app_as; reflexivity. Qed.
Lemma elem_text e : header_element e = text (elem_lines e).
Proof.
  unfold header_element, text, elem_lines. cbn [map cat]. rewrite !app_as. do 5 f_equal. induction (wprops e) as [|p ps IH]; [reflexivity|]. cbn [map cat]. rewrite prop_text, IH. reflexivity.
Qed.
Definition fmt_of (binary : bool) : format := if binary then Little else Text.
Lemma header_text binary ws body : header binary ws ++ body = ply_file (fmt_of binary) ("comment generated by tinyply 2.3" :: flat_map elem_lines ws) body.
Proof.
  unfold header, ply_file. assert (E : cat (map header_element ws) = text (flat_map elem_lines ws)).
  { induction ws as [|e ws IH]; [reflexivity|]. cbn [map cat flat_map]. rewrite text_app, <- elem_text, IH. reflexivity. }
  rewrite E. unfold text at 2. cbn [map cat]. fold (text (flat_map elem_lines ws)). destruct binary; rewrite !app_as; reflexivity.
Qed.

(** ** the body *)
(** what operator<< and operator>> have to do: numbers are written without blanks and read back after blanks, up to the next blank; doubles as rt of them, when they are finite *)
Record text_io (geta : ptype -> string -> option (Z * string)) (showa : ptype -> Z -> string) (finite : Z -> Prop) (rt : Z -> Z) : Prop := {
  io_show : forall t z, in_range (stride t) z -> wordy (showa t z);
  io_double : forall z b r, in_range 8 z -> finite z -> all_space b = true -> ends r -> geta FLOAT64 (b ++ showa FLOAT64 z ++ r) = Some (rt z, r);
  io_uint : forall t z b r, t = UINT8 \/ t = UINT32 -> in_range (stride t) z -> all_space b = true -> ends r -> geta t (b ++ showa t z ++ r) = Some (z, r);
  io_three : forall b r, all_space b = true -> ends r -> geta UINT8 (b ++ "3" ++ r) = Some (3%Z, r);
  io_range : forall z, in_range 8 z -> in_range 8 (rt z) }.
Section Write.
Variable geta : ptype -> string -> option (Z * string).
Variable showa : ptype -> Z -> string.
Variable finite : Z -> Prop.
Variable rt : Z -> Z.
Variable binary : bool.
Hypothesis IO : binary = false -> text_io geta showa finite rt.
Let f := fmt_of binary.
(** what a number is read back as *)
Definition back (t : ptype) (z : Z) : Z := if binary then z else match t with FLOAT64 => rt z | _ => z end.
Definition out1 (t : ptype) (z : Z) : string := if binary then le (stride t) z else showa t z ++ " ".
(** a number that the theorem is about *)
Definition sound (t : ptype) (z : Z) : Prop := (t = FLOAT64 \/ t = UINT8 \/ t = UINT32) /\ in_range (stride t) z /\ (binary = false -> t = FLOAT64 -> finite z).
Definition bl (b : string) : Prop := if binary then b = "" else all_space b = true.
Lemma scalar_emits t z b rest : sound t z -> bl b -> exists b', bl b' /\ scalar_at geta f t (back t z) (b ++ out1 t z ++ rest) (b' ++ rest).
Proof.
  intros (T & R & F) B. unfold bl, f, back, out1 in *. destruct binary; cbn [fmt_of].
  - subst b. exists "". split; [reflexivity|]. apply (at_little geta t z rest).
  - exists " ". split; [reflexivity|]. rewrite app_as. apply at_text; auto; [apply (io_show _ _ _ _ (IO eq_refl)); auto|reflexivity|].
    destruct T as [-> |T]; [apply (io_double _ _ _ _ (IO eq_refl)); auto; reflexivity|]. destruct T as [-> | ->]; apply (io_uint _ _ _ _ (IO eq_refl)); auto; reflexivity.
Qed.
Lemma scalars_emit t zs : Forall (sound t) zs -> forall b rest, bl b -> exists b', bl b' /\ scalars_at geta f t (map (back t) zs) (b ++ cat (map (out1 t) zs) ++ rest) (b' ++ rest).
Proof.
  induction 1 as [|z zs H HS IH]; intros b rest B; [exists b; split; auto; constructor|]. cbn [map cat]. rewrite app_as.
  destruct (scalar_emits t z b (cat (map (out1 t) zs) ++ rest) H B) as (b1 & B1 & S1). destruct (IH b1 rest B1) as (b2 & B2 & S2). exists b2. split; auto. econstructor; eauto.
Qed.
(** out is the text of cells vs of properties ps *)
Definition emits (ps : list prop) (vs : list cellv) (out : string) : Prop := forall b rest, bl b -> exists b', bl b' /\ row_at geta f ps vs (b ++ out ++ rest) (b' ++ rest).
Lemma emits_nil : emits [] [] "".
Proof. intros b rest B. exists b. split; auto. constructor. Qed.
Lemma row_at_app ps1 vs1 s m : row_at geta f ps1 vs1 s m -> forall ps2 vs2 r, row_at geta f ps2 vs2 m r -> row_at geta f (ps1 ++ ps2)%list (vs1 ++ vs2)%list s r.
Proof. induction 1; intros; auto. cbn. econstructor; eauto. Qed.
Lemma emits_app ps1 vs1 o1 ps2 vs2 o2 : emits ps1 vs1 o1 -> emits ps2 vs2 o2 -> emits (ps1 ++ ps2)%list (vs1 ++ vs2)%list (o1 ++ o2).
Proof.
  intros H1 H2 b rest B. rewrite app_as. destruct (H1 b (o2 ++ rest) B) as (b1 & B1 & R1). destruct (H2 b1 rest B1) as (b2 & B2 & R2). exists b2. split; auto. eapply row_at_app; eauto.
Qed.
Lemma emits_scalars t ks : forall zs, List.length zs = List.length ks -> Forall (sound t) zs -> emits (map (scalar t) ks) (map One (map (back t) zs)) (cat (map (out1 t) zs)).
Proof.
  induction ks as [|k ks IH]; intros [|z zs] L H; try discriminate; [apply emits_nil|]. inversion H; subst. injection L as L. cbn [map cat].
  change (scalar t k :: map (scalar t) ks) with ([scalar t k] ++ map (scalar t) ks)%list. change (One (back t z) :: map One (map (back t) zs)) with ([One (back t z)] ++ map One (map (back t) zs))%list.
  apply emits_app; [|apply IH; auto]. intros b rest B. destruct (scalar_emits t z b rest) as (b' & B' & S'); auto. exists b'. split; auto. econstructor; [|constructor]. apply cell_one; [reflexivity|exact S'].
Qed.
Definition face_prop : prop := {| pname := "vertex_indices"; pty := UINT32; plist := Some UINT8 |}.
Definition out3 : string := if binary then le 1 3 else "3 ".
Lemma emits_face zs : List.length zs = 3%nat -> Forall (sound UINT32) zs -> emits [face_prop] [Many (map (back UINT32) zs)] (out3 ++ cat (map (out1 UINT32) zs)).
Proof.
  intros L H b rest B. assert (C : exists b1, bl b1 /\ scalar_at geta f UINT8 3 (b ++ out3 ++ cat (map (out1 UINT32) zs) ++ rest) (b1 ++ cat (map (out1 UINT32) zs) ++ rest)).
  { unfold bl, f, out3 in *. destruct binary; cbn [fmt_of].
    - subst b. exists "". split; [reflexivity|]. apply (at_little geta UINT8 3).
    - exists " ". split; [reflexivity|]. apply (at_text geta UINT8 3 b "3"); auto; [split; [discriminate|reflexivity]|reflexivity|]. apply (io_three _ _ _ _ (IO eq_refl)); auto. reflexivity. }
  destruct C as (b1 & B1 & S1). destruct (scalars_emit UINT32 zs H b1 rest B1) as (b2 & B2 & S2). exists b2. split; auto. rewrite app_as. econstructor; [|constructor].
  eapply cell_many; [reflexivity| |exact S2]. rewrite map_length, L. exact S1.
Qed.
(** ** the cursors *)
Inductive block := BS (t : tag) (ty : ptype) (ks : list string) | BF.
Definition btag (b : block) : tag := match b with BS t _ _ => t | BF => Fi end.
Definition bty (b : block) : ptype := match b with BS _ ty _ => ty | BF => UINT32 end.
Definition bprops (b : block) : list wprop := match b with BS t ty ks => scalars t ty ks | BF => [{| wp := face_prop; wtag := Fi; wlist := 3 |}] end.
Definition bcells (b : block) (zs : list Z) : list cellv := match b with BS _ ty _ => map One (map (back ty) zs) | BF => [Many (map (back UINT32) zs)] end.
Definition bout (b : block) (zs : list Z) : string := match b with BS _ ty _ => cat (map (out1 ty) zs) | BF => out3 ++ cat (map (out1 UINT32) zs) end.
Definition bfits (b : block) (zs : list Z) : Prop := List.length zs = match b with BS _ _ ks => List.length ks | BF => 3%nat end /\ Forall (sound (bty b)) zs.
Fixpoint stream_row (bs : list block) (zss : list (list Z)) (t : tag) : string :=
  match bs, zss with b :: bs', zs :: zss' => (if tag_beq (btag b) t then cat (map (le (stride (bty b))) zs) else "") ++ stream_row bs' zss' t | _, _ => "" end.
Fixpoint out_row (bs : list block) (zss : list (list Z)) : string := match bs, zss with b :: bs', zs :: zss' => bout b zs ++ out_row bs' zss' | _, _ => "" end.
Fixpoint cells_row (bs : list block) (zss : list (list Z)) : list cellv := match bs, zss with b :: bs', zs :: zss' => (bcells b zs ++ cells_row bs' zss')%list | _, _ => [] end.
Definition nl : string := if binary then "" else NLs.
Lemma row_emits bs zss : Forall2 bfits bs zss -> emits (map wp (flat_map bprops bs)) (cells_row bs zss) (out_row bs zss).
Proof.
  induction 1 as [|b zs bs zss (L & S) H IH]; [apply emits_nil|]. cbn [flat_map cells_row out_row]. rewrite map_app. apply emits_app; auto. destruct b as [t ty ks|]; cbn in *.
  - assert (E : map wp (scalars t ty ks) = map (scalar ty) ks) by (unfold scalars; rewrite map_map; reflexivity). rewrite E. apply emits_scalars; auto.
  - apply emits_face; auto.
Qed.
Lemma write_scalar_ok t ty k z o c rest : sound ty z -> c t = le (stride ty) z ++ rest ->
  write_cell showa binary {| wp := scalar ty k; wtag := t; wlist := 0 |} (o, c) = Ret (o ++ out1 ty z, upd c t rest).
Proof.
  intros (_ & R & _) C. unfold write_cell, out1. cbn [wp plist scalar wtag pty]. destruct binary.
  - unfold write_bytes. rewrite C, len_app, le_len. destruct (Nat.ltb_spec (stride ty + String.length rest) (stride ty)); [lia|]. rewrite take_n, drop_n by apply le_len. reflexivity.
  - unfold write_text. rewrite C, len_app, le_len. destruct (Nat.ltb_spec (stride ty + String.length rest) (stride ty)); [lia|]. rewrite num_le by exact R. rewrite drop_n by apply le_len. reflexivity.
Qed.
Lemma write_scalars_ok t ty ks : forall zs ps o c rest, List.length zs = List.length ks -> Forall (sound ty) zs -> c t = cat (map (le (stride ty)) zs) ++ rest ->
  exists c', write_row showa binary (scalars t ty ks ++ ps) (o, c) = write_row showa binary ps (o ++ cat (map (out1 ty) zs), c') /\ c' t = rest /\ forall u, u <> t -> c' u = c u.
Proof.
  induction ks as [|k ks IH]; intros [|z zs] ps o c rest L H C; try discriminate.
  - exists c. cbn in *. rewrite app_e. auto.
  - inversion H; subst. injection L as L. cbn [map cat] in C. rewrite app_as in C. unfold scalars; cbn [map List.app write_row]; change {| pname := k; pty := ty; plist := None |} with (scalar ty k). rewrite (write_scalar_ok t ty k z o c _ ltac:(assumption) C). cbn [obind].
    destruct (IH zs ps (o ++ out1 ty z) (upd c t (cat (map (le (stride ty)) zs) ++ rest)) rest L) as (c' & E & C1 & C2); auto; [apply upd_same|].
    exists c'. unfold scalars in E. rewrite E. cbn [map cat]. rewrite app_as. split; auto. split; auto. intros u N. rewrite C2 by auto. apply upd_other. auto.
Qed.
Lemma write_texts_ok t ty zs : binary = false -> Forall (sound ty) zs -> forall o c rest, c t = cat (map (le (stride ty)) zs) ++ rest ->
  exists c', times (List.length zs) (write_text showa t ty) (o, c) = Ret (o ++ cat (map (out1 ty) zs), c') /\ c' t = rest /\ forall u, u <> t -> c' u = c u.
Proof.
  intros NB. induction 1 as [|z zs (T & R & F) H IH]; intros o c rest C; [exists c; cbn in *; rewrite app_e; auto|]. cbn [map cat] in C. rewrite app_as in C. cbn [List.length times]. unfold write_text at 1.
  rewrite C, len_app, le_len. destruct (Nat.ltb_spec (stride ty + String.length (cat (map (le (stride ty)) zs) ++ rest)) (stride ty)); [lia|]. rewrite num_le by exact R. rewrite drop_n by apply le_len. cbn [obind].
  destruct (IH (o ++ showa ty z ++ " ") (upd c t (cat (map (le (stride ty)) zs) ++ rest)) rest (upd_same _ _ _)) as (c' & E & C1 & C2). exists c'. rewrite E. cbn [map cat].
  split; [f_equal; f_equal; unfold out1 at 2; rewrite NB, !app_as; reflexivity|]. split; auto. intros u N. rewrite C2 by auto. apply upd_other. auto.
Qed.
Lemma write_face_ok zs ps o c rest : List.length zs = 3%nat -> Forall (sound UINT32) zs -> c Fi = cat (map (le 4) zs) ++ rest ->
  exists c', write_row showa binary ({| wp := face_prop; wtag := Fi; wlist := 3 |} :: ps) (o, c) = write_row showa binary ps (o ++ out3 ++ cat (map (out1 UINT32) zs), c') /\ c' Fi = rest /\ forall u, u <> Fi -> c' u = c u.
Proof.
  intros L H C. cbn [write_row]. unfold write_cell. cbn [wp face_prop plist wtag wlist pty fst snd]. destruct binary eqn:BB.
  - unfold write_bytes. rewrite C, len_app, cat_le_len, L. destruct (Nat.ltb_spec (4 * 3 + String.length rest) (stride UINT32 * 3)); [cbn in *; lia|].
    rewrite take_n, drop_n by (rewrite cat_le_len, L; reflexivity). cbn [obind]. eexists. split.
    + unfold out3, out1. rewrite BB. rewrite app_as. reflexivity.
    + split; [apply upd_same|]. intros u N. apply upd_other. auto.
  - destruct (write_texts_ok Fi UINT32 zs BB H (o ++ show_int (Z.of_nat 3) ++ " ") c rest C) as (c' & E & C1 & C2). rewrite L in E. rewrite E. cbn [obind]. exists c'. unfold out3. rewrite BB. rewrite app_as. auto.
Qed.
Lemma write_row_ok bs zss : Forall2 bfits bs zss -> forall o c rest, (forall t, c t = stream_row bs zss t ++ rest t) ->
  exists c', write_row showa binary (flat_map bprops bs) (o, c) = Ret (o ++ out_row bs zss ++ nl, c') /\ forall t, c' t = rest t.
Proof.
  induction 1 as [|b zs bs zss (L & S) H IH]; intros o c rest C; cbn [flat_map out_row stream_row] in *; [exists c; split; auto|].
  assert (X : exists c1, write_row showa binary (bprops b ++ flat_map bprops bs) (o, c) = write_row showa binary (flat_map bprops bs) (o ++ bout b zs, c1) /\ forall t, c1 t = stream_row bs zss t ++ rest t).
  { assert (TT : tag_beq (btag b) (btag b) = true) by (apply tag_eqb; reflexivity).
    assert (CT := C (btag b)). rewrite TT, app_as in CT.
    assert (CO : forall u, u <> btag b -> c u = stream_row bs zss u ++ rest u). { intros u N. rewrite C. destruct (tag_beq (btag b) u) eqn:Q; [apply tag_eqb in Q; congruence|reflexivity]. }
    destruct b as [t ty ks|]; cbn [btag bty bprops bout] in *.
    - destruct (write_scalars_ok t ty ks zs (flat_map bprops bs) o c _ L S CT) as (c1 & E & C1 & C2). exists c1. split; [exact E|]. intros u. destruct (tag_beq u t) eqn:Q; [apply tag_eqb in Q; subst; auto|].
      rewrite C2, CO; auto; intros ->; rewrite TT in Q; discriminate.
    - destruct (write_face_ok zs (flat_map bprops bs) o c _ L S CT) as (c1 & E & C1 & C2). exists c1. split; [exact E|]. intros u. destruct (tag_beq u Fi) eqn:Q; [apply tag_eqb in Q; subst; auto|].
      rewrite C2, CO; auto; intros ->; rewrite TT in Q; discriminate. }
  destruct X as (c1 & E1 & C1). destruct (IH (o ++ bout b zs) c1 rest C1) as (c2 & E2 & C2). exists c2. rewrite E1, E2, !app_as. auto.
Qed.
Lemma bl_nl b : bl b -> bl (b ++ nl).
Proof. unfold bl, nl. destruct binary; intros B; [subst; reflexivity|]. induction b as [|a b IH]; [reflexivity|]. cbn in *. apply andb_true_iff in B as (-> & B). auto. Qed.
Lemma write_rows_ok bs Z : Forall (Forall2 bfits bs) Z -> forall o c rest, (forall t, c t = cat (map (fun zss => stream_row bs zss t) Z) ++ rest t) ->
  exists out c', times (List.length Z) (write_row showa binary (flat_map bprops bs)) (o, c) = Ret (o ++ out, c') /\ (forall t, c' t = rest t) /\
    forall b tail, bl b -> exists b', bl b' /\ rows_at geta f (map wp (flat_map bprops bs)) (map (cells_row bs) Z) (b ++ out ++ tail) (b' ++ tail).
Proof.
  induction 1 as [|zss Z H HZ IH]; intros o c rest C; cbn [List.length times map cat] in *.
  - exists "", c. rewrite app_e. split; auto. split; auto. intros b tail B. exists b. split; auto. constructor.
  - destruct (write_row_ok bs zss H o c (fun t => cat (map (fun zss => stream_row bs zss t) Z) ++ rest t)) as (c1 & E1 & C1); [intros t; rewrite C, app_as; reflexivity|].
    destruct (IH (o ++ out_row bs zss ++ nl) c1 rest C1) as (out & c2 & E2 & C2 & R2). exists (out_row bs zss ++ nl ++ out), c2. rewrite E1. cbn [obind]. rewrite E2, !app_as. split; auto. split; auto.
    intros b tail B. destruct (row_emits bs zss H b (nl ++ out ++ tail) B) as (b1 & B1 & R1). destruct (R2 (b1 ++ nl) tail (bl_nl b1 B1)) as (b2 & B2 & R3). exists b2. split; auto.
    econstructor; [|exact R3]. rewrite !app_as in *. exact R1.
Qed.
(** elements: the name, the blocks, the rows *)
Definition spec := (string * list block * list (list (list Z)))%type.
Definition welem_of (x : spec) : welem := let '(n, bs, Z) := x in {| wname := n; wsize := List.length Z; wprops := flat_map bprops bs |}.
Definition cells_of (x : spec) : list (list cellv) := let '(n, bs, Z) := x in map (cells_row bs) Z.
Definition stream_of (x : spec) (t : tag) : string := let '(n, bs, Z) := x in cat (map (fun zss => stream_row bs zss t) Z).
Lemma write_elements_ok xs : Forall (fun x => Forall (Forall2 bfits (snd (fst x))) (snd x)) xs -> forall o c rest, (forall t, c t = cat (map (fun x => stream_of x t) xs) ++ rest t) ->
  exists out c', write_elements showa binary (map welem_of xs) (o, c) = Ret (o ++ out, c') /\
    forall b tail, bl b -> exists b', bl b' /\ body_at geta f (map elem_of (map welem_of xs)) (map cells_of xs) (b ++ out ++ tail) (b' ++ tail).
Proof.
  induction 1 as [|[[n bs] Z] xs H HX IH]; intros o c rest C; cbn [map write_elements] in *.
  - exists "", c. rewrite app_e. split; auto. intros b tail B. exists b. split; auto. constructor.
  - cbn [fst snd] in H. cbn [cat] in C. destruct (write_rows_ok bs Z H o c (fun t => cat (map (fun x => stream_of x t) xs) ++ rest t)) as (out1' & c1 & E1 & C1 & R1); [intros t; rewrite C, app_as; reflexivity|].
    destruct (IH (o ++ out1') c1 rest C1) as (out & c2 & E2 & R2). exists (out1' ++ out), c2. cbn [welem_of wsize wprops]. rewrite E1. cbn [obind]. rewrite E2, !app_as. split; auto.
    intros b tail B. destruct (R1 b (out ++ tail) B) as (b1 & B1 & R3). destruct (R2 b1 tail B1) as (b2 & B2 & R4). exists b2. split; auto. cbn [map]. rewrite !app_as.
    econstructor; [|exact R3|exact R4]. cbn. rewrite map_length. reflexivity.
Qed.
End Write.
