(** Lemmas about PlyModel: the buffers of a file that is as described; the first pass. *)
From Coq Require Import String Ascii List ZArith Bool Lia Arith.
From Verif Require Import TextModel TextProofs PlyModel PlyProofs PlyProofs2 PlyProofs3.
From Verif Require CppObjModel StlModel StlProofs.
Import ListNotations.
Open Scope string_scope.

Lemma F2_combine {A B} (R R' : A -> B -> Prop) xs ys : Forall2 R xs ys -> (forall x y, In (x, y) (combine xs ys) -> R x y -> R' x y) -> Forall2 R' xs ys.
Proof. induction 1 as [|x y xs ys H1 H2 IH]; intros H; constructor; [apply H; cbn; auto|apply IH; intros; apply H; cbn; auto]. Qed.
Lemma pick_nil ks ps : filter (named ks) ps = [] -> forall vs, pick ks ps vs = [].
Proof.
  induction ps as [|p ps IH]; intros F vs; [reflexivity|]. destruct vs as [|v vs]; [reflexivity|]. cbn in F. cbn [pick]. destruct (named ks p); [discriminate|]. apply IH; auto.
Qed.
Lemma pick_one ks q ps : filter (named ks) ps = [q] -> forall vs p v, In (p, v) (combine ps vs) -> named ks p = true -> pick ks ps vs = cell_vals v.
Proof.
  induction ps as [|p0 ps IH]; intros F vs p v I N; [destruct I|]. destruct vs as [|v0 vs]; [destruct I|]. cbn in F, I. cbn [pick]. destruct I as [Q|I].
  - injection Q as -> ->. rewrite N in *. injection F as _ F. rewrite pick_nil by auto. apply app_nil_r.
  - destruct (named ks p0) eqn:N0; [|apply (IH F vs p v I N)]. injection F as _ F. exfalso. assert (J : In p (filter (named ks) ps)) by (apply filter_In; split; auto; eapply in_combine_l; eauto). rewrite F in J. destruct J.
Qed.
Definition width (t : tag) : nat := if listy t then 3 else List.length (tag_names t).

Section Read.
Variable geta : ptype -> string -> option (Z * string).
Variable junk : ascii.
Variables (f : format) (es : list element) (D : data_of) (body r : string).
Hypothesis B : body_at geta f es D body r.
Hypothesis CL : clean es.
Hypothesis OK : data_ok es D.
Let gs := requests es.
Hypothesis HS : forall t, listy t = false -> exists o, field (tag_element t) (tag_names t) es D o /\ forall ty M, o = Some (ty, M) -> ty <> INVALID.
Hypothesis HL : forall t k, listy t = true -> tag_names t = [k] -> exists o, list_field (tag_element t) k es D o.
Hypothesis HT : group_of Fi gs = None \/ group_of Fx gs = None.

Lemma hd_in t g : group_of t gs = Some g -> hd_error (req es t) = Some g.
Proof. unfold gs. rewrite group_of_requests. destruct t; auto; destruct (vcol es); auto; discriminate. Qed.
(** what is known of a group *)
Lemma group_info t g : group_of t gs = Some g -> exists e rows ty,
  In (e, rows) (combine es D) /\ ename e = tag_element t /\ g = {| gtag := t; gkeys := tag_keys t; gty := ty; glist := listy t; gcount := esize e; ghint := tag_hint t; gok := true |} /\ ty <> INVALID /\
  (forall p, In p (eprops e) -> named (tag_names t) p = true -> pty p = ty /\ (plist p = None <-> listy t = false)) /\ Forall (fun x => List.length x = width t) (map (pick (tag_names t) (eprops e)) rows) /\
  (listy t = true -> (ty = INT32 \/ ty = UINT32) /\ exists q, filter (named (tag_names t)) (eprops e) = [q]).
Proof.
  intros G. apply hd_in in G. destruct (listy t) eqn:L.
  - assert (exists k, tag_names t = [k]) as (k & K) by (destruct t; try discriminate; eexists; reflexivity). destruct (HL t k L K) as (o & H). destruct H as [e rows ty lt I E T F N|N].
    + pose proof (in_combine_l _ _ _ _ I) as I'. rewrite (req_list es t e ty lt k) in G by (auto; apply CL). cbn in G. injection G as <-. exists e, rows, ty. split; [auto|]. split; [auto|].
      split; [destruct t; try discriminate; reflexivity|]. split; [destruct T; subst; discriminate|]. split; [|split].
      * intros p J NM. rewrite K in NM. assert (X : In p (filter (named [k]) (eprops e))) by (apply filter_In; auto). rewrite F in X. destruct X as [<-|[]]. cbn. split; auto. split; discriminate.
      * rewrite K. unfold width. rewrite L. exact N.
      * intros _. split; auto. rewrite K. eauto.
    + rewrite (req_lacks es t) in G by (rewrite K; auto). discriminate.
  - destruct (HS t L) as (o & H & T). destruct H as [e rows ty I E O|N].
    + pose proof (in_combine_l _ _ _ _ I) as I'. rewrite (req_has es t e ty) in G by (auto; apply CL). cbn in G. injection G as <-. exists e, rows, ty. split; [auto|]. split; [auto|].
      split; [destruct t; try discriminate; reflexivity|]. split; [eapply T; reflexivity|]. split; [|split].
      * intros p J NM. destruct (named_in _ _ _ _ O J NM) as (k & _ & ->). cbn. tauto.
      * unfold width. rewrite L. eapply rows_pick_length; eauto.
      * discriminate.
    + rewrite (req_lacks es t) in G by auto. discriminate.
Qed.
Lemma group_vals t g : group_of t gs = Some g -> exists e rows, In (e, rows) (combine es D) /\ ename e = tag_element t /\ List.length rows = gcount g /\
  body_vals gs es D t = concat (map (pick (tag_names t) (eprops e)) rows) /\ sizes gs t = (stride (gty g) * (List.length rows * width t))%nat /\
  Forall (fun zs => List.length zs = width t /\ Forall (in_range (stride (gty g))) zs) (map (pick (tag_names t) (eprops e)) rows) /\
  body_raw gs f es D t = cat (map (enc f (gty g)) (body_vals gs es D t)).
Proof.
  intros G. destruct (group_info t g G) as (e & rows & ty & I & E & Q & NT & PT & W & LL). exists e, rows. destruct (rows_of geta f es D body r B e rows I) as (L & _). repeat split; auto.
  - rewrite L, Q. reflexivity.
  - eapply vals_ok; eauto.
  - unfold sizes. rewrite G, Q. cbn [gcount gty glist ghint gkeys]. rewrite L. unfold width. unfold tag_keys. rewrite map_length. clear. destruct t; cbn; lia.
  - rewrite Q. cbn [gty]. apply (rows_good es D OK) with (1 := I); auto. intros p J N. apply PT; auto.
  - apply body_raw_vals. intros e' p J K O. destruct (owned_iff es CL e' p t J K O) as (E' & N & _). rewrite Q. cbn [gty]. apply (PT p); auto.
    assert (e' = e) as <-; auto. pose proof (in_combine_l _ _ _ _ I) as I'. assert (X := find_element_ok _ es e (proj1 CL) I' E). rewrite (find_element_ok _ es e' (proj1 CL) J E') in X. congruence.
Qed.
Definition T : tag := match group_of Fi gs with Some _ => Fi | None => Fx end.
Lemma good : body_good gs T es D.
Proof.
  unfold body_good. eapply F2_combine; [exact OK|]. intros e rows I H. cbv beta in H |- *. pose proof (in_combine_l _ _ _ _ I) as I'.
  apply Forall_forall. intros vs J. rewrite Forall_forall in H. specialize (H vs J). unfold row_good. eapply F2_combine; [exact H|]. intros p v K (_ & C). split; [exact C|].
  intros g O. pose proof (in_combine_l _ _ _ _ K) as K'.
  assert (O' : owned gs e p (gtag g) = true) by (unfold owned; rewrite O; apply tag_eqb; reflexivity). destruct (owned_iff es CL e p (gtag g) I' K' O') as (E & N & g' & G).
  destruct (group_info (gtag g) g' G) as (e1 & rows1 & ty & I1 & E1 & Q & NT & PT & W & LL).
  assert (e1 = e) as ->. { pose proof (in_combine_l _ _ _ _ I1) as X. assert (Y := find_element_ok _ es e (proj1 CL) I' E). rewrite (find_element_ok _ es e1 (proj1 CL) X E1) in Y. congruence. }
  destruct (PT p K' N) as (P1 & P2). split; [congruence|]. intros PL. destruct (listy (gtag g)) eqn:L; [|tauto]. destruct (LL eq_refl) as (Ty & q & F). split; [|split].
  - unfold T. destruct (gtag g); try discriminate; fold gs in G; destruct HT as [X|X]; rewrite ?X in *; try congruence; rewrite ?G; reflexivity.
  - rewrite P1. destruct Ty as [-> | ->]; reflexivity.
  - assert (I2 : rows1 = rows). { clear -I I1 CL. destruct CL as (ND & _). clear CL. revert D I I1. induction es as [|e0 es' IH]; intros [|r0 D'] I I1; try (destruct I; fail). cbn in *. inversion ND as [|? ? N1 N2]; subst.
      destruct I as [Q|I], I1 as [Q1|I1]; try congruence; [..|eapply IH; eauto].
      - injection Q as -> ->. exfalso. apply N1. apply in_map. eapply in_combine_l; eauto.
      - injection Q1 as -> ->. exfalso. apply N1. apply in_map. eapply in_combine_l; eauto. }
    subst rows1. rewrite <- (pick_one _ _ _ F vs p v K N). rewrite Forall_forall in W. specialize (W _ (in_map (pick (tag_names (gtag g)) (eprops e)) rows vs J)). unfold width in W. rewrite L in W. exact W.
Qed.
(** the reading pass with buffers of the right sizes *)
Lemma pass_ok cap : (forall t g, group_of t gs = Some g -> cap t = sizes gs t) ->
  exists st, over_elements (visit geta junk f gs cap) 0 es (initial (Some body)) = Ret st /\
    forall t g, group_of t gs = Some g -> exists e rows, In (e, rows) (combine es D) /\ ename e = tag_element t /\ List.length rows = gcount g /\ cap t = (gcount g * (stride (gty g) * width t))%nat /\
      PlyModel.rows (gcount g) (stride (gty g)) (width t) (contents junk f gs cap st t) = map (pick (tag_names t) (eprops e)) rows.
Proof.
  intros C. destruct (read_body_ok geta junk gs T f cap es D body r B good) as (st & E & Bf).
  - intros t. destruct (group_of t gs) as [g|] eqn:G.
    + destruct (group_vals t g G) as (e & rows & I & E & L & V & S & R & X). rewrite X, cat_enc_len, V, (C t g G), S. rewrite (concat_len (width t)), map_length by (eapply Forall_impl; [|exact R]; cbn; tauto). lia.
    + unfold gs. rewrite (vals_none f es D CL t G). cbn. lia.
  - exists st. split; [exact E|]. intros t g G. destruct (group_vals t g G) as (e & rows & I & E' & L & V & S & R & X). exists e, rows. split; [auto|]. split; [auto|]. split; [auto|].
    split; [rewrite (C t g G), S, L; lia|]. rewrite (contents_ok junk f gs cap st t g (body_vals gs es D t) G).
    + rewrite V, <- L, <- (map_length (pick (tag_names t) (eprops e)) rows), <- (app_e (cat _)). apply rows_ok2. exact R.
    + rewrite (C t g G), S, V. rewrite (concat_len (width t)), map_length by (eapply Forall_impl; [|exact R]; cbn; tauto). lia.
    + rewrite Bf. exact X.
Qed.

(** ** the first pass: files without lists *)
Definition Inv0 (st : state) (s : string) : Prop := strm st = Some s /\ lsz st = rep 4 zero /\ forall i j, lcount st i j = 0%Z.
Definition measures (step : state -> outcome state) (s m : string) (add : tag -> string) (st : state) : Prop :=
  exists st', step st = Ret st' /\ Inv0 st' m /\ forall t, tot st' t = (tot st t + String.length (add t))%nat.
Lemma measure_ok i j e p v st s m : plist p = None -> cell_at geta f p v s m -> Inv0 st s -> measures (measure geta junk f gs i j e p) s m (cell_part gs f e p v) st.
Proof.
  intros P A (I1 & I2 & I3). inversion A as [z s' r' _ A'|]; [subst|congruence].
  assert (S : exists st', skip_cell geta junk f p st = Ret (st', stride (pty p)) /\ strm st' = Some m /\ lsz st' = rep 4 zero /\ lcount st' = lcount st /\ tot st' = tot st).
  { unfold skip_cell. rewrite P. destruct f.
    - apply scalar_text in A' as (_ & w & W & K). unfold skip_word. rewrite I1, K. destruct w; [congruence|]. cbn. eexists. split; [reflexivity|]. cbn. auto.
    - apply scalar_binary in A'; [|discriminate]. subst s. rewrite I1, rd_app by apply enc_len. eexists. split; [reflexivity|]. cbn. auto.
    - apply scalar_binary in A'; [|discriminate]. subst s. rewrite I1, rd_app by apply enc_len. eexists. split; [reflexivity|]. cbn. auto. }
  destruct S as (st1 & E & J1 & J2 & J3 & J4). unfold measures, measure, cell_part, owned. rewrite E. cbn [obind]. destruct (owner gs (key e p)) as [g|]; cbv beta iota zeta.
  - rewrite J2, J3, !I3. change (num 4 (rep 4 zero)) with 0%Z. cbn [Z.eqb]. eexists. split; [reflexivity|]. split.
    + split; [exact J1|]. split; [reflexivity|]. intros a b. cbn [lcount]. unfold upd2. destruct (Nat.eqb a i && Nat.eqb b j); auto.
    + intros t. cbn [tot]. unfold upd. rewrite J4. destruct (tag_beq t (gtag g)) eqn:Q.
      * apply tag_eqb in Q. subst t. replace (tag_beq (gtag g) (gtag g)) with true by (destruct (gtag g); reflexivity). rewrite cell_raw_len. cbn [cell_vals List.length]. lia.
      * replace (tag_beq (gtag g) t) with false by (destruct (gtag g), t; (reflexivity || discriminate)). cbn. lia.
  - exists st1. split; [reflexivity|]. split; [|intros t; rewrite J4; cbn; lia]. split; [exact J1|]. split; [exact J2|]. intros a b. rewrite J3. auto.
Qed.
Lemma mprops_ok i e ps : forall j vs st s m, Forall (fun p => plist p = None) ps -> row_at geta f ps vs s m -> Inv0 st s -> measures (over_props (measure geta junk f gs) i j e ps) s m (row_raw gs f e ps vs) st.
Proof.
  induction ps as [|p ps IH]; intros j vs st s m P A I; inversion A; subst.
  - exists st. split; [reflexivity|]. split; auto. 
  - inversion P; subst. destruct (measure_ok i j e p v st s m0) as (st1 & E1 & I1 & T1); auto. destruct (IH (Datatypes.S j) vs0 st1 m0 m) as (st2 & E2 & I2 & T2); auto.
    exists st2. cbn [over_props]. rewrite E1. cbn [obind]. split; [exact E2|]. split; auto. intros t. rewrite T2, T1. cbn [row_raw]. rewrite len_app. lia.
Qed.
Lemma mrows_ok i e ps vss : forall st s m, Forall (fun p => plist p = None) ps -> rows_at geta f ps vss s m -> Inv0 st s -> measures (times (List.length vss) (over_props (measure geta junk f gs) i 0 e ps)) s m (rows_raw gs f e ps vss) st.
Proof.
  induction vss as [|vs vss IH]; intros st s m P A I; inversion A; subst.
  - exists st. split; [reflexivity|]. split; auto. 
  - destruct (mprops_ok i e ps 0 vs st s m0) as (st1 & E1 & I1 & T1); auto. destruct (IH st1 m0 m) as (st2 & E2 & I2 & T2); auto.
    exists st2. cbn [List.length times]. rewrite E1. cbn [obind]. split; [exact E2|]. split; auto. intros t. rewrite T2, T1. unfold rows_raw. cbn [map cat]. rewrite len_app. lia.
Qed.
Lemma melements_ok es' : forall i D' st s m, Forall (fun e => Forall (fun p => plist p = None) (eprops e)) es' -> body_at geta f es' D' s m -> Inv0 st s ->
  measures (over_elements (measure geta junk f gs) i es') s m (body_raw gs f es' D') st.
Proof.
  induction es' as [|e es' IH]; intros i D' st s m P A I; inversion A; subst.
  - exists st. split; [reflexivity|]. split; auto. 
  - inversion P; subst. destruct (mrows_ok i e (eprops e) vss st s m0) as (st1 & E1 & I1 & T1); auto. destruct (IH (Datatypes.S i) D0 st1 m0 m) as (st2 & E2 & I2 & T2); auto.
    exists st2. cbn [over_elements]. match goal with H : List.length vss = esize e |- _ => rewrite <- H end. rewrite E1. cbn [obind]. split; [exact E2|]. split; auto. intros t. rewrite T2, T1. cbn [body_raw]. rewrite len_app. lia.
Qed.
(** there is a face list, or there are no lists at all *)
Definition lists_known : Prop := (exists g, group_of Fi gs = Some g \/ group_of Fx gs = Some g) \/ Forall (fun e => Forall (fun p => plist p = None) (eprops e)) es.
Lemma hints_pos t g : group_of t gs = Some g -> listy t = true -> hints gs <> 0%nat.
Proof.
  intros G L. assert (I : In g gs /\ gtag g = t). { unfold group_of in G. apply find_some in G as (I & E). split; auto. apply tag_eqb. exact E. } destruct I as (I & E).
  pose proof (proj2 (proj2 (proper_requests es) g I)) as H. rewrite E in H. assert (ghint g = 3%nat) by (rewrite H; destruct t; try discriminate; reflexivity). clear -I H0. unfold gs, hints in *. induction (requests es) as [|g0 l IH]; [destruct I|]. cbn [fold_right]. destruct I as [->|I]; [clear IH; lia|]. specialize (IH I). clear -IH. lia.
Qed.
Lemma allocate_ok : lists_known -> exists cap, allocate geta junk f es gs (Some body) = Ret (cap, Some body) /\ forall t g, group_of t gs = Some g -> cap t = sizes gs t.
Proof.
  intros K. unfold allocate. destruct (Nat.eqb_spec (hints gs) 0) as [H|H]; [|exists (sizes gs); auto]. destruct K as [(g & [G|G])|K]; [exfalso; eapply hints_pos; eauto..|].
  destruct (melements_ok es 0 D (initial (Some body)) body r K B) as (st & E & (I1 & _) & Q); [repeat split|]. rewrite E. cbn [obind]. rewrite I1. eexists. split; [reflexivity|].
  intros t g G. rewrite Q. cbn [tot initial]. destruct (group_vals t g G) as (e & rows & I & E' & L & V & S & R & X). rewrite X, cat_enc_len, V, S. rewrite (concat_len (width t)), map_length by (eapply Forall_impl; [|exact R]; cbn; tauto). lia.
Qed.
Lemma data_read_ok : lists_known -> exists cap mem, read_data geta junk f es (Some body) = Ret (cap, mem) /\
  forall t g, group_of t gs = Some g -> exists e rows, In (e, rows) (combine es D) /\ ename e = tag_element t /\ List.length rows = gcount g /\ cap t = (gcount g * (stride (gty g) * width t))%nat /\
      PlyModel.rows (gcount g) (stride (gty g)) (width t) (mem t) = map (pick (tag_names t) (eprops e)) rows.
Proof.
  intros K. destruct (allocate_ok K) as (cap & A & C). destruct (pass_ok cap C) as (st & E & P). exists cap, (contents junk f gs cap st). split; [|exact P].
  unfold read_data. fold gs. rewrite A. cbn [obind fst snd]. rewrite E. reflexivity.
Qed.
End Read.
