(** Lemmas about PlyModel: from the buffers to the matrices; which groups a header leads to. *)
From Coq Require Import String Ascii List ZArith Bool Lia Arith.
From Verif Require Import TextModel TextProofs PlyModel PlyProofs.
From Verif Require CppObjModel StlModel StlProofs.
Import ListNotations.
Open Scope string_scope.

(** ** from bytes to numbers *)
Definition in_range (b : nat) (z : Z) : Prop := (0 <= z < 256 ^ Z.of_nat b)%Z.
Lemma swap_ok n zs : forall r, swap_chunks (List.length zs) n (cat (map (fun z => backwards (le n z)) zs) ++ r) = cat (map (le n) zs) ++ r.
Proof.
  induction zs as [|z zs IH]; intros r; [reflexivity|]. cbn [List.length swap_chunks map cat]. rewrite !app_as.
  rewrite take_n, drop_n by (rewrite back_len; apply le_len). rewrite back_back, IH. reflexivity.
Qed.
Lemma row_ok b zs : forall r, Forall (in_range b) zs -> row b (List.length zs) (cat (map (le b) zs) ++ r) = zs.
Proof.
  induction zs as [|z zs IH]; intros r H; [reflexivity|]. inversion H; subst. cbn [List.length row map cat]. rewrite !app_as, num_le by auto. rewrite drop_n by apply le_len. rewrite IH by auto. reflexivity.
Qed.
Lemma cat_le_len b zs : String.length (cat (map (le b) zs)) = (b * List.length zs)%nat.
Proof. induction zs; cbn [map cat List.length]; [cbn; lia|]. rewrite len_app, le_len, IHzs. lia. Qed.
Lemma rows_ok2 b w M : forall r, Forall (fun zs => List.length zs = w /\ Forall (in_range b) zs) M -> PlyModel.rows (List.length M) b w (cat (map (le b) (concat M)) ++ r) = M.
Proof.
  induction M as [|zs M IH]; intros r H; [reflexivity|]. inversion H as [|? ? (L & R) H']; subst. cbn [List.length PlyModel.rows concat]. rewrite map_app, cat_app, app_as, row_ok by auto.
  rewrite drop_n by apply cat_le_len. rewrite IH by auto. reflexivity.
Qed.
Lemma concat_len {A} w (M : list (list A)) : Forall (fun zs => List.length zs = w) M -> List.length (concat M) = (List.length M * w)%nat.
Proof. induction 1; cbn; auto. rewrite app_length. lia. Qed.
(** the memory of a group that holds exactly the numbers zs *)
Lemma back_short s : (String.length s <= 1)%nat -> backwards s = s.
Proof. destruct s as [|a [|b s]]; cbn; auto. lia. Qed.
Lemma contents_ok junk f gs cap st t g zs : group_of t gs = Some g -> cap t = (stride (gty g) * List.length zs)%nat -> bufs st t = cat (map (enc f (gty g)) zs) ->
  contents junk f gs cap st t = cat (map (le (stride (gty g))) zs).
Proof.
  intros G C B. unfold contents. rewrite G, B, cat_enc_len, C, Nat.sub_diag. cbn [StlModel.rep]. destruct (big f && Nat.ltb 1 (stride (gty g))) eqn:Q.
  - apply andb_true_iff in Q as (Q1 & Q2). apply Nat.ltb_lt in Q2. destruct f; try discriminate. rewrite Nat.mul_comm, Nat.div_mul by lia. unfold enc. rewrite swap_ok, app_e. reflexivity.
  - rewrite app_e. f_equal. apply map_ext. intros z. unfold enc. destruct f; auto. cbn [big andb] in Q. apply Nat.ltb_ge in Q. apply back_short. rewrite le_len. exact Q.
Qed.
Lemma copy_ok n k count s : (n = count * k)%nat -> copy n k count s = Ret s.
Proof. intros ->. unfold copy. rewrite Nat.ltb_irrefl, Nat.sub_diag. cbn. rewrite app_e. reflexivity. Qed.

(** ** the values of a group in file order *)
Fixpoint row_vals (gs : list group) (e : element) (ps : list prop) (vs : list cellv) (t : tag) : list Z :=
  match ps, vs with p :: ps', v :: vs' => ((if owned gs e p t then cell_vals v else []) ++ row_vals gs e ps' vs' t)%list | _, _ => [] end.
Fixpoint body_vals (gs : list group) (es : list element) (D : list (list (list cellv))) (t : tag) : list Z :=
  match es, D with e :: es', vss :: D' => (concat (map (fun vs => row_vals gs e (eprops e) vs t) vss) ++ body_vals gs es' D' t)%list | _, _ => [] end.
Lemma row_raw_vals gs f e ty t ps : (forall p, In p ps -> owned gs e p t = true -> pty p = ty) -> forall vs, row_raw gs f e ps vs t = cat (map (enc f ty) (row_vals gs e ps vs t)).
Proof.
  intros H. induction ps as [|p ps IH]; intros vs; [reflexivity|]. destruct vs as [|v vs]; [reflexivity|]. cbn [row_raw row_vals]. rewrite map_app, cat_app, <- IH by (intros q I; apply H; cbn; auto). f_equal.
  unfold cell_part. destruct (owned gs e p t) eqn:O; [|reflexivity]. rewrite <- (H p) by (cbn; auto). reflexivity.
Qed.
Lemma body_raw_vals gs f ty t es : (forall e p, In e es -> In p (eprops e) -> owned gs e p t = true -> pty p = ty) -> forall D, body_raw gs f es D t = cat (map (enc f ty) (body_vals gs es D t)).
Proof.
  induction es as [|e es IH]; intros H D; [reflexivity|]. destruct D as [|vss D]; [reflexivity|]. cbn [body_raw body_vals]. rewrite map_app, cat_app, <- IH by (intros e' p I; apply H; cbn; auto). f_equal.
  unfold rows_raw. induction vss as [|vs vss IV]; [reflexivity|]. cbn [map cat concat]. rewrite map_app, cat_app, <- IV. f_equal. apply row_raw_vals. intros p I. apply H; cbn; auto.
Qed.
(** the values of the named properties of a row *)
Definition named (ks : list string) (p : prop) : bool := existsb (String.eqb (pname p)) ks.
Fixpoint pick (ks : list string) (ps : list prop) (vs : list cellv) : list Z :=
  match ps, vs with p :: ps', v :: vs' => ((if named ks p then cell_vals v else []) ++ pick ks ps' vs')%list | _, _ => [] end.
Lemma row_vals_pick gs e t ks ps : (forall p, In p ps -> owned gs e p t = named ks p) -> forall vs, row_vals gs e ps vs t = pick ks ps vs.
Proof.
  intros H. induction ps as [|p ps IH]; intros vs; [reflexivity|]. destruct vs as [|v vs]; [reflexivity|]. cbn [row_vals pick]. rewrite H, IH by (try (intros q Q; apply H; right; exact Q); left; reflexivity). reflexivity.
Qed.
Lemma row_vals_none gs e t ps : (forall p, In p ps -> owned gs e p t = false) -> forall vs, row_vals gs e ps vs t = [].
Proof.
  intros H. induction ps as [|p ps IH]; intros vs; [reflexivity|]. destruct vs as [|v vs]; [reflexivity|]. cbn [row_vals]. rewrite H, IH by (try (intros q Q; apply H; right; exact Q); left; reflexivity). reflexivity.
Qed.
Lemma concat_nil {A B} (f : A -> list B) l : (forall x, f x = []) -> concat (map f l) = [].
Proof. intros H. induction l; cbn; auto. rewrite H, IHl. reflexivity. Qed.
Lemma body_vals_none gs t es : (forall e p, In e es -> In p (eprops e) -> owned gs e p t = false) -> forall D, body_vals gs es D t = [].
Proof.
  induction es as [|e es IH]; intros H D; [reflexivity|]. destruct D as [|vss D]; [reflexivity|]. cbn [body_vals]. rewrite IH by (intros e' p I; apply H; cbn; auto).
  rewrite concat_nil; [reflexivity|]. intros vs. apply row_vals_none. intros p I. apply H; cbn; auto.
Qed.
Lemma body_vals_pick gs t ks e vss es : forall D, In (e, vss) (combine es D) -> NoDup (map ename es) ->
  (forall p, In p (eprops e) -> owned gs e p t = named ks p) -> (forall e' p, In e' es -> In p (eprops e') -> ename e' <> ename e -> owned gs e' p t = false) ->
  body_vals gs es D t = concat (map (pick ks (eprops e)) vss).
Proof.
  induction es as [|e0 es IH]; intros D I ND H1 H2; [destruct I|]. destruct D as [|vss0 D]; [destruct I|]. cbn [combine] in I. cbn [body_vals]. inversion ND as [|? ? N ND']; subst. destruct I as [Q|I].
  - injection Q as -> ->. rewrite body_vals_none, app_nil_r.
    + f_equal. apply map_ext. intros vs. apply row_vals_pick; auto.
    + intros e' p I J. apply H2; [right; exact I|exact J|]. intros Q. apply N. rewrite <- Q. apply in_map. auto.
  - rewrite (IH D I ND' H1 (fun e' p I' => H2 e' p (or_intror I'))). rewrite concat_nil; [reflexivity|]. intros vs'. apply row_vals_none. intros p P. apply H2; [left; reflexivity|exact P|].
    intros Q. apply N. rewrite Q. apply in_map. apply (in_combine_l _ _ _ _ I).
Qed.

(** ** which groups there are *)
Definition tag_element (t : tag) : string := match t with Pos | Nrm | VRed | VR => "vertex" | _ => "face" end.
Definition tag_names (t : tag) : list string :=
  match t with Pos => ["x"; "y"; "z"] | Nrm => ["nx"; "ny"; "nz"] | VRed | FRed => ["red"; "green"; "blue"; "alpha"] | VR | FR => ["r"; "g"; "b"; "a"] | Fi => ["vertex_indices"] | Fx => ["vertex_index"] end.
Definition tag_keys (t : tag) : list string := map (fun k => tag_element t ++ k) (tag_names t).
Definition tag_hint (t : tag) : nat := match t with Fi | Fx => 3 | _ => 0 end.
Definition has_key (t : tag) (k : string) : bool := existsb (String.eqb k) (tag_keys t).
Lemma keys_disjoint t u k : has_key t k = true -> has_key u k = true -> t = u.
Proof.
  unfold has_key. rewrite !existsb_exists. intros (k1 & I1 & E1) (k2 & I2 & E2). apply String.eqb_eq in E1, E2. subst k1 k2.
  destruct t; cbn in I1; repeat (destruct I1 as [<-|I1]; [destruct u; try reflexivity; exfalso; cbn in I2; clear - I2; intuition discriminate|]); destruct I1.
Qed.
(** groups with the right keys, one for each tag *)
Definition proper (gs : list group) : Prop := NoDup (map gtag gs) /\ forall g, In g gs -> gkeys g = tag_keys (gtag g) /\ ghint g = tag_hint (gtag g).
Lemma request_shape es t ks h g : In g (request es t (tag_element t) ks h) -> gtag g = t /\ ghint g = h /\ gkeys g = map (fun k => tag_element t ++ k) ks.
Proof.
  unfold request. destruct (find_element (tag_element t) es) as [e|] eqn:E; [|intros []]. destruct (find_all ks (eprops e)); [|intros []]. intros [<-|[]]. cbn. repeat split.
  assert (ename e = tag_element t) as ->; auto. clear -E. induction es as [|e0 es IH]; [discriminate|]. cbn in E. destruct (String.eqb_spec (ename e0) (tag_element t)); auto. injection E as <-. auto.
Qed.
Definition req es t := request es t (tag_element t) (tag_names t) (tag_hint t).
Lemma requests_req es : requests es = (req es Pos ++ req es Nrm ++ req es VRed ++ req es VR ++
  (if defined VRed (req es Pos ++ req es Nrm ++ req es VRed ++ req es VR) || defined VR (req es Pos ++ req es Nrm ++ req es VRed ++ req es VR) then [] else req es FRed ++ req es FR) ++ req es Fi ++ req es Fx)%list.
Proof. unfold requests, req. cbn [tag_element tag_names tag_hint]. rewrite <- !app_assoc. reflexivity. Qed.
Lemma req_le es t : req es t = [] \/ exists g, req es t = [g] /\ gtag g = t /\ ghint g = tag_hint t /\ gkeys g = tag_keys t.
Proof.
  assert (H : forall g, In g (req es t) -> gtag g = t /\ ghint g = tag_hint t /\ gkeys g = tag_keys t) by (intros g; apply request_shape).
  unfold req, request in *. destruct (find_element _ es) as [e|]; auto. destruct (find_all _ _); auto. right. eexists. split; [reflexivity|]. apply H. left. reflexivity.
Qed.
Lemma proper_app gs hs : proper gs -> proper hs -> (forall g h, In g gs -> In h hs -> gtag g <> gtag h) -> proper (gs ++ hs)%list.
Proof.
  intros (N1 & P1) (N2 & P2) H. split.
  - rewrite map_app. clear P1 P2. induction gs as [|g gs IH]; auto. cbn in *. inversion N1; subst. constructor; [|apply IH; auto; intros; apply H; auto].
    rewrite in_app_iff. intros [I|I]; [auto|]. apply in_map_iff in I as (h & E & I). apply (H g h); auto.
  - intros g I. apply in_app_iff in I as [I|I]; auto.
Qed.
Lemma proper_req es t : proper (req es t).
Proof. destruct (req_le es t) as [->|(g & -> & A & B & C)]; split; cbn; try (constructor; auto; constructor); try tauto. intros g' [<-|[]]. rewrite A. auto. Qed.
Lemma proper_nil : proper []. Proof. split; [constructor|intros g []]. Qed.
Lemma req_in es t g : In g (req es t) -> gtag g = t.
Proof. apply request_shape. Qed.
Lemma proper_requests es : proper (requests es).
Proof.
  rewrite requests_req. set (b := _ || _).
  assert (B : forall g, In g (if b then [] else req es FRed ++ req es FR)%list -> gtag g = FRed \/ gtag g = FR).
  { intros g. destruct b; [intros []|]. rewrite in_app_iff. intros [I|I]; apply req_in in I; auto. }
  repeat first [ apply proper_req
         | apply proper_app; [| |intros g h I J; rewrite ?in_app_iff in J; repeat match goal with H : _ \/ _ |- _ => destruct H end; repeat match goal with H : In _ (req _ _) |- _ => apply req_in in H | H : In _ (if b then _ else _) |- _ => apply B in H as [H|H] end; congruence]
         | destruct b; [apply proper_nil|]].
Qed.
Lemma owned_spec gs e p t : proper gs -> owned gs e p t = match group_of t gs with Some _ => has_key t (key e p) | None => false end.
Proof.
  intros (N & P). unfold owned, owner, group_of. revert P N. generalize (key e p) as k. intros k. induction gs as [|g gs IH]; intros P N; [reflexivity|]. cbn [find].
  rewrite (proj1 (P g (or_introl eq_refl))). fold (has_key (gtag g) k). cbn in N. inversion N as [|? ? N1 N2]; subst.
  assert (IH' := IH (fun g' I => P g' (or_intror I)) N2). clear IH. destruct (tag_beq (gtag g) t) eqn:E.
  - apply tag_eqb in E. subst t. destruct (has_key (gtag g) k) eqn:K.
    + cbn. destruct (gtag g); reflexivity.
    + rewrite IH'. destruct (find (fun g0 => tag_beq (gtag g0) (gtag g)) gs) as [g'|] eqn:F; auto.
  - destruct (has_key (gtag g) k) eqn:K; [|exact IH']. rewrite E. destruct (find (fun g0 => tag_beq (gtag g0) t) gs); auto. destruct (has_key t k) eqn:K'; auto. pose proof (keys_disjoint _ _ _ K K'). subst t. destruct (gtag g); discriminate.
Qed.
