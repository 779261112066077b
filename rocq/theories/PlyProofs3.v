(** Lemmas about PlyModel: reading any file whose header and body are as described by [field], [list_field], [cell_ok]. *)
From Coq Require Import String Ascii List ZArith Bool Lia Arith.
From Verif Require Import TextModel TextProofs PlyModel PlyProofs PlyProofs2.
From Verif Require CppObjModel StlModel StlProofs.
Import ListNotations.
Open Scope string_scope.

Definition scalar (ty : ptype) (k : string) : prop := {| pname := k; pty := ty; plist := None |}.
(** the named properties are there, once each, in this order, numbers of type ty *)
Definition in_order (ks : list string) (ty : ptype) (ps : list prop) : Prop := filter (named ks) ps = map (scalar ty) ks.
Definition absent (ks : list string) (ps : list prop) : Prop := filter (named ks) ps = [].
Definition data_of := list (list (list cellv)).
(** the columns with these names of element el: their type and rows; [None]: there are none *)
Inductive field (el : string) (ks : list string) (es : list element) (D : data_of) : option (ptype * list (list Z)) -> Prop :=
| field_has e rows ty : In (e, rows) (combine es D) -> ename e = el -> in_order ks ty (eprops e) -> field el ks es D (Some (ty, map (pick ks (eprops e)) rows))
| field_lacks : (forall e, In e es -> ename e = el -> absent ks (eprops e)) -> field el ks es D None.
(** the column of lists of three four-byte integers *)
Inductive list_field (el k : string) (es : list element) (D : data_of) : option (list (list Z)) -> Prop :=
| list_field_has e rows ty lt : In (e, rows) (combine es D) -> ename e = el -> ty = INT32 \/ ty = UINT32 -> filter (named [k]) (eprops e) = [{| pname := k; pty := ty; plist := Some lt |}] ->
    Forall (fun r => List.length r = 3%nat) (map (pick [k] (eprops e)) rows) -> list_field el k es D (Some (map (pick [k] (eprops e)) rows))
| list_field_lacks : (forall e, In e es -> ename e = el -> absent [k] (eprops e)) -> list_field el k es D None.
(** numbers in range, lists shorter than 256 with an integer count *)
Definition cell_ok (p : prop) (v : cellv) : Prop := Forall (in_range (stride (pty p))) (cell_vals v) /\ forall lt, plist p = Some lt -> list_type lt /\ (List.length (cell_vals v) < 256)%nat.
Definition data_ok (es : list element) (D : data_of) : Prop := Forall2 (fun e rows => Forall (Forall2 cell_ok (eprops e)) rows) es D.
(** no other element-property pair runs together to a requested name *)
Definition clean (es : list element) : Prop := NoDup (map ename es) /\ forall e p t, In e es -> In p (eprops e) -> has_key t (key e p) = true -> ename e = tag_element t.

(** ** requests *)
Lemma find_filtered ks k : In k ks -> forall ps, find_property k ps = find_property k (filter (named ks) ps).
Proof.
  intros I ps. induction ps as [|p ps IH]; [reflexivity|]. cbn [find_property filter]. destruct (String.eqb_spec (pname p) k) as [E|E].
  - assert (named ks p = true) as ->. { unfold named. apply existsb_exists. exists k. split; auto. apply String.eqb_eq. auto. } cbn. destruct (String.eqb_spec (pname p) k); congruence.
  - destruct (named ks p); cbn; auto. destruct (String.eqb_spec (pname p) k); congruence.
Qed.
Lemma find_all_filtered ks ps : forall l, incl l ks -> find_all l ps = find_all l (filter (named ks) ps).
Proof. induction l as [|k l IH]; intros H; [reflexivity|]. cbn [find_all]. rewrite (find_filtered ks k) by (apply H; cbn; auto). rewrite IH by (intros x X; apply H; cbn; auto). reflexivity. Qed.
Lemma ptype_refl t : ptype_beq t t = true. Proof. destruct t; reflexivity. Qed.
Lemma find_element_ok el es e : NoDup (map ename es) -> In e es -> ename e = el -> find_element el es = Some e.
Proof.
  intros N I <-. induction es as [|e0 es IH]; [destruct I|]. cbn in *. inversion N as [|? ? N1 N2]; subst. destruct I as [->|I]; [rewrite String.eqb_refl; reflexivity|].
  destruct (String.eqb_spec (ename e0) (ename e)) as [Q|Q]; auto. exfalso. apply N1. rewrite Q. apply in_map. auto.
Qed.
Lemma find_element_inv el es e : find_element el es = Some e -> In e es /\ ename e = el.
Proof. induction es as [|e0 es IH]; cbn; [discriminate|]. destruct (String.eqb_spec (ename e0) el); intros Q; [injection Q as <-; auto|]. destruct (IH Q). auto. Qed.
Definition listy (t : tag) : bool := match t with Fi | Fx => true | _ => false end.
Lemma req_has es t e ty : NoDup (map ename es) -> In e es -> ename e = tag_element t -> listy t = false -> in_order (tag_names t) ty (eprops e) ->
  req es t = [{| gtag := t; gkeys := tag_keys t; gty := ty; glist := false; gcount := esize e; ghint := 0; gok := true |}].
Proof.
  intros N I E L O. unfold req, request. rewrite (find_element_ok _ _ e) by auto. unfold in_order in O.
  assert (Q : find_all (tag_names t) (eprops e) = Some (map (scalar ty) (tag_names t))).
  { rewrite (find_all_filtered (tag_names t) (eprops e)) by apply incl_refl. rewrite O. destruct t; try discriminate; reflexivity. }
  rewrite Q. unfold tag_keys. rewrite E. destruct t; try discriminate; cbn; rewrite ptype_refl; reflexivity.
Qed.
Lemma req_list es t e ty lt k : NoDup (map ename es) -> In e es -> ename e = tag_element t -> listy t = true -> tag_names t = [k] -> filter (named [k]) (eprops e) = [{| pname := k; pty := ty; plist := Some lt |}] ->
  req es t = [{| gtag := t; gkeys := tag_keys t; gty := ty; glist := true; gcount := esize e; ghint := 3; gok := true |}].
Proof.
  intros N I E L K O. unfold req, request. rewrite (find_element_ok _ _ e) by auto. rewrite K. cbn [find_all]. rewrite (find_filtered [k] k ltac:(cbn; auto)), O. cbn [find_property pname]. rewrite String.eqb_refl.
  unfold tag_keys. rewrite E, K. destruct t; try discriminate; reflexivity.
Qed.
Lemma req_lacks es t : (forall e, In e es -> ename e = tag_element t -> absent (tag_names t) (eprops e)) -> req es t = [].
Proof.
  intros H. unfold req, request. destruct (find_element (tag_element t) es) as [e|] eqn:F; [|reflexivity]. apply find_element_inv in F as (I & E). specialize (H e I E). unfold absent in H.
  destruct (tag_names t) as [|k ks] eqn:K; [destruct t; discriminate|]. cbn [find_all]. rewrite (find_filtered (k :: ks) k ltac:(cbn; auto)), H. reflexivity.
Qed.
Lemma group_of_app t a b : group_of t (a ++ b)%list = match group_of t a with Some g => Some g | None => group_of t b end.
Proof. unfold group_of. induction a as [|g a IH]; [reflexivity|]. cbn. destruct (tag_beq (gtag g) t); auto. Qed.
Lemma group_of_req t u es : group_of t (req es u) = if tag_beq u t then hd_error (req es u) else None.
Proof. destruct (req_le es u) as [->|(g & -> & A & _)]; cbn; [destruct (tag_beq u t); reflexivity|]. rewrite A. destruct (tag_beq u t); reflexivity. Qed.
Definition vcol (es : list element) : bool :=
  match hd_error (req es VRed) with Some g => gok g | None => false end || match hd_error (req es VR) with Some g => gok g | None => false end.
Lemma group_of_requests t es : group_of t (requests es) = match t with FRed | FR => if vcol es then None else hd_error (req es t) | _ => hd_error (req es t) end.
Proof.
  rewrite requests_req. set (b := _ || _). assert (b = vcol es) as ->.
  { unfold b, vcol, defined. rewrite !group_of_app, !group_of_req. cbn [tag_beq]. destruct (hd_error (req es VRed)), (hd_error (req es VR)); reflexivity. }
  rewrite !group_of_app. destruct (vcol es); rewrite ?group_of_app, !group_of_req; destruct t; cbn [tag_beq group_of find]; repeat match goal with |- context [hd_error ?x] => destruct (hd_error x) end; reflexivity.
Qed.
Lemma prefix_inj a b c : a ++ b = a ++ c -> b = c. Proof. induction a; cbn; auto. intros Q. injection Q. auto. Qed.
Lemma has_key_named t e p : ename e = tag_element t -> has_key t (key e p) = named (tag_names t) p.
Proof.
  intros E. unfold has_key, tag_keys, named, key. rewrite E. induction (tag_names t) as [|k ks IH]; [reflexivity|]. cbn [map existsb]. rewrite IH. f_equal.
  destruct (String.eqb_spec (pname p) k) as [->|N]; [apply String.eqb_refl|]. apply String.eqb_neq. intros Q. apply N. exact (prefix_inj _ _ _ Q).
Qed.
Section Read.
Variable geta : ptype -> string -> option (Z * string).
Variable junk : ascii.
Variables (f : format) (es : list element) (D : data_of) (body r : string).
Hypothesis B : body_at geta f es D body r.
Hypothesis CL : clean es.
Hypothesis OK : data_ok es D.
Let gs := requests es.
Lemma owned_iff e p t : In e es -> In p (eprops e) -> owned gs e p t = true -> ename e = tag_element t /\ named (tag_names t) p = true /\ exists g, group_of t gs = Some g.
Proof.
  intros I J O. unfold gs in O. rewrite owned_spec in O by apply proper_requests. fold gs in O. destruct (group_of t gs) as [g|]; [|discriminate].
  pose proof (proj2 CL e p t I J O) as E. rewrite has_key_named in O by auto. eauto.
Qed.
Lemma owned_named e p t g : In e es -> ename e = tag_element t -> group_of t gs = Some g -> owned gs e p t = named (tag_names t) p.
Proof. intros I E G. unfold gs. rewrite owned_spec by apply proper_requests. fold gs. rewrite G. apply has_key_named. auto. Qed.
(** the values of a group that is there *)
Lemma vals_ok e rows t g : In (e, rows) (combine es D) -> ename e = tag_element t -> group_of t gs = Some g -> body_vals gs es D t = concat (map (pick (tag_names t) (eprops e)) rows).
Proof.
  intros I E G. apply body_vals_pick; auto; [apply CL| |].
  - intros p J. eapply owned_named; eauto. apply in_combine_l in I. exact I.
  - intros e' p I' J N. destruct (owned gs e' p t) eqn:O; auto. apply owned_iff in O as (Q & _); auto. congruence.
Qed.
Lemma vals_none t : group_of t gs = None -> body_raw gs f es D t = "".
Proof.
  intros G. rewrite (body_raw_vals gs f INVALID t).
  - rewrite body_vals_none; [reflexivity|]. intros e p I J. unfold gs. rewrite owned_spec by apply proper_requests. fold gs. rewrite G. reflexivity.
  - intros e p I J O. apply owned_iff in O as (_ & _ & g & Q); auto. congruence.
Qed.
Lemma rows_count f' ps vss s m : rows_at geta f' ps vss s m -> Forall (fun vs => List.length vs = List.length ps) vss.
Proof. induction 1 as [|vs vss s m r' H1 H2 IH]; constructor; auto. clear -H1. induction H1; cbn; auto. Qed.
Lemma rows_of e rows : In (e, rows) (combine es D) -> List.length rows = esize e /\ exists s m, rows_at geta f (eprops e) rows s m.
Proof.
  clear CL OK. revert B. generalize body as s, r as q. generalize D as D'. induction es as [|e0 es' IH]; intros D' s q B'; inversion B'; subst; [intros []|]. intros [Q|I].
  - injection Q as <- <-. eauto.
  - eapply IH; eauto.
Qed.
Lemma ok_of e rows : In (e, rows) (combine es D) -> Forall (Forall2 cell_ok (eprops e)) rows.
Proof.
  clear CL B. unfold data_ok in OK. induction OK as [|e0 rows0 es' D' H1 H2 IH]; [intros []|]. intros [Q|I]; [injection Q as <- <-; auto|auto].
Qed.
Lemma rows_good e rows ks ty w : In (e, rows) (combine es D) -> (forall p, In p (eprops e) -> named ks p = true -> pty p = ty) ->
  Forall (fun r => List.length r = w) (map (pick ks (eprops e)) rows) ->
  Forall (fun zs => List.length zs = w /\ Forall (in_range (stride ty)) zs) (map (pick ks (eprops e)) rows).
Proof.
  intros I T L. pose proof (ok_of e rows I) as O. clear I. induction rows as [|vs rows IH]; cbn in *; constructor; inversion L; inversion O; subst; auto.
  split; auto. match goal with H : Forall2 cell_ok _ vs |- _ => revert H end. generalize (eprops e) as ps, T. clear. intros ps T H. revert T. induction H as [|p v ps vs (H1 & _) H2 IH]; intros T; cbn; [constructor|].
  apply Forall_app. split; [|apply IH; intros; apply T; cbn; auto]. destruct (named ks p) eqn:N; [|constructor]. rewrite <- (T p (or_introl eq_refl) N). exact H1.
Qed.
Lemma named_in ks ty ps p : in_order ks ty ps -> In p ps -> named ks p = true -> exists k, In k ks /\ p = scalar ty k.
Proof. intros O I N. assert (J : In p (filter (named ks) ps)) by (apply filter_In; auto). rewrite O in J. apply in_map_iff in J as (k & <- & K). eauto. Qed.
Lemma pick_length ks ty ps vs s m : in_order ks ty ps -> row_at geta f ps vs s m -> List.length (pick ks ps vs) = List.length ks.
Proof.
  intros O R. rewrite <- (map_length (scalar ty) ks), <- O. assert (S : forall p, In p ps -> named ks p = true -> plist p = None) by (intros p I N; destruct (named_in ks ty ps p O I N) as (k & _ & ->); reflexivity).
  clear O. induction R as [|p v ps vs s m r' H1 H2 IH]; [reflexivity|]. cbn [pick filter]. rewrite app_length, IH by (intros; apply S; cbn; auto).
  destruct (named ks p) eqn:N; [|reflexivity]. cbn [List.length]. pose proof (S p (or_introl eq_refl) N). inversion H1; subst; [reflexivity|congruence].
Qed.
Lemma rows_pick_length e rows ks ty : In (e, rows) (combine es D) -> in_order ks ty (eprops e) -> Forall (fun r => List.length r = List.length ks) (map (pick ks (eprops e)) rows).
Proof.
  intros I O. destruct (rows_of e rows I) as (_ & s & m & R). clear I. induction R as [|vs vss s m r' H1 H2 IH]; cbn; constructor; auto. eapply pick_length; eauto.
Qed.
End Read.
