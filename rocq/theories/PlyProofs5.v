(** Lemmas about PlyModel: the matrices of a file that is as described. *)
From Coq Require Import String Ascii List ZArith Bool Lia Arith.
From Verif Require Import TextModel TextProofs PlyModel PlyProofs PlyProofs2 PlyProofs3 PlyProofs4.
Import ListNotations.
Open Scope string_scope.

Definition first2 {A} (a b : option A) : option A := match a with Some x => Some x | None => b end.
Definition convert (to64 : Z -> Z) (t : ptype) (M : list (list Z)) : list (list Z) := match t with FLOAT32 => map (map to64) M | _ => M end.
Definition real (t : ptype) : Prop := t = FLOAT32 \/ t = FLOAT64.
Definition uint8 (o : option (ptype * list (list Z))) : Prop := forall t M, o = Some (t, M) -> t = UINT8.
Definition rows_or_none (o : option (ptype * list (list Z))) : list (list Z) := match o with Some (_, M) => M | None => [] end.

Section Read.
Variable geta : ptype -> string -> option (Z * string).
Variable junk : ascii.
Variable to64 : Z -> Z.
Variables (f : format) (es : list element) (D : data_of) (body r : string).
Hypothesis B : body_at geta f es D body r.
Hypothesis CL : clean es.
Hypothesis OK : data_ok es D.
Variables (tv : ptype) (V : list (list Z)) (n c1 c2 c3 c4 : option (ptype * list (list Z))) (f1 f2 : option (list (list Z))).
Hypothesis HV : field "vertex" ["x"; "y"; "z"] es D (Some (tv, V)).
Hypothesis TV : real tv.
Hypothesis HN : field "vertex" ["nx"; "ny"; "nz"] es D n.
Hypothesis TN : forall t M, n = Some (t, M) -> t = FLOAT32 \/ (t = FLOAT64 /\ tv = FLOAT64).
Hypothesis H1 : field "vertex" ["red"; "green"; "blue"; "alpha"] es D c1.
Hypothesis H2 : field "vertex" ["r"; "g"; "b"; "a"] es D c2.
Hypothesis H3 : field "face" ["red"; "green"; "blue"; "alpha"] es D c3.
Hypothesis H4 : field "face" ["r"; "g"; "b"; "a"] es D c4.
Hypotheses (T1 : uint8 c1) (T2 : uint8 c2) (T3 : uint8 c3) (T4 : uint8 c4).
Hypothesis L1 : list_field "face" "vertex_indices" es D f1.
Hypothesis L2 : list_field "face" "vertex_index" es D f2.
Hypothesis ONE : f1 = None \/ f2 = None.
Hypothesis KNOWN : f1 <> None \/ f2 <> None \/ Forall (fun e => Forall (fun p => plist p = None) (eprops e)) es.
Let gs := requests es.

Definition col (t : tag) : option (ptype * list (list Z)) := match t with Pos => Some (tv, V) | Nrm => n | VRed => c1 | VR => c2 | FRed => c3 | FR => c4 | _ => None end.
Lemma col_field t : listy t = false -> field (tag_element t) (tag_names t) es D (col t).
Proof. destruct t; intros H; try discriminate; assumption. Qed.
Lemma col_type t ty M : col t = Some (ty, M) -> ty <> INVALID.
Proof.
  destruct t; cbn; intros E; try discriminate.
  - injection E as <- <-. destruct TV as [-> | ->]; discriminate.
  - destruct (TN _ _ E) as [-> |(-> & _)]; discriminate.
  - rewrite (T1 _ _ E); discriminate.
  - rewrite (T2 _ _ E); discriminate.
  - rewrite (T3 _ _ E); discriminate.
  - rewrite (T4 _ _ E); discriminate.
Qed.
Lemma HS : forall t, listy t = false -> exists o, field (tag_element t) (tag_names t) es D o /\ forall ty M, o = Some (ty, M) -> ty <> INVALID.
Proof. intros t L. exists (col t). split; [apply col_field; auto|]. intros ty M. apply col_type. Qed.
Lemma HL : forall t k, listy t = true -> tag_names t = [k] -> exists o, list_field (tag_element t) k es D o.
Proof. intros t k L K. destruct t; try discriminate; injection K as <-; eauto. Qed.
Lemma req_col t : listy t = false -> match col t with None => req es t = [] | Some (ty, M) => exists g, req es t = [g] /\ gok g = true /\ gty g = ty /\ gtag g = t end.
Proof.
  intros L. pose proof (col_field t L) as F. destruct F as [e rows ty I E O|N].
  - rewrite (req_has es t e ty); auto; [|apply CL|eapply in_combine_l; eauto]. eexists. split; [reflexivity|]. auto.
  - apply req_lacks. exact N.
Qed.
Lemma req_Fi : match f1 with None => req es Fi = [] | Some M => exists g, req es Fi = [g] /\ gok g = true /\ gtag g = Fi /\ stride (gty g) = 4%nat end.
Proof.
  inversion L1 as [e rows ty lt I E T F W Q|N Q].
  - rewrite (req_list es Fi e ty lt "vertex_indices"); auto; [|apply CL|eapply in_combine_l; eauto]. eexists. split; [reflexivity|]. destruct T; subst; auto.
  - apply req_lacks. exact N.
Qed.
Lemma req_Fx : match f2 with None => req es Fx = [] | Some M => exists g, req es Fx = [g] /\ gok g = true /\ gtag g = Fx /\ stride (gty g) = 4%nat end.
Proof.
  inversion L2 as [e rows ty lt I E T F W Q|N Q].
  - rewrite (req_list es Fx e ty lt "vertex_index"); auto; [|apply CL|eapply in_combine_l; eauto]. eexists. split; [reflexivity|]. destruct T; subst; auto.
  - apply req_lacks. exact N.
Qed.
Lemma vcol_eq : vcol es = match c1, c2 with None, None => false | _, _ => true end.
Proof.
  unfold vcol. pose proof (req_col VRed eq_refl) as A. pose proof (req_col VR eq_refl) as A'. cbn [col] in *. destruct c1 as [(t1, M1)|], c2 as [(t2, M2)|].
  - destruct A as (g & -> & G & _). cbn. rewrite G. reflexivity.
  - destruct A as (g & -> & G & _). cbn. rewrite G. reflexivity.
  - destruct A' as (g & -> & G & _). cbn. rewrite G. rewrite orb_true_r. reflexivity.
  - rewrite A, A'. reflexivity.
Qed.
Lemma HT : group_of Fi gs = None \/ group_of Fx gs = None.
Proof. unfold gs. rewrite !group_of_requests. pose proof req_Fi as A. pose proof req_Fx as A'. destruct ONE as [-> | ->]; [left; rewrite A|right; rewrite A']; reflexivity. Qed.
Lemma same_rows e e' rows rows' : In (e, rows) (combine es D) -> In (e', rows') (combine es D) -> ename e = ename e' -> e = e' /\ rows = rows'.
Proof.
  destruct CL as (ND & _). clear -ND. revert D. induction es as [|e0 es' IH]; intros [|r0 D'] I J E; try (destruct I; fail). cbn in *. inversion ND as [|? ? N1 N2]; subst.
  destruct I as [Q|I], J as [Q'|J].
  - rewrite Q in Q'. injection Q' as <- <-. auto.
  - injection Q as -> ->. exfalso. apply N1. rewrite E. apply in_map. eapply in_combine_l; eauto.
  - injection Q' as -> ->. exfalso. apply N1. rewrite <- E. apply in_map. eapply in_combine_l; eauto.
  - eapply IH; eauto.
Qed.
Lemma matrices_ok cap mem :
  (forall t g, group_of t gs = Some g -> exists e rows, In (e, rows) (combine es D) /\ ename e = tag_element t /\ List.length rows = gcount g /\ cap t = (gcount g * (stride (gty g) * width t))%nat /\
      PlyModel.rows (gcount g) (stride (gty g)) (width t) (mem t) = map (pick (tag_names t) (eprops e)) rows) ->
  unpack to64 gs cap mem = Ret (convert to64 tv V, match first2 f2 f1 with Some M => map (map signed) M | None => [] end,
    match n with Some (t, M) => convert to64 t M | None => [] end, rows_or_none (first2 (first2 c2 c1) (first2 c4 c3))).
Proof.
  intros P.
  (* a column: its group, its capacity, its rows *)
  assert (C : forall t ty M, listy t = false -> group_of t gs = hd_error (req es t) -> col t = Some (ty, M) ->
            exists g, group_of t gs = Some g /\ gok g = true /\ gty g = ty /\ gtag g = t /\ cap t = (gcount g * (stride ty * width t))%nat /\ PlyModel.rows (gcount g) (stride ty) (width t) (mem t) = M).
  { intros t ty M L G E. pose proof (req_col t L) as R. rewrite E in R. destruct R as (g & R & G1 & G2 & G3). rewrite R in G. cbn in G. exists g. destruct (P t g G) as (e & rows & I & N & LN & CP & RW). rewrite G2 in *.
    repeat split; auto. rewrite RW. pose proof (col_field t L) as F. rewrite E in F. inversion F as [e' rows' ty' I' N' O' Q|]; subst. destruct (same_rows e e' rows rows' I I' (eq_trans N (eq_sym N'))) as (-> & ->). reflexivity. }
  assert (CN : forall t, listy t = false -> col t = None -> group_of t gs = None).
  { intros t L E. pose proof (req_col t L) as R. rewrite E in R. unfold gs. rewrite group_of_requests, R. destruct t; auto; destruct (vcol es); reflexivity. }
  assert (CF : forall t k o, listy t = true -> tag_names t = [k] -> list_field "face" k es D o -> tag_element t = "face" -> width t = 3%nat ->
            match o with None => req es t = [] | Some M => exists g, req es t = [g] /\ gok g = true /\ gtag g = t /\ stride (gty g) = 4%nat end ->
            match o with None => group_of t gs = None | Some M => exists g, group_of t gs = Some g /\ gok g = true /\ gtag g = t /\ cap t = (gcount g * 12)%nat /\ PlyModel.rows (gcount g) 4 3 (mem t) = M end).
  { intros t k o L K LF TE W R. assert (G : group_of t gs = hd_error (req es t)) by (unfold gs; rewrite group_of_requests; destruct t; try discriminate; reflexivity). destruct o as [M|]; [|rewrite R in G; exact G].
    destruct R as (g & R & G1 & G3 & G4). rewrite R in G. cbn in G. exists g. destruct (P t g G) as (e & rows & I & N & LN & CP & RW). rewrite G4, W in *. repeat split; auto. rewrite RW.
    inversion LF as [e' rows' ty' lt I' N' T' F' W' Q|]; subst. destruct (same_rows e e' rows rows' I I' ltac:(congruence)) as (-> & ->). rewrite K. reflexivity. }
  assert (FI := CF Fi "vertex_indices" f1 eq_refl eq_refl L1 eq_refl eq_refl req_Fi). assert (FX := CF Fx "vertex_index" f2 eq_refl eq_refl L2 eq_refl eq_refl req_Fx). clear CF.
  assert (GR : forall t, group_of t gs = match t with FRed | FR => if vcol es then None else hd_error (req es t) | _ => hd_error (req es t) end) by (intros; apply group_of_requests).
  destruct (C Pos tv V eq_refl (GR Pos) eq_refl) as (vg & G & Gok & Gty & _ & Gc & Gr). unfold unpack. rewrite G, Gok. cbn [negb].
  assert (QV : match gty vg with
     | FLOAT32 => obind (copy (cap Pos) 12 (gcount vg) (mem Pos)) (fun m => Ret (map (map to64) (PlyModel.rows (gcount vg) 4 3 m)))
     | FLOAT64 => obind (copy (cap Pos) 24 (gcount vg) (mem Pos)) (fun m => Ret (PlyModel.rows (gcount vg) 8 3 m)) | _ => Ret [] end = Ret (convert to64 tv V)).
  { rewrite Gty. destruct TV as [Q|Q]; rewrite Q in *; rewrite copy_ok by exact Gc; cbn [obind convert]; cbn [stride width listy tag_names List.length] in Gr; rewrite Gr; reflexivity. }
  rewrite QV. cbn [obind]. clear QV.
  assert (QF : obind (match (if defined Fx gs then group_of Fx gs else if defined Fi gs then group_of Fi gs else None) with
           | None => Ret []
           | Some g => obind (copy (cap (gtag g)) 12 (gcount g) (mem (gtag g))) (fun m => Ret (map (map signed) (PlyModel.rows (gcount g) 4 3 m))) end) (fun F => Ret F) = Ret (match first2 f2 f1 with Some M => map (map signed) M | None => [] end)).
  { unfold defined. destruct f2 as [M2|].
    - destruct FX as (g & X1 & X2 & X3 & X4 & X5). rewrite X1, X2, X3, copy_ok by exact X4. cbn [obind first2]. rewrite X5. reflexivity.
    - rewrite FX. destruct f1 as [M1|]; [|rewrite FI; reflexivity]. destruct FI as (g & X1 & X2 & X3 & X4 & X5). rewrite X1, X2, X3, copy_ok by exact X4. cbn [obind first2]. rewrite X5. reflexivity. }
  assert (BI : forall {A B'} (x : outcome A) (k : A -> outcome B') a, obind x (fun F => Ret F) = Ret a -> obind x k = k a) by (intros A B' x k a; destruct x; cbn; try discriminate; intros X; injection X as ->; reflexivity).
  rewrite (BI _ _ _ _ _ QF). clear QF.
  assert (QN : obind (match (if defined Nrm gs then group_of Nrm gs else None) with
           | None => Ret []
           | Some g => match gty g with
                       | FLOAT32 => obind (copy (cap Nrm) 12 (gcount g) (mem Nrm)) (fun m => Ret (map (map to64) (PlyModel.rows (gcount g) 4 3 m)))
                       | _ => match gty vg with FLOAT64 => obind (copy (cap Nrm) 24 (gcount g) (mem Nrm)) (fun m => Ret (PlyModel.rows (gcount g) 8 3 m)) | _ => Ret [] end
                       end end) (fun N => Ret N) = Ret (match n with Some (t, M) => convert to64 t M | None => [] end)).
  { unfold defined. destruct n as [(ty, M)|] eqn:En.
    - destruct (C Nrm ty M eq_refl (GR Nrm) En) as (g & X1 & X2 & X3 & _ & X4 & X5). rewrite X1, X2, X3, Gty. cbn [stride width listy tag_names List.length] in X4, X5.
      destruct (TN _ _ eq_refl) as [Q|(Q & Q2)]; rewrite Q in *; [|rewrite Q2]; rewrite copy_ok by exact X4; cbn [obind convert]; cbn [stride] in X5; rewrite X5; reflexivity.
    - rewrite (CN Nrm eq_refl En). reflexivity. }
  rewrite (BI _ _ _ _ _ QN). clear QN.
  assert (QC : obind (match (if defined VR gs then group_of VR gs else if defined VRed gs then group_of VRed gs
                  else if defined FR gs then group_of FR gs else if defined FRed gs then group_of FRed gs else None) with
           | None => Ret []
           | Some g => obind (copy (cap (gtag g)) 4 (gcount g) (mem (gtag g))) (fun m => Ret (PlyModel.rows (gcount g) 1 4 m)) end) (fun N => Ret N) = Ret (rows_or_none (first2 (first2 c2 c1) (first2 c4 c3)))).
  { assert (ONEC : forall t ty M, listy t = false -> group_of t gs = hd_error (req es t) -> col t = Some (ty, M) -> ty = UINT8 -> width t = 4%nat ->
       exists g, group_of t gs = Some g /\ gok g = true /\ obind (obind (copy (cap (gtag g)) 4 (gcount g) (mem (gtag g))) (fun m => Ret (PlyModel.rows (gcount g) 1 4 m))) (fun N => Ret N) = Ret M).
    { intros t ty M L G0 E T W. destruct (C t ty M L G0 E) as (g & X1 & X2 & X3 & X6 & X4 & X5). exists g. rewrite T, W in *. split; auto. split; auto. rewrite X6, copy_ok by exact X4. cbn [obind]. cbn [stride] in X5. rewrite X5. reflexivity. }
    pose proof vcol_eq as VC. unfold defined. destruct c2 as [(t2, M2)|] eqn:E2.
    - destruct (ONEC VR t2 M2 eq_refl (GR VR) E2 (T2 _ _ eq_refl) eq_refl) as (g & X1 & X2 & X3). rewrite X1, X2. exact X3.
    - rewrite (CN VR eq_refl E2). destruct c1 as [(t1, M1)|] eqn:E1.
      + destruct (ONEC VRed t1 M1 eq_refl (GR VRed) E1 (T1 _ _ eq_refl) eq_refl) as (g & X1 & X2 & X3). rewrite X1, X2. exact X3.
      + rewrite (CN VRed eq_refl E1). destruct c4 as [(t4, M4)|] eqn:E4.
        * destruct (ONEC FR t4 M4 eq_refl ltac:(rewrite GR, VC; reflexivity) E4 (T4 _ _ eq_refl) eq_refl) as (g & X1 & X2 & X3). rewrite X1, X2. exact X3.
        * rewrite (CN FR eq_refl E4). destruct c3 as [(t3, M3)|] eqn:E3.
          -- destruct (ONEC FRed t3 M3 eq_refl ltac:(rewrite GR, VC; reflexivity) E3 (T3 _ _ eq_refl) eq_refl) as (g & X1 & X2 & X3). rewrite X1, X2. exact X3.
          -- rewrite (CN FRed eq_refl E3). reflexivity. }
  rewrite (BI _ _ _ _ _ QC). reflexivity.
Qed.
Lemma read_ok s : parse_header s = Ret (f, es, Some body) ->
  read_ply geta junk to64 s = Ret (convert to64 tv V, match first2 f2 f1 with Some M => map (map signed) M | None => [] end,
    match n with Some (t, M) => convert to64 t M | None => [] end, rows_or_none (first2 (first2 c2 c1) (first2 c4 c3))).
Proof.
  intros H. destruct (data_read_ok geta junk f es D body r B CL OK HS HL HT) as (cap & mem & E & P).
  { destruct KNOWN as [X|[X|X]]; [left|left|right; exact X].
    - pose proof req_Fi as A. destruct f1 as [M|]; [|congruence]. destruct A as (g & A & _). exists g. left. rewrite group_of_requests, A. reflexivity.
    - pose proof req_Fx as A. destruct f2 as [M|]; [|congruence]. destruct A as (g & A & _). exists g. right. rewrite group_of_requests, A. reflexivity. }
  unfold read_ply. rewrite H. cbn [obind]. rewrite E. cbn [obind fst snd]. apply matrices_ok. exact P.
Qed.
End Read.
