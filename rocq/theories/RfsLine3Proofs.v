(** Lemmas for P_RfsLine: one collapse and the loop *)
From Coq Require Import Reals Lra ZArith List Bool Lia Permutation Sorted.
From Verif Require Import PyExn NumpyModel LoopsModel MatModel MatProofs RelabelModel RelabelSpec P_Relabel RfsLineModel RfsLineProofs RfsLine2Proofs.
Import ListNotations.
Open Scope R_scope.

Lemma mapR_feature IM feature (g : Z -> Z) : (forall f, In f feature -> (0 <= f < Z.of_nat (List.length IM))%Z /\ nth (Z.to_nat f) IM 0%Z = g f) -> mapR (py_get IM) feature = Ok (map g feature).
Proof.
  induction feature as [|f feature IH]; intros H; [reflexivity|]. cbn [mapR map]. destruct (H f (or_introl eq_refl)) as (R & E). unfold py_get at 1.
  replace ((- Z.of_nat (List.length IM) <=? f)%Z && (f <? Z.of_nat (List.length IM))%Z) with true by (symmetry; apply andb_true_intro; split; [apply Z.leb_le|apply Z.ltb_lt]; lia).
  destruct (Z.ltb_spec f 0); [lia|]. rewrite E. cbn [bind]. rewrite IH by (intros; apply H; right; auto). reflexivity.
Qed.

Lemma Forall2_len {A B} (P : A -> B -> Prop) l l' : Forall2 P l l' -> List.length l = List.length l'.
Proof. induction 1; cbn; auto. Qed.
(** the effect of one collapse *)
Definition collapsed (V : list pt2) (F : list edge2) (feature : list Z) (V' : list pt2) (F' : list edge2) (feature' : list Z) : Prop :=
  good V' F' feature' /\ F' <> [] /\ S (List.length F') = List.length F /\ Forall2 (fun f f' => pv V' f' = pv V f) feature feature'
  /\ (forall C, convex C -> (forall v, vrange V v -> C (pv V v)) -> forall v, vrange V' v -> C (pv V' v)).

Lemma collapse_round_ok argsort low V F feature : argsort_ok argsort -> good V F feature ->
  (collapse_round argsort low V F feature = Ok None /\ forall e, In e F -> elen V e < low -> In (fst e) feature /\ In (snd e) feature)
  \/ (collapse_round argsort low V F feature = Err ValueError /\ feature = [] /\ List.length F = 1%nat)
  \/ (exists V' F' feature', collapse_round argsort low V F feature = Ok (Some (V', F', feature')) /\ collapsed V F feature V' F' feature').
Proof.
  intros AS G. destruct (G) as [GR GC GF GI].
  destruct (mark_ok (List.length V) feature) as (isf & EM & ISF); [intros f I; apply (GF f I)|].
  unfold collapse_round. rewrite EM. cbn [bind]. set (lens := map (elen V) F). destruct (AS lens) as (AP & AO).
  assert (LL : List.length lens = List.length F) by (unfold lens; apply map_length).
  destruct (find_short V F isf low (argsort lens)) as [c|] eqn:EF.
  2:{ left. split; [reflexivity|]. intros e I L.
      assert (LN : forall i, (i < List.length F)%nat -> nth i lens 0 = elen V (nth i F (0, 0)%Z)) by (intros i Hi; unfold lens; rewrite (nth_indep _ _ (elen V (0, 0)%Z)) by (rewrite map_length; auto); apply map_nth).
      assert (AO' : StronglySorted (fun i j => elen V (nth i F (0, 0)%Z) <= elen V (nth j F (0, 0)%Z)) (argsort lens)).
      { assert (IN : forall i, In i (argsort lens) -> (i < List.length F)%nat) by (intros i Hi; apply (Permutation_in _ AP) in Hi; apply in_seq in Hi; lia).
        clear -AO LN IN. induction AO as [|i l S IH H]; constructor; [apply IH; intros; apply IN; right; auto|]. apply Forall_forall. intros j J. pose proof (proj1 (Forall_forall _ _) H j J) as Q. cbv beta in Q.
        rewrite !LN in Q by (apply IN; cbn; auto). exact Q. }
      destruct (In_nth _ _ (0, 0)%Z I) as (i & Hi & Ei). 
      destruct (find_none V F isf low _ AO' EF i) as (A & B); [apply (Permutation_in _ (Permutation_sym AP)); apply in_seq; lia|rewrite Ei; auto|]. rewrite Ei in *. split; apply ISF; auto. }
  right. destruct (find_some _ _ _ _ _ _ EF) as (IC & LC & FC). apply (Permutation_in _ AP) in IC. apply in_seq in IC. rewrite LL in IC. assert (HC : (c < List.length F)%nat) by lia. clear IC.
  set (a := fst (nth c F (0, 0)%Z)) in *. set (b := snd (nth c F (0, 0)%Z)) in *. assert (ec : nth c F (0, 0)%Z = (a, b)) by (unfold a, b; destruct (nth c F (0, 0)%Z); reflexivity).
  assert (IE : In (a, b) F) by (rewrite <- ec; apply nth_In; auto). destruct (GR _ IE) as (Ra & Rb). cbn [fst snd] in Ra, Rb.
  cbv zeta.
  (* the three cases of which end is removed *)
  set (sel := if negb (isf a) && negb (isf b) then (b, a, upd V a (mid2 (pv V b) (pv V a))) else if isf a then (b, a, V) else (a, b, V)).
  assert (SEL : exists r k V1, sel = (r, k, V1) /\ (nth c F (0, 0)%Z = (k, r) \/ nth c F (0, 0)%Z = (r, k)) /\ isf r = false /\ List.length V1 = List.length V /\ vrange V r /\ vrange V k
      /\ (forall v, (0 <= v)%Z -> isf v = true -> pv V1 v = pv V v) /\ (forall C, convex C -> (forall v, vrange V v -> C (pv V v)) -> forall v, vrange V v -> C (pv V1 v))).
  { unfold sel. destruct (isf a) eqn:FA; cbn [negb andb].
    - exists b, a, V. split; [reflexivity|]. split; [left; auto|]. split; [destruct FC; congruence|]. auto 10.
    - destruct (isf b) eqn:FB; cbn [negb].
      + exists a, b, V. split; [reflexivity|]. split; [right; auto|]. auto 10.
      + exists b, a, (upd V a (mid2 (pv V b) (pv V a))). split; [reflexivity|]. split; [left; auto|]. split; [auto|]. split; [apply upd_length|]. split; [auto|]. split; [auto|]. split.
        * intros v P Fv. rewrite upd_pv by auto. destruct (Z.eqb_spec v a); [subst; congruence|reflexivity].
        * intros C CC HV v Rv. rewrite upd_pv by (auto; unfold vrange in Rv; lia). destruct (Z.eqb v a); [|auto]. rewrite mid_along. apply CC; auto; lra. }
  destruct SEL as (r & k & V1 & -> & EK & FR & LV1 & Rr & Rk & PF & PC).
  assert (NR : ~ In r feature) by (intros I; apply ISF in I; congruence).
  replace (existsb (Z.eqb r) feature) with false.
  2:{ symmetry. destruct (existsb (Z.eqb r) feature) eqn:E; [|auto]. apply existsb_exists in E. destruct E as (x & I & E). apply Z.eqb_eq in E. subst x. contradiction. }
  rewrite FR. set (F' := delete_nth (map (redirect r k) F) c). change (map (fun e => [fst e; snd e]) F') with (rows2 F').
  assert (LF : S (List.length F') = List.length F) by (unfold F'; rewrite delete_length; rewrite map_length; auto).
  assert (REFc : referenced F a /\ referenced F b) by (split; exists (a, b); auto).
  assert (REFr : referenced F r) by (destruct EK as [E|E]; rewrite ec in E; injection E as E1 E2; subst; tauto).
  destruct (GI r REFr NR) as (Or & Ir).
  assert (DG : forall v, _) by (intros v; exact (collapse_deg F c r k v HC EK)). cbv zeta in DG. fold F' in DG.
  assert (DK : (r <> k -> (1 <= outdeg F k + indeg F k)%nat)). { intros _. apply referenced_deg. destruct EK as [E|E]; rewrite ec in E; injection E as E1 E2; subst; tauto. }
  (* features stay referenced *)
  assert (FREF : forall f, In f feature -> referenced F' f).
  { intros f I. apply referenced_deg. destruct (GF f I) as (Rf & REF). apply referenced_deg in REF. destruct (Z.eq_dec r k) as [E|N].
    - destruct (DG f) as (_ & D). destruct (D E) as (D1 & D2). rewrite D1, D2. destruct (Z.eqb_spec f k); [subst; contradiction|auto].
    - destruct (DG f) as (D & _). destruct (D N) as (D1 & D2). rewrite D1, D2. destruct (Z.eqb_spec f r); [subst; contradiction|]. destruct (Z.eqb_spec f k) as [->|]; [|auto].
      assert (X : (1 <= outdeg F k \/ 1 <= indeg F k)%nat) by lia.
      assert (Y : (nth c F (0, 0)%Z = (k, r) -> 1 <= outdeg F k)%nat) by (intros E; apply count_pos; apply in_map_iff; exists (k, r); split; [auto|rewrite <- E; apply nth_In; auto]).
      assert (W : (nth c F (0, 0)%Z = (r, k) -> 1 <= indeg F k)%nat) by (intros E; apply count_pos; apply in_map_iff; exists (r, k); split; [auto|rewrite <- E; apply nth_In; auto]).
      destruct EK as [E|E]; [specialize (Y E)|specialize (W E)]; lia. }
  assert (ER : erange V1 F').
  { intros e I. apply delete_in in I. apply in_map_iff in I. destruct I as (e0 & <- & I). destruct (GR e0 I) as (A & B). unfold vrange in *. rewrite LV1. unfold redirect. cbn [fst snd].
    destruct (Z.eqb (fst e0) r), (Z.eqb (snd e0) r); auto. }
  assert (DEC : F' = [] \/ F' <> []) by (generalize F'; intros [|? ?]; [left|right]; congruence).
  destruct DEC as [EN|NE].
  { left. rewrite EN in *. split; [|split].
    - rewrite (C13_empty_refuted pt2 (Some V1) (rows2 []) eq_refl). reflexivity.
    - destruct feature as [|f feature]; [auto|]. destruct (FREF f (or_introl eq_refl)) as (x & [] & _).
    - cbn in LF. lia. }
  right. destruct (relabel_edges V1 F' NE ER) as (V2 & newF & IM & J & -> & NJ & JR & LJ & LI & PV & IJ & FE). cbn [bind].
  set (F2 := map as_edge newF) in *. destruct (relabel_deg V2 J F' F2 NJ LJ FE) as (RD & RD0).
  set (g := fun f => nth (Z.to_nat f) IM 0%Z).
  assert (GP : forall f, In f feature -> exists m, (m < List.length J)%nat /\ nth m J 0%Z = f /\ g f = Z.of_nat m).
  { intros f I. apply FREF, JR in I. destruct (In_nth _ _ 0%Z I) as (m & Hm & Em). exists m. split; [auto|]. split; [auto|]. unfold g. apply nth_error_nth. apply IJ. rewrite <- Em. apply nth_error_nth'. auto. }
  rewrite (mapR_feature IM feature g).
  2:{ intros f I. split; [|reflexivity]. rewrite LI, LV1. destruct (GF f I) as (R & _). exact R. }
  cbn [bind]. exists V2, F2, (map g feature). split; [reflexivity|].
  assert (JV : forall m, (m < List.length J)%nat -> vrange V (nth m J 0%Z)).
  { intros m Hm. assert (I : In (nth m J 0%Z) J) by (apply nth_In; auto). apply JR in I. destruct I as (x & I & H). destruct (ER x I) as (A & B). unfold vrange in *. rewrite LV1 in *. destruct H as [<-|<-]; auto. }
  assert (RF2 : forall m, vrange V2 m <-> (0 <= m < Z.of_nat (List.length J))%Z) by (intros m; unfold vrange; rewrite LJ; tauto).
  split; [|split; [|split; [|split]]].
  - split.
    + intros e2 I. clear -FE I. induction FE as [|x y l l' (A & B & _) FE IH]; [destruct I|]. destruct I as [<-|I]; auto.
    + intros v. destruct (Z_lt_le_dec v 0) as [|P]; [destruct (RD0 v) as (-> & ->); [unfold vrange; lia|lia]|]. destruct (Z_lt_le_dec v (Z.of_nat (List.length V2))) as [Q|]; [|destruct (RD0 v) as (-> & ->); [unfold vrange; lia|lia]].
      destruct (RD v) as (-> & ->); [unfold vrange; lia|]. set (w := nth (Z.to_nat v) J 0%Z). destruct (GC w) as (W1 & W2). destruct (GC k) as (K1 & K2). destruct (GC r) as (R1 & R2).
      destruct (Z.eq_dec r k) as [E|N]; [destruct (DG w) as (_ & D); destruct (D E) as (-> & ->); destruct (Z.eqb w k); lia|].
      destruct (DG w) as (D & _); destruct (D N) as (-> & ->). destruct (Z.eqb w r); [lia|]. destruct (Z.eqb w k); lia.
    + intros f' I. apply in_map_iff in I. destruct I as (f & <- & I). destruct (GP f I) as (m & Hm & Em & Eg). rewrite Eg. split; [apply RF2; lia|]. apply referenced_deg. destruct (RD (Z.of_nat m)) as (-> & ->); [apply RF2; lia|].
      rewrite Nat2Z.id, Em. apply referenced_deg. auto.
    + intros v REF NF. assert (Rv : vrange V2 v). { apply referenced_deg in REF. destruct (Z_lt_le_dec v 0); [destruct (RD0 v) as (A & B); [unfold vrange; lia|lia]|]. destruct (Z_lt_le_dec v (Z.of_nat (List.length V2))); [unfold vrange; lia|]. destruct (RD0 v) as (A & B); [unfold vrange; lia|lia]. }
      destruct (RD v Rv) as (D1 & D2). rewrite D1, D2. set (w := nth (Z.to_nat v) J 0%Z) in *. apply RF2 in Rv.
      assert (NW : ~ In w feature). { intros I. apply NF. destruct (GP w I) as (m & Hm & Em & Eg). apply in_map_iff. exists w. split; [|auto]. rewrite Eg. unfold w in Em. apply (proj1 (NoDup_nth J 0%Z) NJ) in Em; [lia|auto|lia]. }
      apply referenced_deg in REF. rewrite D1, D2 in REF. destruct (GC w) as (W1 & W2). destruct (GC k) as (K1 & K2). destruct (GC r) as (R1 & R2).
      destruct (Z.eq_dec r k) as [E|N].
      * destruct (DG w) as (_ & D). destruct (D E) as (E1 & E2). rewrite E1, E2 in *. destruct (Z.eqb_spec w k) as [E0|]; [rewrite E0 in *; lia|apply GI; auto; apply referenced_deg; auto].
      * destruct (DG w) as (D & _). destruct (D N) as (E1 & E2). rewrite E1, E2 in *. destruct (Z.eqb_spec w r); [lia|]. destruct (Z.eqb_spec w k) as [E|]; [|apply GI; auto; apply referenced_deg; auto].
        rewrite E in NW. destruct (GI k) as (A & B); [apply referenced_deg; auto|auto|]. lia.
  - intros E. apply Forall2_len in FE. rewrite E in FE. cbn in FE. destruct F'; [congruence|discriminate].
  - rewrite <- LF. f_equal. unfold F2. clear -FE. fold F2. symmetry. apply (Forall2_len _ _ _ FE).
  - clear EF. assert (K : forall l, (forall f, In f l -> In f feature) -> Forall2 (fun f f' => pv V2 f' = pv V f) l (map g l)).
    { induction l as [|f l IH]; intros H; [constructor|]. cbn [map]. constructor; [|apply IH; intros; apply H; right; auto]. destruct (GP f (H f (or_introl eq_refl))) as (m & Hm & Em & Eg). rewrite Eg. unfold pv at 1. rewrite Nat2Z.id, PV by auto. rewrite Em.
      apply PF; [destruct (GF f (H f (or_introl eq_refl))) as (R & _); unfold vrange in R; lia|]. apply ISF. apply H. left; auto. }
    apply K. auto.
  - intros C CC HV v Rv. apply RF2 in Rv. unfold pv at 1. rewrite PV by lia. apply PC; auto. apply JV. lia.
Qed.

Lemma collapse_line_ok argsort low : argsort_ok argsort -> forall fuel V F feature, good V F feature -> (List.length F < fuel)%nat ->
  (exists V' F' feature', collapse_line fuel argsort low V F feature = Ok (V', F', feature') /\ good V' F' feature' /\ (List.length F' <= List.length F)%nat
     /\ Forall2 (fun f f' => pv V' f' = pv V f) feature feature'
     /\ (forall C, convex C -> (forall v, vrange V v -> C (pv V v)) -> forall v, vrange V' v -> C (pv V' v))
     /\ (forall e, In e F' -> elen V' e < low -> In (fst e) feature' /\ In (snd e) feature'))
  \/ (collapse_line fuel argsort low V F feature = Err ValueError /\ feature = []).
Proof.
  intros AS. induction fuel as [|fuel IH]; intros V F feature G L; [lia|]. cbn [collapse_line].
  destruct (collapse_round_ok argsort low V F feature AS G) as [(-> & EX)|[(-> & EF & _)|(V1 & F1 & f1 & -> & (G1 & N1 & L1 & P1 & C1))]]; cbn [bind].
  - left. exists V, F, feature. split; [reflexivity|]. split; [auto|]. split; [lia|]. split; [|split; [auto|auto]]. clear. induction feature; constructor; auto.
  - right. auto.
  - destruct (IH V1 F1 f1 G1 ltac:(lia)) as [(V2 & F2 & f2 & E2 & G2 & L2 & P2 & C2 & X2)|(E2 & Z2)].
    + left. exists V2, F2, f2. split; [auto|]. split; [auto|]. split; [lia|]. split; [|split; [|auto]].
      * clear -P1 P2. revert f2 P2. induction P1 as [|f f' l l' H P1 IH]; intros f2 P2; inversion P2; subst; constructor; [congruence|auto].
      * intros C CC HV. apply (C2 C CC). apply (C1 C CC HV).
    + right. split; [auto|]. subst f1. inversion P1. auto.
Qed.
