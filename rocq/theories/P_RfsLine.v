(** C82: the planar remesher of reach_for_the_spheres *)
From Coq Require Import Reals Lra ZArith List Bool Lia Permutation Sorted.
From Verif Require Import PyExn NumpyModel NumpyProofs LoopsModel MatModel MatProofs RelabelModel RelabelSpec P_Relabel RfsLineModel RfsLineProofs RfsLine2Proofs RfsLine3Proofs.
Import ListNotations.
Open Scope R_scope.

(** -- specification (together with the ones in RfsLineProofs and RfsLine2Proofs: vrange, erange, on_line, outdeg, indeg, referenced, good, convex, argsort_ok) -- *)
Definition dist (p q : pt2) : R := norm2 (sub2 p q).
(** squared_distance: names an edge and barycentric coordinates of a point that is no farther than any point of the polyline *)
Definition closest_ok (closest2 : list pt2 -> list edge2 -> pt2 -> nat * (R * R)) : Prop := forall V F p, F <> [] ->
  let '(i, (b0, b1)) := closest2 V F p in (i < List.length F)%nat /\ 0 <= b0 /\ 0 <= b1 /\ b0 + b1 = 1 /\
    let e := nth i F (0, 0)%Z in forall x, on_line V F x -> dist (along2 (pv V (fst e)) (pv V (snd e)) b1) p <= dist x p.
Definition curves (F : list edge2) : Prop := forall v, (outdeg F v <= 1)%nat /\ (indeg F v <= 1)%nat.
Definition closed_curves (F : list edge2) : Prop := forall v, referenced F v -> outdeg F v = 1%nat /\ indeg F v = 1%nat.

(** ** splitting: the old vertices keep their numbers and places, the polyline is the same set of points with the same length, every edge longer than high is halved, and the new vertices are passed through *)
Theorem C82_split : forall V F high, erange V F -> let '(V', F') := split_line V F high in
  (exists W, V' = V ++ W) /\ erange V' F'
  /\ (forall p, on_line V' F' p <-> on_line V F p)
  /\ (forall e', In e' F' -> elen V' e' <= high \/ exists e, In e F /\ high < elen V e /\ elen V' e' = elen V e / 2)
  /\ sumf (elen V') F' = sumf (elen V) F
  /\ (forall v, vrange V v -> outdeg F' v = outdeg F v /\ indeg F' v = indeg F v)
  /\ (forall v, (Z.of_nat (List.length V) <= v < Z.of_nat (List.length V'))%Z -> outdeg F' v = 1%nat /\ indeg F' v = 1%nat).
Proof. intros V F high R. pose proof (split_ok V F high R) as H. cbv zeta in H. destruct (split_line V F high) as [V' F']. exact H. Qed.

(** ** collapsing: always stops; no short edge is left except between two features; features keep their places; the result is again a union of curves with the same features as ends;
    no vertex leaves a convex region.  The only exception possible is ValueError, and only if there is no feature *)
Theorem C82_collapse : forall argsort low V F feature, argsort_ok argsort -> good V F feature ->
  (exists V' F' feature', collapse_line (S (List.length F)) argsort low V F feature = Ok (V', F', feature') /\ good V' F' feature' /\ (List.length F' <= List.length F)%nat
     /\ Forall2 (fun f f' => pv V' f' = pv V f) feature feature'
     /\ (forall C, convex C -> (forall v, vrange V v -> C (pv V v)) -> forall v, vrange V' v -> C (pv V' v))
     /\ (forall e, In e F' -> elen V' e < low -> In (fst e) feature' /\ In (snd e) feature'))
  \/ (collapse_line (S (List.length F)) argsort low V F feature = Err ValueError /\ feature = []).
Proof. intros argsort low V F feature AS G. apply collapse_line_ok; auto. Qed.
(** the loop is not cut short by the fuel *)
Theorem C82_collapse_terminates : forall argsort low V F feature fuel fuel', argsort_ok argsort -> good V F feature -> (List.length F < fuel)%nat -> (List.length F < fuel')%nat ->
  collapse_line fuel argsort low V F feature = collapse_line fuel' argsort low V F feature.
Proof.
  intros argsort low V F feature fuel fuel' AS. revert V F feature fuel'. induction fuel as [|fuel IH]; intros V F feature fuel' G L L'; [lia|]. destruct fuel' as [|fuel']; [lia|]. cbn [collapse_line].
  destruct (collapse_round_ok argsort low V F feature AS G) as [(-> & _)|[(-> & _)|(V1 & F1 & f1 & -> & (G1 & N1 & L1 & _))]]; cbn [bind]; auto. apply IH; auto; lia.
Qed.
(** a mesh of closed curves without features that fits into a convex region of diameter below low makes the remesher raise *)
Theorem C82_small_curves_refuted : forall argsort low V F C, argsort_ok argsort -> good V F [] -> F <> [] -> convex C -> (forall v, vrange V v -> C (pv V v)) ->
  (forall p q, C p -> C q -> dist p q < low) -> collapse_line (S (List.length F)) argsort low V F [] = Err ValueError.
Proof.
  intros argsort low V F C AS G NE CC HV DM. assert (K : forall fuel V F, good V F [] -> F <> [] -> (forall v, vrange V v -> C (pv V v)) -> (List.length F < fuel)%nat -> collapse_line fuel argsort low V F [] = Err ValueError).
  { clear V F G NE HV. induction fuel as [|fuel IH]; intros V F G NE HV L; [lia|]. cbn [collapse_line].
    destruct (collapse_round_ok argsort low V F [] AS G) as [(_ & EX)|[(-> & _)|(V1 & F1 & f1 & -> & (G1 & N1 & L1 & P1 & C1))]]; cbn [bind]; auto.
    - exfalso. destruct F as [|e F]; [congruence|]. destruct (EX e (or_introl eq_refl)) as ([] & _). destruct (g_range _ _ _ G e (or_introl eq_refl)) as (A & B). apply DM; auto.
    - inversion P1; subst. apply IH; auto; [|lia]. apply (C1 C CC HV). }
  apply K; auto.
Qed.

(** ** relaxation *)
Lemma fold_relax isf Vi F l : forall V, (forall i, In i l -> (0 <= i < Z.of_nat (List.length V))%Z) -> List.length (fold_left (relax_at isf Vi F) l V) = List.length V /\ forall f, (0 <= f)%Z -> isf f = true -> pv (fold_left (relax_at isf Vi F) l V) f = pv V f.
Proof.
  induction l as [|i l IH]; intros V H; [auto|]. cbn [fold_left].
  assert (K : List.length (relax_at isf Vi F V i) = List.length V /\ forall f, (0 <= f)%Z -> isf f = true -> pv (relax_at isf Vi F V i) f = pv V f).
  { unfold relax_at. destruct (isf i) eqn:EI; [auto|]. destruct (vertex_normal Vi F i); [|auto]. destruct (last_with fst i F); [|auto]. destruct (last_with snd i F); [|auto]. split; [apply upd_length|].
    intros f P E. rewrite upd_pv by (auto; apply H; left; auto). destruct (Z.eqb_spec f i); [subst; congruence|auto]. }
  destruct K as (K1 & K2). destruct (IH (relax_at isf Vi F V i)) as (A & B); [rewrite K1; intros; apply H; right; auto|]. split; [congruence|]. intros f P E. rewrite B, K2; auto.
Qed.
Lemma dist_zero p q : dist p q <= 0 -> p = q.
Proof.
  intros H. unfold dist, norm2, sub2 in H. cbn [fst snd] in H. set (x := fst p - fst q) in *. set (y := snd p - snd q) in *. pose proof (Rle_0_sqr x). pose proof (Rle_0_sqr y). unfold Rsqr in *.
  assert (Z : sqrt (x * x + y * y) = 0) by (pose proof (sqrt_pos (x * x + y * y)); lra). apply sqrt_eq_0 in Z; [|lra].
  assert (x = 0) by (apply Rsqr_0_uniq; unfold Rsqr; lra). assert (y = 0) by (apply Rsqr_0_uniq; unfold Rsqr; lra). apply pt_eq; unfold x, y in *; lra.
Qed.
Lemma dist_self p : dist p p = 0.
Proof. unfold dist, norm2, sub2. cbn [fst snd]. replace (fst p - fst p) with 0 by ring. replace (snd p - snd p) with 0 by ring. rewrite Rmult_0_l, Rplus_0_l. apply sqrt_0. Qed.
Lemma project_ok closest2 V0 F0 p : closest_ok closest2 -> F0 <> [] -> on_line V0 F0 (project_line closest2 V0 F0 p) /\ (on_line V0 F0 p -> project_line closest2 V0 F0 p = p)
  /\ forall x, on_line V0 F0 x -> dist (project_line closest2 V0 F0 p) p <= dist x p.
Proof.
  intros CO NE. specialize (CO V0 F0 p NE). unfold project_line. destruct (closest2 V0 F0 p) as [i [b0 b1]]. destruct CO as (Hi & B0 & B1 & BS & MIN). cbv zeta in *. set (e := nth i F0 (0, 0)%Z) in *.
  assert (E : (fst (pv V0 (fst e)) * b0 + fst (pv V0 (snd e)) * b1, snd (pv V0 (fst e)) * b0 + snd (pv V0 (snd e)) * b1) = along2 (pv V0 (fst e)) (pv V0 (snd e)) b1) by (replace b0 with (1 - b1) by lra; apply pt_eq; cbn; ring).
  rewrite E. split; [|split; [|exact MIN]].
  - exists e, b1. split; [apply nth_In; auto|]. split; [lra|reflexivity].
  - intros ON. apply dist_zero. specialize (MIN p ON). rewrite dist_self in MIN. exact MIN.
Qed.
(** every vertex ends up on the reference polyline, at the point nearest to its relaxed position; features that lie on the reference polyline do not move; edges and numbering are unchanged *)
Theorem C82_relaxation : forall closest2 V F feature V0 F0, closest_ok closest2 -> F0 <> [] -> (forall f, In f feature -> vrange V f) ->
  exists V', relaxation_line closest2 V F feature V0 F0 = Ok V' /\ List.length V' = List.length V
   /\ (forall v, vrange V v -> on_line V0 F0 (pv V' v))
   /\ (forall f, In f feature -> on_line V0 F0 (pv V f) -> pv V' f = pv V f).
Proof.
  intros closest2 V F feature V0 F0 CO NE HF. unfold relaxation_line. destruct (mark_ok (List.length V) feature HF) as (isf & -> & ISF). cbn [bind]. eexists. split; [reflexivity|].
  destruct (fold_relax isf V F (map Z.of_nat (seq 0 (List.length V))) V) as (L & K). { intros i I. apply in_map_iff in I. destruct I as (j & <- & I). apply in_seq in I. lia. }
  set (W := fold_left _ _ V) in *. split; [rewrite map_length; auto|].
  assert (PM : forall v, vrange V v -> pv (map (project_line closest2 V0 F0) W) v = project_line closest2 V0 F0 (pv W v)).
  { intros v Hv. unfold pv at 1. unfold vrange in Hv. rewrite (nth_indep _ _ (project_line closest2 V0 F0 (0, 0))) by (rewrite map_length; lia). rewrite map_nth. reflexivity. }
  split.
  - intros v Hv. rewrite PM by auto. apply project_ok; auto.
  - intros f I ON. rewrite PM by (apply HF; auto). rewrite K by (try (apply ISF; auto); apply HF in I; unfold vrange in I; lia). apply project_ok; auto.
Qed.
(** the move of one vertex i with predecessor a and successor b: along the chord a-b only, to a point equidistant from a and b *)
Definition dot2 (p q : pt2) : R := fst p * fst q + snd p * snd q.
Lemma norm2_sq p : norm2 p * norm2 p = dot2 p p.
Proof. unfold norm2, dot2. apply sqrt_sqrt. pose proof (Rle_0_sqr (fst p)). pose proof (Rle_0_sqr (snd p)). unfold Rsqr in *. lra. Qed.
Theorem C82_relax_step : forall V F i a b N, vrange V i -> last_with fst i F = Some (i, b) -> last_with snd i F = Some (a, i) -> vertex_normal V F i = Some N -> 
  dot2 N N = 1 /\ dot2 N (sub2 (pv V b) (pv V a)) = 0 /\
  forall isf, isf i = false -> a <> i -> b <> i -> (0 <= a)%Z -> (0 <= b)%Z -> let p := pv (relax_at isf V F V i) i in
    dot2 N (sub2 p (pv V i)) = 0 /\ dist p (pv V a) = dist p (pv V b) /\ (forall j, (0 <= j)%Z -> j <> i -> pv (relax_at isf V F V i) j = pv V j).
Proof.
  intros V F i a b N Ri LO LI VN. pose proof VN as VN0. unfold vertex_normal, contribution in VN. rewrite LO, LI in VN. unfold edge_normal in VN. cbn [fst snd] in VN.
  destruct (Req_EM_T (elen V (i, b)) 0) as [|N1]; [discriminate|]. destruct (Req_EM_T (elen V (a, i)) 0) as [|N2]; cbn [opt_add] in VN; [discriminate|]. cbn [fst snd] in VN.
  set (A := pv V a) in *. set (B := pv V b) in *. set (P := pv V i) in *.
  match type of VN with (if Req_EM_T (norm2 ?n) 0 then _ else _) = _ => assert (EN : n = (snd B - snd A, - (fst B - fst A))) end.
  { apply pt_eq; cbn [fst snd sub2]; field; auto. }
  rewrite EN in VN. set (n := (snd B - snd A, - (fst B - fst A))) in *. destruct (Req_EM_T (norm2 n) 0) as [|N3]; [discriminate|].
  assert (EM : N = (fst n / norm2 n, snd n / norm2 n)).
  { injection VN as VN. rewrite <- VN. pose proof (f_equal fst EN) as E1. pose proof (f_equal snd EN) as E2. cbn [fst snd sub2] in E1, E2. rewrite E1, E2. reflexivity. }
  clear VN. subst N.
  pose proof (norm2_sq n) as NS. assert (U : dot2 (fst n / norm2 n, snd n / norm2 n) (fst n / norm2 n, snd n / norm2 n) = 1).
  { unfold dot2. cbn [fst snd]. transitivity ((fst n * fst n + snd n * snd n) / (norm2 n * norm2 n)); [field; auto|]. rewrite NS. unfold dot2. field. change (dot2 n n <> 0). rewrite <- NS. intros Z. apply Rmult_integral in Z. tauto. }
  assert (O : dot2 (fst n / norm2 n, snd n / norm2 n) (sub2 B A) = 0) by (unfold dot2, sub2; cbn [fst snd]; unfold n; cbn [fst snd]; field; fold n; auto).
  split; [exact U|]. split; [exact O|]. intros isf FI NA NB PA PB p.
  assert (EP : p = relaxed (fst n / norm2 n, snd n / norm2 n) (mid2 B A) P).
  { unfold p, relax_at. rewrite FI, VN0, LO, LI. cbn [fst snd]. rewrite upd_pv by (auto; unfold vrange in Ri; lia). rewrite Z.eqb_refl. reflexivity. }
  set (M := (fst n / norm2 n, snd n / norm2 n)) in *. clearbody M. unfold dot2, sub2 in U, O. cbn [fst snd] in O.
  assert (RX : relaxed M (mid2 B A) P = (fst (mid2 B A) + fst M * dot2 M (sub2 P (mid2 B A)), snd (mid2 B A) + snd M * dot2 M (sub2 P (mid2 B A)))) by (unfold relaxed, dot2, sub2; apply pt_eq; cbn [fst snd]; ring).
  split; [|split].
  - rewrite EP, RX. set (D := dot2 M (sub2 P (mid2 B A))) in *. unfold dot2, sub2 in *. cbn [fst snd] in *. unfold D. 
    set (m1 := fst M) in *. set (m2 := snd M) in *. set (q := mid2 B A) in *. clearbody q.
    replace (m1 * (fst q + m1 * (m1 * (fst P - fst q) + m2 * (snd P - snd q)) - fst P) + m2 * (snd q + m2 * (m1 * (fst P - fst q) + m2 * (snd P - snd q)) - snd P))
      with ((m1 * m1 + m2 * m2 - 1) * (m1 * (fst P - fst q) + m2 * (snd P - snd q))) by ring. rewrite U. ring.
  - rewrite EP, RX. set (D := dot2 M (sub2 P (mid2 B A))) in *. unfold dist, norm2, sub2. f_equal. cbn [fst snd mid2].
    set (m1 := fst M) in *. set (m2 := snd M) in *. 
    match goal with |- ?l = ?r => replace l with (r + 2 * D * (m1 * (fst B - fst A) + m2 * (snd B - snd A))) by field end. rewrite O. ring.
  - intros j Pj Nj. unfold relax_at. rewrite FI, VN0, LO, LI. rewrite upd_pv by auto. destruct (Z.eqb_spec j i); [congruence|reflexivity].
Qed.

(** ** the whole remesher *)
Lemma split_good V F feature high : good V F feature -> let '(V', F') := split_line V F high in good V' F' feature /\ (F <> [] -> F' <> []) /\ (forall v, vrange V v -> vrange V' v /\ pv V' v = pv V v).
Proof.
  intros G. destruct (G) as [GR GC GF GI]. pose proof (split_ok V F high GR) as H. cbv zeta in H. destruct (split_line V F high) as [V' F'] eqn:ES. cbn [fst snd] in H.
  destruct H as ((W & EW) & R' & _ & _ & _ & D1 & D2).
  assert (LV : (List.length V <= List.length V')%nat) by (rewrite EW, app_length; lia).
  assert (OUT : forall v, ~ vrange V' v -> outdeg F' v = 0%nat /\ indeg F' v = 0%nat).
  { intros v N. split; apply count_occ_not_In; intros I; apply in_map_iff in I; destruct I as (e & <- & I); apply R' in I; tauto. }
  assert (CS : forall v, vrange V v \/ (Z.of_nat (List.length V) <= v < Z.of_nat (List.length V'))%Z \/ ~ vrange V' v) by (intros v; unfold vrange; lia).
  split; [split|split].
  - exact R'.
  - intros v. destruct (CS v) as [H|[H|H]]; [destruct (D1 v H) as (-> & ->); apply GC|destruct (D2 v H) as (-> & ->); lia|destruct (OUT v H) as (-> & ->); lia].
  - intros f I. destruct (GF f I) as (A & B). split; [unfold vrange in *; lia|]. apply referenced_deg. destruct (D1 f A) as (-> & ->). apply referenced_deg. auto.
  - intros v REF NF. apply referenced_deg in REF. destruct (CS v) as [H|[H|H]]; [destruct (D1 v H) as (E1 & E2); rewrite E1, E2 in *; apply GI; auto; apply referenced_deg; auto|destruct (D2 v H) as (-> & ->); lia|destruct (OUT v H) as (E1 & E2); lia].
  - intros NE E. destruct F as [|e F]; [congruence|]. destruct (GR e (or_introl eq_refl)) as (A & _). destruct (D1 (fst e) A) as (Q & _). rewrite E in Q. unfold outdeg in Q. cbn [map count_occ] in Q. destruct (Z.eq_dec (fst e) (fst e)); [discriminate|congruence].
  - intros v Hv. split; [unfold vrange in *; lia|]. rewrite EW. apply pv_app. auto.
Qed.
Lemma good_length V V' F f : List.length V' = List.length V -> good V F f -> good V' F f.
Proof. intros L [A B C D]. assert (VR : forall v, vrange V' v <-> vrange V v) by (intros; unfold vrange; rewrite L; tauto). split; auto; [intros e I; rewrite !VR; auto|]. intros x I. rewrite VR. auto. Qed.
Lemma referenced_on_line V F v : referenced F v -> on_line V F (pv V v).
Proof. intros (e & I & [<-|<-]); [exists e, 0|exists e, 1]; (split; [auto|]); (split; [lra|]); apply pt_eq; cbn; ring. Qed.
Lemma F2_compose V1 V2 V3 a b c : Forall2 (fun f f' => pv V2 f' = pv V1 f) a b -> Forall2 (fun f f' => pv V3 f' = pv V2 f) b c -> Forall2 (fun f f' => pv V3 f' = pv V1 f) a c.
Proof. intros H. revert c. induction H; intros c H2; inversion H2; subst; constructor; [congruence|auto]. Qed.

Lemma rounds_ok argsort closest2 project high low : argsort_ok argsort -> closest_ok closest2 -> forall i V0 F0 V F feature, good V F feature -> F <> [] -> F0 <> [] -> (forall f, In f feature -> on_line V0 F0 (pv V f)) ->
  (exists V' F' feature', remesh_rounds i argsort closest2 project high low V0 F0 V F feature = Ok (V', F', feature') /\ good V' F' feature' /\ F' <> []
     /\ Forall2 (fun f f' => pv V' f' = pv V f) feature feature'
     /\ (i = 0%nat -> V' = V /\ F' = F) /\ (project = true -> (0 < i)%nat -> forall v, vrange V' v -> on_line V0 F0 (pv V' v)))
  \/ (remesh_rounds i argsort closest2 project high low V0 F0 V F feature = Err ValueError /\ feature = []).
Proof.
  intros AS CO. induction i as [|i IH]; intros V0 F0 V F feature G NE NE0 ON.
  { left. exists V, F, feature. split; [reflexivity|]. split; [auto|]. split; [auto|]. split; [clear; induction feature; constructor; auto|]. split; [auto|]. lia. }
  cbn [remesh_rounds]. pose proof (split_good V F feature high G) as SG. destruct (split_line V F high) as [V1 F1] eqn:ES. destruct SG as (G1 & N1 & P1).
  assert (SP : S (List.length F1) = S (List.length F1)) by reflexivity.
  destruct (C82_collapse argsort low V1 F1 feature AS G1) as [(V2 & F2 & f2 & E2 & G2 & L2 & P2 & _ & _)|(E2 & Z2)]; rewrite E2; cbn [bind]; [|right; auto].
  assert (N2 : F2 <> []).
  { clear -E2 N1 NE AS G1. specialize (N1 NE). revert E2. generalize (S (List.length F1)). intros fuel. revert V1 F1 feature G1 N1. induction fuel; intros V1 F1 feature G1 N1 E; [discriminate|]. cbn [collapse_line] in E.
    destruct (collapse_round_ok argsort low V1 F1 feature AS G1) as [(R & _)|[(R & _)|(V' & F' & f' & R & (G' & N' & _))]]; rewrite R in E; cbn [bind] in E; [injection E as <- <- <-; auto|discriminate|]. eapply IHfuel; eauto. }
  assert (Q1 : Forall2 (fun f f' => pv V1 f' = pv V f) feature feature).
  { assert (K : forall l, (forall f, In f l -> In f feature) -> Forall2 (fun f f' => pv V1 f' = pv V f) l l) by (induction l as [|f l IHl]; intros H; constructor; [apply P1; apply (g_feat _ _ _ G); apply H; left; auto|apply IHl; intros; apply H; right; auto]). apply K. auto. }
  pose proof (F2_compose _ _ _ _ _ _ Q1 P2) as Q2.
  set (ref := if project then (V0, F0) else (V2, F2)). assert (RF : ref = (fst ref, snd ref)) by (destruct ref; reflexivity). rewrite RF. cbv iota beta. 
  assert (NR : snd ref <> []) by (unfold ref; destruct project; auto).
  assert (ON2 : forall f, In f f2 -> on_line (fst ref) (snd ref) (pv V2 f)).
  { unfold ref. destruct project; cbn [fst snd].
    - clear -Q2 ON. induction Q2 as [|x y l l' H Q IH]; [intros f []|]. intros f [<-|J]; [rewrite H; apply ON; left; auto|apply IH; auto; intros; apply ON; right; auto].
    - intros f I. apply referenced_on_line. apply (g_feat _ _ _ G2). auto. }
  destruct (C82_relaxation closest2 V2 F2 f2 (fst ref) (snd ref) CO NR) as (V3 & E3 & L3 & O3 & K3); [intros f I; apply (g_feat _ _ _ G2); auto|]. rewrite E3. cbn [bind].
  assert (Q3 : Forall2 (fun f f' => pv V3 f' = pv V f) feature f2).
  { clear -Q2 K3 ON2. induction Q2 as [|x y l l' H Q IH]; constructor; [rewrite K3; auto; [left; auto|apply ON2; left; auto]|apply IH; intros; [apply ON2; right; auto|apply K3; [right; auto|auto]]]. }
  assert (G3 : good V3 F2 f2) by (eapply good_length; eauto).
  destruct (IH (fst ref) (snd ref) V3 F2 f2 G3 N2 NR) as [(V4 & F4 & f4 & E4 & G4 & N4 & P4 & Z4 & O4)|(E4 & Z4)].
  { intros f I. rewrite K3 by auto. apply ON2. auto. }
  - left. exists V4, F4, f4. split; [auto|]. split; [auto|]. split; [auto|]. split; [eapply F2_compose; eauto|]. split; [lia|]. intros EP _ v Hv.
    unfold ref in *. rewrite EP in *. cbn [fst snd] in *. destruct i as [|i]; [|apply O4; auto; lia]. destruct (Z4 eq_refl) as (-> & ->). apply O3. unfold vrange in *. lia.
  - right. split; [auto|]. subst f2. inversion Q2. auto.
Qed.

(** with features given as used vertices of a union of curves, remeshing (i) never raises unless there is neither a feature nor an end, (ii) gives a union of curves, closed if the input is,
    (iii) keeps every feature and every end where it is, and (iv) puts every vertex on the original polyline *)
Theorem C82_remesh : forall i argsort closest2 project h V F feature, argsort_ok argsort -> closest_ok closest2 -> erange V F -> F <> [] -> curves F ->
  (forall f, In f feature -> referenced F f) ->
  (exists V' F', remesh_line i argsort closest2 project h V F feature = Ok (V', F') /\ erange V' F' /\ F' <> [] /\ curves F'
     /\ (closed_curves F -> feature = [] -> closed_curves F')
     /\ (forall f, In f feature \/ (referenced F f /\ (outdeg F f = 0 \/ indeg F f = 0)%nat) -> exists v, referenced F' v /\ pv V' v = pv V f)
     /\ (i = 0%nat -> V' = V /\ F' = F)
     /\ (project = true -> (0 < i)%nat -> forall v, vrange V' v -> on_line V F (pv V' v)))
  \/ (remesh_line i argsort closest2 project h V F feature = Err ValueError /\ feature = [] /\ closed_curves F).
Proof.
  intros i argsort closest2 project h V F feature AS CO R NE CV HF. unfold remesh_line. set (ft := np_unique (feature ++ line_bdry F)).
  assert (BD : forall v, In v (line_bdry F) <-> referenced F v /\ (outdeg F v = 0 \/ indeg F v = 0)%nat).
  { intros v. unfold line_bdry. rewrite In_np_unique, in_app_iff, !filter_In, !negb_true_iff.
    assert (EX : forall l, existsb (Z.eqb v) l = false <-> count_occ Z.eq_dec l v = 0%nat).
    { intros l. rewrite <- count_occ_not_In. split.
      - intros H I. assert (existsb (Z.eqb v) l = true) by (apply existsb_exists; exists v; split; [auto|apply Z.eqb_refl]). congruence.
      - intros H. destruct (existsb (Z.eqb v) l) eqn:E; [|auto]. apply existsb_exists in E. destruct E as (x & I & E). apply Z.eqb_eq in E. subst x. contradiction. }
    rewrite !EX, !count_pos, referenced_deg. unfold outdeg, indeg. lia. }
  assert (IN : forall f, In f ft <-> In f feature \/ (referenced F f /\ (outdeg F f = 0 \/ indeg F f = 0)%nat)) by (intros f; unfold ft; rewrite In_np_unique, in_app_iff, BD; tauto).
  assert (RV : forall v, referenced F v -> vrange V v) by (intros v (e & I & H); destruct (R e I); destruct H as [<-|<-]; auto).
  assert (RFT : forall f, In f ft -> referenced F f) by (intros f I; apply IN in I; destruct I as [I|(I & _)]; auto).
  assert (G : good V F ft).
  { split; auto. intros v REF NF. assert (~ (outdeg F v = 0 \/ indeg F v = 0)%nat) by (intros H; apply NF, IN; auto). lia. }
  assert (CL : ft = [] -> feature = [] /\ closed_curves F).
  { intros E. split.
    - destruct feature as [|f feature]; [auto|]. assert (I : In f ft) by (apply IN; left; left; auto). rewrite E in I. destruct I.
    - intros v REF. destruct (CV v) as (A & B). destruct (Nat.eq_dec (outdeg F v) 0) as [Z|Z]; [exfalso; assert (I : In v ft) by (apply IN; right; auto); rewrite E in I; destruct I|].
      destruct (Nat.eq_dec (indeg F v) 0) as [Z'|Z']; [exfalso; assert (I : In v ft) by (apply IN; right; auto); rewrite E in I; destruct I|]. lia. }
  destruct (rounds_ok argsort closest2 project (7 / 5 * h) (7 / 10 * h) AS CO i V F V F ft G NE NE) as [(V' & F' & f' & E & G' & N' & P & Z & O)|(E & Z)].
  { intros f I. apply referenced_on_line. auto. }
  - left. rewrite E. cbn [bind]. exists V', F'. split; [reflexivity|]. destruct (G') as [A B C D]. split; [auto|]. split; [auto|]. split; [auto|]. split; [|split; [|auto]].
    + intros CC EF v REF. assert (FE : ft = []). { destruct ft as [|f l] eqn:EL; [auto|]. assert (I : In f (f :: l)) by (left; auto). apply IN in I. destruct I as [I|(I & Q)]; [rewrite EF in I; destruct I|]. apply CC in I. lia. }
      rewrite FE in P. inversion P; subst f'. destruct (D v REF ltac:(auto)). destruct (B v). lia.
    + intros f I. apply IN in I. clear -P I C. induction P as [|x y l l' H P IH]; [destruct I|]. destruct I as [<-|I]; [exists y; split; [apply C; left; auto|auto]|apply IH; [intros; apply C; right; auto|auto]].
  - right. rewrite E. cbn [bind]. split; [reflexivity|]. apply CL. auto.
Qed.

(** ** non-vacuity: a square cut open is split; a tiny closed triangle makes the remesher raise *)
Definition exV : list pt2 := [(0, 0); (1, 0); (1, 1)].
Definition exF : list edge2 := [(0, 1); (1, 2)]%Z.
Example C82_nonvacuous_open : erange exV exF /\ curves exF /\ (referenced exF 0 /\ outdeg exF 2 = 0%nat /\ indeg exF 0 = 0%nat) /\ List.length (fst (split_line exV exF (/ 2))) = 5%nat.
Proof.
  split; [intros e [<-|[<-|[]]]; unfold vrange; cbn; lia|]. split.
  { intros v. unfold outdeg, indeg. cbn [exF map fst snd count_occ]. split; [destruct (Z.eq_dec 0 v), (Z.eq_dec 1 v); lia|destruct (Z.eq_dec 1 v), (Z.eq_dec 2 v); lia]. }
  split; [split; [exists (0, 1)%Z; cbn; auto|split; reflexivity]|].
  assert (E : forall e, In e exF -> too_long exV (/ 2) e = true).
  { intros e I. unfold too_long. assert (L : elen exV e = 1) by (destruct I as [<-|[<-|[]]]; unfold elen; cbn [fst snd]; change (pv exV 0) with ((0, 0) : pt2); change (pv exV 1) with ((1, 0) : pt2); change (pv exV 2) with ((1, 1) : pt2); unfold norm2, sub2; cbn [fst snd]; (etransitivity; [|exact sqrt_1]); f_equal; ring). rewrite L. destruct (Rlt_dec (/ 2) 1); [auto|lra]. }
  cbn [split_line fst]. rewrite app_length, map_length. unfold exF in *. cbn [filter]. rewrite !E by (cbn; auto). reflexivity.
Qed.
Definition tinyF : list edge2 := [(0, 1); (1, 2); (2, 0)]%Z.
Example C82_nonvacuous_closed : forall argsort, argsort_ok argsort -> collapse_line 4 argsort 3 exV tinyF [] = Err ValueError.
Proof.
  intros argsort AS. apply (C82_small_curves_refuted argsort 3 exV tinyF (fun p => 0 <= fst p <= 1 /\ 0 <= snd p <= 1)); auto.
  - split.
    + intros e [<-|[<-|[<-|[]]]]; unfold vrange; cbn; lia.
    + intros v. unfold outdeg, indeg. cbn [tinyF map fst snd count_occ]. destruct (Z.eq_dec 0 v), (Z.eq_dec 1 v), (Z.eq_dec 2 v); lia.
    + intros f [].
    + intros v REF _. apply referenced_deg in REF. unfold outdeg, indeg in *. cbn [tinyF map fst snd count_occ] in *. destruct (Z.eq_dec 0 v), (Z.eq_dec 1 v), (Z.eq_dec 2 v); lia.
  - discriminate.
  - intros p q s (A & B) (C & D) S. unfold along2. cbn [fst snd]. split; nra.
  - intros v Hv. unfold vrange in Hv. cbn in Hv. assert (v = 0 \/ v = 1 \/ v = 2)%Z as [->|[->| ->]] by lia; [change (pv exV 0) with ((0, 0) : pt2)|change (pv exV 1) with ((1, 0) : pt2)|change (pv exV 2) with ((1, 1) : pt2)]; cbn [fst snd]; lra.
  - intros p q (A & B) (C & D). unfold dist, norm2, sub2. cbn [fst snd]. replace 3 with (sqrt (3 * 3)) by (apply sqrt_square; lra). apply sqrt_lt_1_alt. split; [pose proof (Rle_0_sqr (fst p - fst q)); pose proof (Rle_0_sqr (snd p - snd q)); unfold Rsqr in *; lra|]. nra.
Qed.
