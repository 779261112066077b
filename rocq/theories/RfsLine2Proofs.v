(** Lemmas for P_RfsLine: the collapse loop *)
From Coq Require Import Reals Lra ZArith List Bool Lia Permutation Sorted.
From Verif Require Import PyExn NumpyModel LoopsModel MatModel MatProofs RelabelModel RelabelSpec P_Relabel RfsLineModel RfsLineProofs.
Import ListNotations.
Open Scope R_scope.

(** -- specification -- *)
(** np.argsort: a permutation of the positions in order of increasing value *)
Definition argsort_ok (argsort : list R -> list nat) : Prop :=
  forall l, Permutation (argsort l) (seq 0 (List.length l)) /\ StronglySorted (fun i j => nth i l 0 <= nth j l 0) (argsort l).
Definition referenced (F : list edge2) (v : Z) : Prop := exists e, In e F /\ (fst e = v \/ snd e = v).
(** a union of directed curves: at most one edge leaves and at most one enters each vertex; the features are used vertices, and every used vertex that is not a feature is passed through *)
Record good (V : list pt2) (F : list edge2) (feature : list Z) : Prop := {
  g_range : erange V F;
  g_curve : forall v, (outdeg F v <= 1)%nat /\ (indeg F v <= 1)%nat;
  g_feat : forall f, In f feature -> vrange V f /\ referenced F f;
  g_inner : forall v, referenced F v -> ~ In v feature -> (1 <= outdeg F v)%nat /\ (1 <= indeg F v)%nat }.
Definition convex (C : pt2 -> Prop) : Prop := forall p q s, C p -> C q -> 0 <= s <= 1 -> C (along2 p q s).

(** -- proofs -- *)
Lemma count_pos (l : list Z) v : In v l <-> (1 <= count_occ Z.eq_dec l v)%nat.
Proof. rewrite (count_occ_In Z.eq_dec). lia. Qed.
Lemma referenced_deg F v : referenced F v <-> (1 <= outdeg F v + indeg F v)%nat.
Proof.
  unfold referenced, outdeg, indeg. split.
  - intros (e & I & [<-|<-]); [assert (J := in_map fst _ _ I)|assert (J := in_map snd _ _ I)]; apply count_pos in J; lia.
  - intros H. destruct (in_dec Z.eq_dec v (map fst F)) as [I|N].
    + apply in_map_iff in I. destruct I as (e & E & I). eauto.
    + destruct (in_dec Z.eq_dec v (map snd F)) as [I|N2]; [apply in_map_iff in I; destruct I as (e & E & I); eauto|].
      apply (count_occ_not_In Z.eq_dec) in N, N2. lia.
Qed.
Lemma redirect_deg r k F v : r <> k -> outdeg (map (redirect r k) F) v = (if Z.eqb v r then 0 else if Z.eqb v k then outdeg F k + outdeg F r else outdeg F v)%nat
  /\ indeg (map (redirect r k) F) v = (if Z.eqb v r then 0 else if Z.eqb v k then indeg F k + indeg F r else indeg F v)%nat.
Proof.
  intros N. unfold outdeg, indeg. induction F as [|e F (IH1 & IH2)]; [cbn; destruct (Z.eqb v r), (Z.eqb v k); auto|].
  cbn [map redirect fst snd count_occ]. rewrite IH1, IH2. clear -N. split.
  - destruct (Z.eqb_spec (fst e) r), (Z.eqb_spec v r), (Z.eqb_spec v k), (Z.eq_dec k v), (Z.eq_dec (fst e) v), (Z.eq_dec (fst e) k), (Z.eq_dec (fst e) r); subst; try congruence; try lia.
  - destruct (Z.eqb_spec (snd e) r), (Z.eqb_spec v r), (Z.eqb_spec v k), (Z.eq_dec k v), (Z.eq_dec (snd e) v), (Z.eq_dec (snd e) k), (Z.eq_dec (snd e) r); subst; try congruence; try lia.
Qed.
Lemma redirect_self k F : map (redirect k k) F = F.
Proof. rewrite <- (map_id F) at 2. apply map_ext. intros [a b]. unfold redirect. cbn. destruct (Z.eqb_spec a k), (Z.eqb_spec b k); subst; reflexivity. Qed.
Lemma delete_perm {A} (d : A) c : forall l, (c < List.length l)%nat -> Permutation l (nth c l d :: delete_nth l c).
Proof.
  induction c; intros [|x l] H; cbn [List.length] in H; try lia; cbn [nth delete_nth]; [apply Permutation_refl|].
  eapply perm_trans; [apply perm_skip, IHc; lia|]. apply perm_swap.
Qed.
Lemma delete_length {A} c : forall l : list A, (c < List.length l)%nat -> S (List.length (delete_nth l c)) = List.length l.
Proof. induction c; intros [|x l] H; cbn [List.length] in H; try lia; cbn [delete_nth List.length]; [auto|]. rewrite IHc by lia. auto. Qed.
Lemma delete_in {A} c (x : A) : forall l, In x (delete_nth l c) -> In x l.
Proof. induction c; intros [|y l] H; cbn [delete_nth] in H; auto; [right; auto|]. destruct H as [->|H]; [left|right]; auto. Qed.

(** degrees after collapsing edge c *)
Lemma collapse_deg F c r k v : (c < List.length F)%nat -> (nth c F (0, 0)%Z = (k, r) \/ nth c F (0, 0)%Z = (r, k)) ->
  let F' := delete_nth (map (redirect r k) F) c in
  (r <> k -> outdeg F' v = (if Z.eqb v r then 0 else if Z.eqb v k then outdeg F k + outdeg F r - 1 else outdeg F v)%nat /\ indeg F' v = (if Z.eqb v r then 0 else if Z.eqb v k then indeg F k + indeg F r - 1 else indeg F v)%nat)
  /\ (r = k -> outdeg F' v = (if Z.eqb v k then outdeg F k - 1 else outdeg F v)%nat /\ indeg F' v = (if Z.eqb v k then indeg F k - 1 else indeg F v)%nat).
Proof.
  intros L E F'.
  assert (EC : nth c (map (redirect r k) F) (0, 0)%Z = (k, k)).
  { rewrite (nth_indep _ _ (redirect r k (0, 0)%Z)) by (rewrite map_length; auto). rewrite map_nth. destruct E as [-> | ->]; unfold redirect; cbn [fst snd]; rewrite Z.eqb_refl; destruct (Z.eqb k r); reflexivity. }
  pose proof (delete_perm (0, 0)%Z c (map (redirect r k) F) ltac:(rewrite map_length; auto)) as P. rewrite EC in P. fold F' in P.
  destruct (deg_perm _ _ v P) as (D1 & D2). unfold outdeg at 2 in D1. unfold indeg at 2 in D2. cbn [map fst snd count_occ] in D1, D2. fold (outdeg F' v) in D1. fold (indeg F' v) in D2.
  split.
  - intros N. destruct (redirect_deg r k F v N) as (R1 & R2). rewrite R1 in D1. rewrite R2 in D2. split.
    + destruct (Z.eqb_spec v r), (Z.eqb_spec v k), (Z.eq_dec k v); subst; try congruence; lia.
    + destruct (Z.eqb_spec v r), (Z.eqb_spec v k), (Z.eq_dec k v); subst; try congruence; lia.
  - intros ->. rewrite redirect_self in D1, D2. split.
    + destruct (Z.eqb_spec v k), (Z.eq_dec k v); subst; try congruence; lia.
    + destruct (Z.eqb_spec v k), (Z.eq_dec k v); subst; try congruence; lia.
Qed.

(** remove_unreferenced on edges *)
Definition rows2 (F : list edge2) : list (list Z) := map (fun e => [fst e; snd e]) F.
Lemma rows2_in F v : In v (concat (rows2 F)) <-> referenced F v.
Proof.
  unfold rows2, referenced. rewrite in_concat. split.
  - intros (x & I & J). apply in_map_iff in I. destruct I as (e & <- & I). exists e. split; [auto|]. destruct J as [J|[J|[]]]; auto.
  - intros (e & I & J). exists [fst e; snd e]. split; [apply in_map_iff; eauto|]. destruct J as [<-|<-]; cbn; auto.
Qed.
Lemma sorted_nodup J : StronglySorted Z.lt J -> NoDup J.
Proof. induction 1 as [|x l S IH F]; constructor; auto. intros I. apply (proj1 (Forall_forall _ _) F) in I. lia. Qed.
Lemma relabel_edges V F : F <> [] -> erange V F ->
  exists V2 newF IM J, remove_unreferenced (Some V) (rows2 F) = Ok (Some V2, newF, IM, J)
   /\ NoDup J /\ (forall v, In v J <-> referenced F v) /\ List.length V2 = List.length J /\ List.length IM = List.length V
   /\ (forall k, (k < List.length J)%nat -> nth k V2 (0, 0) = pv V (nth k J 0%Z))
   /\ (forall k j, nth_error J k = Some j -> nth_error IM (Z.to_nat j) = Some (Z.of_nat k))
   /\ Forall2 (fun e e2 => vrange V2 (fst e2) /\ vrange V2 (snd e2) /\ nth (Z.to_nat (fst e2)) J 0%Z = fst e /\ nth (Z.to_nat (snd e2)) J 0%Z = snd e) F (map as_edge newF).
Proof.
  intros NE R.
  destruct (C13_with_vertices pt2 V (rows2 F)) as (V2 & newF & IM & J & E & (RS & RJ & RF & RU & RL & RI & RN) & FV & _).
  { destruct F as [|e F]; [congruence|]. cbn. discriminate. }
  { intros v I. apply rows2_in in I. destruct I as (e & I & H). destruct (R e I) as (A & B). unfold vrange in *. destruct H as [<-|<-]; lia. }
  assert (POS : forall v, referenced F v -> (0 <= v < Z.of_nat (List.length V))%Z). { intros v (e & I & H). destruct (R e I) as (A & B). unfold vrange in *. destruct H as [<-|<-]; lia. }
  exists V2, newF, IM, J. split; [exact E|]. split; [apply sorted_nodup; auto|]. split.
  { intros v. rewrite RJ, rows2_in. split; [tauto|]. intros H. split; [apply POS in H; lia|auto]. }
  assert (LJ : List.length V2 = List.length J) by (clear -FV; induction FV; cbn; auto).
  split; [auto|]. split.
  { destruct (existsb (Z.eqb (-1)) (concat (rows2 F))) eqn:EX; [|lia]. apply existsb_exists in EX. destruct EX as (x & I & Hx). apply Z.eqb_eq in Hx. subst x. apply rows2_in, POS in I. lia. }
  split.
  { intros k Hk. clear -FV Hk. revert k Hk. induction FV as [|x j V2 J H FV IH]; intros k Hk; cbn [List.length] in Hk; [lia|]. destruct k; cbn [nth]; [unfold pv; symmetry; apply nth_error_nth; auto|]. apply IH. lia. }
  split; [exact RI|].
  assert (K : forall g v, (0 <= v)%Z -> (v = -1 /\ g = -1)%Z \/ (0 <= v /\ 0 <= g /\ nth_error J (Z.to_nat g) = Some v)%Z -> vrange V2 g /\ nth (Z.to_nat g) J 0%Z = v).
  { intros g v P [(A & _)|(A & B & C)]; [lia|]. split; [|apply nth_error_nth; auto]. unfold vrange. rewrite LJ. assert (nth_error J (Z.to_nat g) <> None) by congruence. apply nth_error_Some in H. lia. }
  clear -RF K POS. unfold rows2 in RF. remember (map (fun e => [fst e; snd e]) F) as L eqn:EL. revert F EL POS. induction RF as [|row nrow L newF H RF IH]; intros [|e F] EL POS; cbn in EL; try discriminate; [constructor|].
  injection EL as -> ->. inversion H as [|? g1 ? ? G1 H2]; subst. inversion H2 as [|? g2 ? ? G2 H3]; subst. inversion H3; subst. cbn [map]. constructor.
  - unfold as_edge. cbn [nth fst snd]. destruct (K g1 (fst e)) as (A1 & A2); [apply POS; exists e; split; [left; auto|auto]|auto|]. destruct (K g2 (snd e)) as (B1 & B2); [apply POS; exists e; split; [left; auto|auto]|auto|]. auto.
  - apply IH; auto. intros v (x & I & Hx). apply POS. exists x. split; [right; auto|auto].
Qed.
Lemma relabel_deg V2 J F F2 : NoDup J -> List.length V2 = List.length J ->
  Forall2 (fun e e2 => vrange V2 (fst e2) /\ vrange V2 (snd e2) /\ nth (Z.to_nat (fst e2)) J 0%Z = fst e /\ nth (Z.to_nat (snd e2)) J 0%Z = snd e) F F2 ->
  (forall g, vrange V2 g -> outdeg F2 g = outdeg F (nth (Z.to_nat g) J 0%Z) /\ indeg F2 g = indeg F (nth (Z.to_nat g) J 0%Z)) /\ (forall g, ~ vrange V2 g -> outdeg F2 g = 0%nat /\ indeg F2 g = 0%nat).
Proof.
  intros ND LJ H.
  assert (INJ : forall a b, vrange V2 a -> vrange V2 b -> nth (Z.to_nat a) J 0%Z = nth (Z.to_nat b) J 0%Z -> a = b).
  { intros a b A B E. unfold vrange in *. rewrite (NoDup_nth J 0%Z) in ND. specialize (ND (Z.to_nat a) (Z.to_nat b) ltac:(lia) ltac:(lia) E). lia. }
  split.
  - intros g G. unfold outdeg, indeg. induction H as [|e e2 F F2 (R1 & R2 & E1 & E2) H (IH1 & IH2)]; [auto|]. cbn [map count_occ]. rewrite IH1, IH2, <- E1, <- E2. split.
    + destruct (Z.eq_dec (fst e2) g) as [E0|N]; destruct (Z.eq_dec (nth (Z.to_nat (fst e2)) J 0%Z) (nth (Z.to_nat g) J 0%Z)) as [E|N']; [reflexivity|rewrite E0 in N'; congruence|exfalso; apply N, INJ; auto|reflexivity].
    + destruct (Z.eq_dec (snd e2) g) as [E0|N]; destruct (Z.eq_dec (nth (Z.to_nat (snd e2)) J 0%Z) (nth (Z.to_nat g) J 0%Z)) as [E|N']; [reflexivity|rewrite E0 in N'; congruence|exfalso; apply N, INJ; auto|reflexivity].
  - intros g G. unfold outdeg, indeg. induction H as [|e e2 F F2 (R1 & R2 & E1 & E2) H (IH1 & IH2)]; [auto|]. cbn [map count_occ].
    destruct (Z.eq_dec (fst e2) g) as [E0|]; [subst g; tauto|]. destruct (Z.eq_dec (snd e2) g) as [E0|]; [subst g; tauto|]. auto.
Qed.

(** the search for a collapsible edge *)
Lemma find_some V F isf low a i : find_short V F isf low a = Some i -> In i a /\ elen V (nth i F (0, 0)%Z) < low /\ (isf (fst (nth i F (0, 0)%Z)) = false \/ isf (snd (nth i F (0, 0)%Z)) = false).
Proof.
  induction a as [|j a IH]; cbn [find_short]; [discriminate|]. destruct (Rlt_dec _ low) as [L|]; [|discriminate]. destruct (negb _ || negb _) eqn:E.
  - intros H. injection H as <-. split; [left; auto|]. split; [auto|]. apply orb_prop in E. destruct E as [E|E]; apply negb_true_iff in E; auto.
  - intros H. destruct (IH H) as (A & B). split; [right; auto|auto].
Qed.
Lemma find_none V F isf low a : StronglySorted (fun i j => elen V (nth i F (0, 0)%Z) <= elen V (nth j F (0, 0)%Z)) a -> find_short V F isf low a = None ->
  forall i, In i a -> elen V (nth i F (0, 0)%Z) < low -> isf (fst (nth i F (0, 0)%Z)) = true /\ isf (snd (nth i F (0, 0)%Z)) = true.
Proof.
  induction 1 as [|j a S IH H]; cbn [find_short]; [intros _ i []|]. destruct (Rlt_dec _ low) as [L|NL].
  - destruct (negb _ || negb _) eqn:E; [discriminate|]. apply orb_false_iff in E. destruct E as (E1 & E2). apply negb_false_iff in E1, E2. intros N i [<-|I] Hi; [auto|]. apply IH; auto.
  - intros _ i [<-|I] Hi; [lra|]. apply (proj1 (Forall_forall _ _) H) in I. lra.
Qed.
Lemma mark_ok n feature : (forall f, In f feature -> (0 <= f < Z.of_nat n)%Z) -> exists isf, mark n feature = Ok isf /\ forall v, isf v = true <-> In v feature.
Proof.
  intros H. unfold mark. replace (forallb _ feature) with true.
  2:{ symmetry. apply forallb_forall. intros f I. apply H in I. apply andb_true_intro. split; [apply Z.leb_le|apply Z.ltb_lt]; lia. }
  eexists. split; [reflexivity|]. intros v. cbv beta. rewrite existsb_exists. split.
  - intros (f & I & E). apply Z.eqb_eq in E. pose proof (H f I). destruct (Z.ltb_spec f 0); [lia|]. subst. auto.
  - intros I. exists v. split; [auto|]. pose proof (H v I). destruct (Z.ltb_spec v 0); [lia|]. apply Z.eqb_refl.
Qed.
Lemma upd_pv V i x j : vrange V i -> (0 <= j)%Z -> pv (upd V i x) j = if Z.eqb j i then x else pv V j.
Proof.
  intros R P. unfold pv, upd. unfold vrange in R. destruct (Z.eqb_spec j i) as [->|N].
  - assert (K : forall n l (y : pt2), (n < List.length l)%nat -> nth n (set_nth l n y) (0, 0) = y). { clear. induction n; intros [|a l] y H; cbn in *; try lia; auto. apply IHn. lia. } apply K. lia.
  - assert (K : forall n m l (y : pt2), n <> m -> nth n (set_nth l m y) (0, 0) = nth n l (0, 0)).
    { clear. induction n; intros [|m] [|a l] y H; cbn; try lia; auto. } apply K. lia.
Qed.
Lemma upd_length {A} (V : list A) i x : List.length (upd V i x) = List.length V.
Proof. unfold upd. generalize (Z.to_nat i). clear i. induction V as [|a V IH]; intros [|n]; cbn; auto. Qed.
