(** C29: quadtree_laplacian and quadtree_gradient. *)
From Coq Require Import List Arith ZArith Reals Bool Lia Lra.
From Verif Require Import PyExn LoopsModel QuadModel QuadSpec QuadProofs Quad2Proofs Quad3Proofs Quad4Proofs Quad5Proofs Quad6Proofs QuadOpsModel Quad9Proofs Quad10Proofs P_Quad.
Import ListNotations.

(** ** specification: the finite differences *)
(** leaf m touches cell c across the face of c at the high (low) end of axis k *)
Definition on_side (T : qtree) (c m k : nat) (s : bool) : Prop := if s then touches_high 2 T c m k else touches_high 2 T m c k.
Definition mean (u : nat -> R) (l : list nat) : R := (fold_right Rplus 0 (map u l) / INR (length l))%R.
(** what u looks like from c across one face: nothing there, or the distance of the centres along the axis and the mean over the touching leaves *)
Inductive side (T : qtree) (c k : nat) (s : bool) (u : nat -> R) : option (R * R) -> Prop :=
| side_none : (forall m, leaf 2 T m -> ~ on_side T c m k s) -> side T c k s u None
| side_some l h : l <> [] -> NoDup l -> (forall m, In m l <-> leaf 2 T m /\ on_side T c m k s) -> (0 < h)%R ->
    (forall m, In m l -> centre T m k = (centre T c k + (if s then h else - h))%R) -> side T c k s u (Some (h, mean u l)).
(** second difference on three points with unequal spacing; at the boundary the missing point mirrors the other *)
Definition second (uc : R) (xm xp : option (R * R)) : R :=
  match xm, xp with
  | None, None => 0
  | Some (h, v), None | None, Some (h, v) => (v - uc) / (h * h)
  | Some (h, v), Some (h', v') => 2 / (h + h') * ((v' - uc) / h' - (uc - v) / h)
  end%R.
(** first difference over both neighbours, one-sided at the boundary *)
Definition first (uc : R) (xm xp : option (R * R)) : R :=
  match xm, xp with
  | None, None => 0
  | Some (h, v), None => (uc - v) / h
  | None, Some (h, v) => (v - uc) / h
  | Some (h, v), Some (h', v') => (v' - v) / (h + h')
  end%R.

Lemma side_of_stencil lo w0 T X c k s u x : inv 2 lo w0 T X -> (0 < w0)%R -> leaf 2 T c -> (k < 2)%nat -> stencil T c k s x -> side T c k s u (hv u x).
Proof.
  intros I Hw L Hk S. pose proof (proj1 L) as Hc.
  assert (forall m, (m < qn T)%nat -> qA T c m = code k s <-> on_side T c m k s) as OS.
  { intros m Hm. rewrite <- (i_adj _ _ _ _ _ I) by auto. unfold on_side, dirg. destruct s; symmetry; apply (touch_iff _ _ _ _ _ I); auto. }
  pose proof (width_pos _ _ _ _ I Hw c Hc) as Wc.
  destruct S as [N|m Lm A _ Only Cm _|a b La Lb Hab Aa Ab Only _ _ Cab _]; cbn [hv fold_right fst snd].
  - apply side_none. intros m [Hm _] O. apply (N m Hm). apply OS; auto.
  - pose proof (width_pos _ _ _ _ I Hw m (proj1 Lm)) as Wm.
    replace (1.0 * u m + 0)%R with (mean u [m]) by (unfold mean; cbn; lra). replace 2.0%R with 2%R by lra. apply side_some; [discriminate|repeat constructor; intros []| |lra|].
    + intro j. split; [intros [<-|[]]; split; [exact Lm|apply OS; auto; apply Lm]|]. intros [Lj O]. left. symmetry. apply Only; auto. apply OS; auto. apply Lj.
    + intros j [<-|[]]. rewrite Cm. destruct s; unfold sgn; lra.
  - pose proof (width_pos _ _ _ _ I Hw b (proj1 Lb)) as Wb.
    replace (0.5 * u a + (0.5 * u b + 0))%R with (mean u [a; b]) by (unfold mean; cbn; lra). replace 2.0%R with 2%R by lra.
    apply side_some; [discriminate|repeat constructor; [intros [E|[]]; lia|intros []]| |lra|].
    + intro j. split; [intros [<-|[<-|[]]]; (split; [assumption|apply OS; auto; first [apply La|apply Lb]])|]. intros [Lj O]. destruct (Only j Lj) as [->| ->]; [apply OS; auto; apply Lj|left; auto|right; left; auto].
    + intros j [<-|[<-|[]]]; rewrite Cab by auto; destruct s; unfold sgn; lra.
Qed.
Lemma len_hv u x : len_of x = match hv u x with None => 0%R | Some (h, _) => h end.
Proof. destruct x as [[h l]|]; reflexivity. Qed.
Lemma second_contrib uc xm xp : (forall h v, xm = Some (h, v) -> 0 < h)%R -> (forall h v, xp = Some (h, v) -> 0 < h)%R ->
  (2 * contrib uc xm (match xp with None => 0 | Some (h, _) => h end) + 2 * contrib uc xp (match xm with None => 0 | Some (h, _) => h end))%R = second uc xm xp.
Proof.
  intros H H'. destruct xm as [[h v]|], xp as [[h' v']|]; cbn [contrib second].
  - pose proof (H h v eq_refl). pose proof (H' h' v' eq_refl). rewrite !isz_pos by auto. field. split; [lra|split; lra].
  - pose proof (H h v eq_refl). rewrite isz_0. field. lra.
  - pose proof (H' h' v' eq_refl). rewrite isz_0. field. lra.
  - lra.
Qed.
Lemma first_gval uc u xm xp : (forall h v, hv u xm = Some (h, v) -> 0 < h)%R -> (forall h v, hv u xp = Some (h, v) -> 0 < h)%R -> (0 < len_of xm + len_of xp)%R ->
  ((gval uc (hv u xp) - gval uc (hv u xm)) / (len_of xm + len_of xp))%R = first uc (hv u xm) (hv u xp).
Proof.
  intros H H' P. destruct xm as [[h l]|], xp as [[h' l']|]; cbn [hv gval len_of first] in *.
  - reflexivity.
  - specialize (H h _ eq_refl). field. lra.
  - specialize (H' h' _ eq_refl). field. lra.
  - lra.
Qed.
Lemma hv_pos lo w0 T X c k s u x : inv 2 lo w0 T X -> (0 < w0)%R -> leaf 2 T c -> stencil T c k s x -> forall h v, hv u x = Some (h, v) -> (0 < h)%R.
Proof. intros I Hw L S h v E. destruct (stencil_len _ _ _ _ I Hw c k s x L S) as [->|(h' & l & -> & Hh)]; [discriminate|]. cbn in E. injection E as <- _. exact Hh. Qed.

(** ** the formulas, with the stencils *)
Lemma lap_formula c0 w0 T : length c0 = 2%nat -> (0 < w0)%R -> history 2 c0 w0 T -> graded_tree 2 T -> (1 < qn T)%nat ->
  exists lo X, inv 2 lo w0 T X /\ exists L, quadtree_laplacian 2 T = Ok (length (leaves T), L) /\
  forall i c, nth_error (leaves T) i = Some c -> exists x1 x2 x3 x4, stencil T c 0 false x1 /\ stencil T c 0 true x2 /\ stencil T c 1 false x3 /\ stencil T c 1 true x4 /\
    forall u, rsum (fun j => L i j * U T u j)%R (length (leaves T)) = (second (u c) (hv u x1) (hv u x2) + second (u c) (hv u x3) (hv u x4))%R.
Proof.
  intros Hc Hw H G Hn. destruct (history_inv _ _ _ _ (or_introl eq_refl) Hc H) as [X I]. exists (fun k => nth k c0 0%R - w0 / 2)%R, X. split; [exact I|].
  assert (forall k c, nth_error (leaves T) k = Some c -> leaf 2 T c) as Lf. { intros k c E. apply (leaves_iff _ _ _ _ I). eapply nth_error_In; eauto. }
  destruct (mapE_combine (fun x => x) (lap_row 2 T) (leaves T) 0) as (rows & Er & Inr & Apr).
  { intros k c E. destruct (lap_row_ok _ _ _ _ I Hw k c G (Lf k c E)) as (_ & _ & _ & _ & es & _ & _ & _ & _ & Q & O & _). exists es. split; [exact Q|]. intros e He. apply (O e He). }
  assert (length (leaves T) <> 1)%nat as N1.
  { assert (exists c, leaf 2 T c) as [c L].
    { destruct (leaf_cover _ _ _ _ _ I (qn T) 0%nat (centre T 0)) as (j & Hj & L & _); [lia|lia| |exists j; apply (leaf_iff _ _ _ _ _ I); auto; lia].
      intros k Hk. unfold low, high. pose proof (width_pos _ _ _ _ I Hw 0%nat ltac:(lia)). lra. }
    destruct (dir_nb_ok _ _ _ _ I Hw c 0 false G L ltac:(lia)) as (x1 & _ & S1). destruct (dir_nb_ok _ _ _ _ I Hw c 0 true G L ltac:(lia)) as (x2 & _ & S2).
    pose proof (axis_len _ _ _ _ I Hw c 0 x1 x2 Hn L ltac:(lia) S1 S2) as P.
    assert (exists m, leaf 2 T m /\ m <> c) as (m & Lm & Nm).
    { assert (forall m s, leaf 2 T m -> qA T c m = code 0 s -> m <> c) as W.
      { intros m s Lm A ->. apply (i_adj _ _ _ _ _ I) in A; [|apply L|apply L|lia]. unfold dirg, touchg, abut in A. pose proof (pw_pos (depth T c)). destruct s; destruct A as [A _]; nia. }
      destruct S1 as [N|m Lm A|a b La Lb _ Aa]; [|exists m; split; eauto|exists a; split; eauto].
      destruct S2 as [N'|m Lm A|a b La Lb _ Aa]; [cbn in P; lra|exists m; split; eauto|exists a; split; eauto]. }
    apply (leaves_iff _ _ _ _ I) in L, Lm. intro E. destruct (leaves T) as [|z [|z' l]]; cbn in E; try lia. destruct L as [<-|[]]. destruct Lm as [<-|[]]. auto. }
  eexists. split.
  { unfold quadtree_laplacian. rewrite Er. cbn [bind]. apply Nat.eqb_neq in N1. rewrite N1. reflexivity. }
  intros i c E. destruct (lap_row_ok _ _ _ _ I Hw i c G (Lf i c E)) as (x1 & x2 & x3 & x4 & es & S1 & S2 & S3 & S4 & Q & O & F). exists x1, x2, x3, x4. do 4 (split; [assumption|]).
  intro u. set (nc := length (leaves T)) in *. assert (i < nc)%nat as Hi by (apply nth_error_Some; unfold nc; congruence).
  assert (U T u i = u c) as Ui by (unfold U; rewrite (nth_error_nth _ _ _ E); reflexivity).
  assert (forall e, In e (concat rows) -> exists j, (j < nc)%nat /\ snd (fst e) = Z.of_nat j) as Cols.
  { intros e He. destruct (Inr e He) as (k & d & es' & Ek & Q' & He'). destruct (lap_row_ok _ _ _ _ I Hw k d G (Lf k d Ek)) as (_ & _ & _ & _ & es2 & _ & _ & _ & _ & Q2 & O2 & _).
    cbn [Nat.add] in Q'. rewrite Q' in Q2. injection Q2 as <-. destruct (O2 e He') as (_ & m & Lm & _ & Em). destruct (c2c_ok _ _ _ _ I m Lm) as (j & Hj & Ej & _). exists j. split; [exact Hj|congruence]. }
  rewrite (rsum_ext _ (fun j => (-2 * (sum_at (concat rows) i j * U T u j)) + (if Nat.eqb i j then - rsum (fun j => -2 * sum_at (concat rows) i j) nc * U T u j else 0))%R) by (intros j _; destruct (Nat.eqb i j); lra).
  rewrite rsum_add, rsum_scale. rewrite (rsum_one (fun j => if Nat.eqb i j then _ else _) nc i Hi) by (intros j _ N; replace (Nat.eqb i j) with false by (symmetry; apply Nat.eqb_neq; auto); reflexivity).
  rewrite Nat.eqb_refl, Ui, rsum_scale.
  replace (-2 * rsum (fun j => sum_at (concat rows) i j * U T u j) nc + - (-2 * rsum (sum_at (concat rows) i) nc) * u c)%R with (-2 * rsum (fun j => sum_at (concat rows) i j * (U T u j - u c)) nc)%R.
  2:{ rewrite (rsum_ext (fun j => (sum_at (concat rows) i j * (U T u j - u c))%R) (fun j => (sum_at (concat rows) i j * U T u j + (- u c) * sum_at (concat rows) i j)%R)) by (intros; lra). rewrite rsum_add, rsum_scale. lra. }
  rewrite (rsum_sum_at (concat rows) i (fun j => (U T u j - u c)%R) nc Cols). rewrite (Apr i c es i _ E Q eq_refl). rewrite F. rewrite !(len_hv u). 
  rewrite <- !second_contrib; try lra; eapply hv_pos; eauto.
Qed.
Lemma grad_formula c0 w0 T : length c0 = 2%nat -> (0 < w0)%R -> history 2 c0 w0 T -> graded_tree 2 T -> (1 < qn T)%nat ->
  exists lo X, inv 2 lo w0 T X /\ exists G, quadtree_gradient T = Ok ((2 * length (leaves T))%nat, length (leaves T), G) /\
  forall i c, nth_error (leaves T) i = Some c -> exists x1 x2 x3 x4, stencil T c 0 false x1 /\ stencil T c 0 true x2 /\ stencil T c 1 false x3 /\ stencil T c 1 true x4 /\ (0 < len_of x1 + len_of x2)%R /\ (0 < len_of x3 + len_of x4)%R /\
    forall u, rsum (fun j => G i j * U T u j)%R (length (leaves T)) = first (u c) (hv u x1) (hv u x2) /\
      rsum (fun j => G (length (leaves T) + i)%nat j * U T u j)%R (length (leaves T)) = first (u c) (hv u x3) (hv u x4).
Proof.
  intros Hc Hw H G Hn. destruct (history_inv _ _ _ _ (or_introl eq_refl) Hc H) as [X I]. exists (fun k => nth k c0 0%R - w0 / 2)%R, X. split; [exact I|].
  assert (forall k c, nth_error (leaves T) k = Some c -> leaf 2 T c) as Lf. { intros k c E. apply (leaves_iff _ _ _ _ I). eapply nth_error_In; eauto. }
  set (nc := length (leaves T)) in *. assert (forall k c, nth_error (leaves T) k = Some c -> (k < nc)%nat) as Ln by (intros k c E; apply nth_error_Some; unfold nc; congruence).
  destruct (mapE_combine (fun r => if Nat.ltb r nc then r else r - nc)%nat (grad_row T nc) (leaves T) 0) as (rows & Er & Inr & Apr).
  { intros k c E. destruct (grad_row_ok _ _ _ _ I Hw k c G Hn (Lf k c E) E) as (_ & _ & _ & _ & es & _ & _ & _ & _ & _ & _ & Q & O & _). exists es. split; [exact Q|]. intros e He. pose proof (Ln k c E).
    destruct (O e He) as [[-> | ->] _]; fold nc; [destruct (Nat.ltb_spec k nc); cbn; lia|destruct (Nat.ltb_spec (nc + k) nc); cbn; lia]. }
  eexists. split.
  { unfold quadtree_gradient. fold nc. fold nc in Er. rewrite Er. cbn [bind]. reflexivity. }
  intros i c E. destruct (grad_row_ok _ _ _ _ I Hw i c G Hn (Lf i c E) E) as (x1 & x2 & x3 & x4 & es & S1 & S2 & S3 & S4 & P1 & P2 & Q & O & F). exists x1, x2, x3, x4. do 6 (split; [assumption|]).
  intro u. pose proof (Ln i c E) as Hi.
  assert (forall e, In e (concat rows) -> exists j, (j < nc)%nat /\ snd (fst e) = Z.of_nat j) as Cols.
  { intros e He. destruct (Inr e He) as (k & d & es' & Ek & Q' & He'). destruct (grad_row_ok _ _ _ _ I Hw k d G Hn (Lf k d Ek) Ek) as (_ & _ & _ & _ & es2 & _ & _ & _ & _ & _ & _ & Q2 & O2 & _).
    cbn [Nat.add] in Q'. fold nc in Q2. rewrite Q' in Q2. injection Q2 as <-. destruct (O2 e He') as (_ & m & Lm & Em). destruct (c2c_ok _ _ _ _ I m Lm) as (j & Hj & Ej & _). exists j. split; [exact Hj|congruence]. }
  rewrite !(rsum_sum_at (concat rows) _ (U T u) nc Cols).
  rewrite (Apr i c es i _ E Q) by (destruct (Nat.ltb_spec i nc); cbn; lia). rewrite (Apr i c es (nc + i)%nat _ E Q) by (destruct (Nat.ltb_spec (nc + i) nc); cbn; lia).
  fold nc in F. destruct (F u) as [-> ->]. split; apply first_gval; auto; eapply hv_pos; eauto.
Qed.

(** ** C29: the Laplacian *)
(** On a graded quadtree with more than one cell, quadtree_laplacian succeeds and computes, at every leaf, the sum over the two axes of the second difference over its neighbours. *)
Theorem C29_laplacian c0 w0 T : length c0 = 2%nat -> (0 < w0)%R -> history 2 c0 w0 T -> graded_tree 2 T -> (1 < qn T)%nat ->
  (forall m, In m (leaves T) <-> leaf 2 T m) /\ NoDup (leaves T) /\
  exists L, quadtree_laplacian 2 T = Ok (length (leaves T), L) /\ forall i c, nth_error (leaves T) i = Some c -> forall u, exists xm xp ym yp,
    side T c 0 false u xm /\ side T c 0 true u xp /\ side T c 1 false u ym /\ side T c 1 true u yp /\
    rsum (fun j => L i j * u (nth j (leaves T) 0%nat))%R (length (leaves T)) = (second (u c) xm xp + second (u c) ym yp)%R.
Proof.
  intros Hc Hw H G Hn. destruct (lap_formula c0 w0 T Hc Hw H G Hn) as (lo & X & I & L & EL & F). split; [intro m; apply (leaves_iff _ _ _ _ I)|]. split; [unfold leaves; apply NoDup_filter, seq_NoDup|].
  exists L. split; [exact EL|]. intros i c E u. assert (leaf 2 T c) as Lc by (apply (leaves_iff _ _ _ _ I); eapply nth_error_In; eauto).
  destruct (F i c E) as (x1 & x2 & x3 & x4 & S1 & S2 & S3 & S4 & V). exists (hv u x1), (hv u x2), (hv u x3), (hv u x4).
  split; [|split; [|split; [|split; [|apply (V u)]]]]; eapply side_of_stencil; eauto.
Qed.
(** Its rows sum to zero; off the diagonal it is non-negative, and positive exactly between leaves that touch; the diagonal is negative. *)
Definition ind (m : nat) (j : nat) : R := if Nat.eqb j m then 1%R else 0%R.
Lemma rsum_entry T (f : nat -> R) j m : NoDup (leaves T) -> nth_error (leaves T) j = Some m -> rsum (fun j => f j * U T (ind m) j)%R (length (leaves T)) = f j.
Proof.
  intros ND E. assert (j < length (leaves T))%nat as Hj by (apply nth_error_Some; congruence).
  rewrite (rsum_one _ _ j Hj).
  - unfold U, ind. rewrite (nth_error_nth _ _ _ E), Nat.eqb_refl. lra.
  - intros j' Hj' N. unfold U, ind. destruct (Nat.eqb_spec (nth j' (leaves T) 0%nat) m) as [W|]; [|lra]. destruct N.
    apply (proj1 (NoDup_nth_error (leaves T)) ND j' j Hj'). rewrite E, <- W. apply nth_error_nth'. exact Hj'.
Qed.
Definition above (uc : R) (x : option (R * R)) : Prop := exists h v, x = Some (h, v) /\ (uc < v)%R.
Lemma second_sign uc xm xp : (forall h v, xm = Some (h, v) -> 0 < h /\ uc <= v)%R -> (forall h v, xp = Some (h, v) -> 0 < h /\ uc <= v)%R ->
  (0 <= second uc xm xp)%R /\ (above uc xm \/ above uc xp <-> 0 < second uc xm xp)%R.
Proof.
  intros H H'.
  assert (forall h d, 0 < h -> 0 <= d -> 0 <= d / h /\ (0 < d <-> 0 < d / h))%R as Q.
  { intros h d Hh Hd. assert (0 < / h)%R by (apply Rinv_0_lt_compat; auto). unfold Rdiv. split; [nra|]. split; intro; [apply Rmult_lt_0_compat; auto|]. destruct Hd as [|<-]; [auto|lra]. }
  assert (forall x h v, x = Some (h, v) -> above uc x <-> uc < v)%R as Ab. { intros x h v ->. split; [intros (h0 & v0 & E & W); injection E as <- <-; exact W|]. exists h, v. auto. }
  assert (~ above uc None) as AN by (intros (h & v & E & _); discriminate).
  destruct xm as [[h v]|], xp as [[h' v']|]; cbn [second].
  - destruct (H h v eq_refl), (H' h' v' eq_refl). rewrite (Ab _ h v eq_refl), (Ab _ h' v' eq_refl).
    destruct (Q h (v - uc)%R) as [A1 A2]; [auto|lra|]. destruct (Q h' (v' - uc)%R) as [B1 B2]; [auto|lra|].
    replace ((uc - v) / h)%R with (- ((v - uc) / h))%R by (field; lra). set (a := ((v - uc) / h)%R) in *. set (b := ((v' - uc) / h')%R) in *. clearbody a b.
    assert (0 < 2 / (h + h'))%R as P by (apply Rdiv_lt_0_compat; lra). set (w := (2 / (h + h'))%R) in *. clearbody w. split; [nra|]. split.
    + intros [W|W]; [assert (0 < a)%R by (apply A2; lra)|assert (0 < b)%R by (apply B2; lra)]; nra.
    + intro W. destruct (Rlt_dec 0 a) as [|Na]; [left; cut (0 < v - uc)%R; [lra|apply A2; auto]|right; cut (0 < v' - uc)%R; [lra|apply B2; nra]].
  - destruct (H h v eq_refl). rewrite (Ab _ h v eq_refl). destruct (Q (h * h)%R (v - uc)%R) as [A1 A2]; [nra|lra|]. split; [exact A1|]. rewrite <- A2. split; [intros [W|W]; [lra|tauto]|intro; left; lra].
  - destruct (H' h' v' eq_refl). rewrite (Ab _ h' v' eq_refl). destruct (Q (h' * h')%R (v' - uc)%R) as [A1 A2]; [nra|lra|]. split; [exact A1|]. rewrite <- A2. split; [intros [W|W]; [tauto|lra]|intro; right; lra].
  - split; [lra|]. split; [tauto|lra].
Qed.
Lemma hv_const T c k s x a : stencil T c k s x -> forall h v, hv (fun _ => a) x = Some (h, v) -> v = a.
Proof. intros S h v. destruct S; cbn; intro E; inversion E; lra. Qed.
Lemma hv_ind T c k s x m : stencil T c k s x -> leaf 2 T m ->
  (forall h v, hv (ind m) x = Some (h, v) -> (0 <= v)%R /\ (qA T c m <> code k s -> v = 0%R)) /\ (above 0 (hv (ind m) x) <-> qA T c m = code k s).
Proof.
  intros S Lm. destruct S as [N|a La A _ Only _ _|a b La Lb Hab Aa Ab Only _ _ _ _]; cbn [hv fold_right fst snd]; unfold ind.
  - split; [intros; discriminate|]. split; [intros (h & v & E & _); discriminate|]. intro E. destruct (N m (proj1 Lm) E).
  - destruct (Nat.eqb_spec a m) as [->|Na].
    + split; [intros h v E; injection E as <- <-; split; [lra|intro W; destruct (W A)]|]. split; [auto|]. intros _. do 2 eexists. split; [reflexivity|lra].
    + split; [intros h v E; injection E as <- <-; split; [lra|intros; lra]|]. split; [intros (h & v & E & W); injection E as <- <-; lra|]. intro E. destruct Na. symmetry. apply Only; auto.
  - destruct (Nat.eqb_spec a m) as [->|Na]; [|destruct (Nat.eqb_spec b m) as [->|Nb]].
    + destruct (Nat.eqb_spec b m) as [|Nb]; [lia|]. split; [intros h v E; injection E as <- <-; split; [lra|intro W; destruct (W Aa)]|]. split; [auto|]. intros _. do 2 eexists. split; [reflexivity|lra].
    + split; [intros h v E; injection E as <- <-; split; [lra|intro W; destruct (W Ab)]|]. split; [auto|]. intros _. do 2 eexists. split; [reflexivity|lra].
    + split; [intros h v E; injection E as <- <-; split; [lra|intros; lra]|]. split; [intros (h & v & E & W); injection E as <- <-; lra|]. intro E. destruct (Only m Lm E); congruence.
Qed.
Definition negv (x : option (R * R)) : option (R * R) := match x with None => None | Some (h, v) => Some (h, (- v)%R) end.
Lemma hv_neg u x : hv (fun m => - u m)%R x = negv (hv u x).
Proof. destruct x as [[h l]|]; [|reflexivity]. cbn [hv negv]. f_equal. f_equal. induction l as [|mw l IH]; cbn [fold_right]; [lra|]. rewrite IH. lra. Qed.
Lemma no_self lo w0 T X c k s : inv 2 lo w0 T X -> (c < qn T)%nat -> (k < 2)%nat -> qA T c c <> code k s.
Proof. intros I Hc Hk A. apply (i_adj _ _ _ _ _ I) in A; auto. unfold dirg, touchg, abut in A. pose proof (pw_pos (depth T c)). destruct s; destruct A as [A _]; nia. Qed.
Theorem C29_laplacian_signs c0 w0 T n L : length c0 = 2%nat -> (0 < w0)%R -> history 2 c0 w0 T -> graded_tree 2 T -> (1 < qn T)%nat -> quadtree_laplacian 2 T = Ok (n, L) ->
  (forall i, (i < n)%nat -> rsum (L i) n = 0%R) /\
  forall i j c m, nth_error (leaves T) i = Some c -> nth_error (leaves T) j = Some m ->
    (i = j -> (L i j < 0)%R) /\ (i <> j -> (0 <= L i j)%R /\ ((0 < L i j)%R <-> exists a, in_direction 2 T c m a)).
Proof.
  intros Hc Hw H G Hn EL. destruct (lap_formula c0 w0 T Hc Hw H G Hn) as (lo & X & I & L' & EL' & F). rewrite EL in EL'. injection EL' as -> <-.
  assert (NoDup (leaves T)) as ND by (unfold leaves; apply NoDup_filter, seq_NoDup).
  assert (forall k c, nth_error (leaves T) k = Some c -> leaf 2 T c) as Lf. { intros k c E. apply (leaves_iff _ _ _ _ I). eapply nth_error_In; eauto. }
  split.
  - intros i Hi. destruct (nth_error (leaves T) i) as [c|] eqn:E; [|apply nth_error_None in E; lia]. destruct (F i c E) as (x1 & x2 & x3 & x4 & S1 & S2 & S3 & S4 & V).
    specialize (V (fun _ => 1%R)). unfold U in V. rewrite (rsum_ext _ (L i)) in V by (intros; lra). rewrite V.
    assert (forall xm xp, (forall h v, xm = Some (h, v) -> v = 1%R) -> (forall h v, xp = Some (h, v) -> v = 1%R) -> second 1 xm xp = 0%R) as Z.
    { intros xm xp A B. destruct xm as [[h v]|], xp as [[h' v']|]; cbn [second]; rewrite ?(A h v eq_refl), ?(B h' v' eq_refl); unfold Rdiv; lra. }
    rewrite !Z; try lra; eapply hv_const; eauto.
  - intros i j c m E Em. destruct (F i c E) as (x1 & x2 & x3 & x4 & S1 & S2 & S3 & S4 & V). pose proof (Lf _ _ E) as Lc. pose proof (Lf _ _ Em) as Lm. split.
    + intros <-. rewrite E in Em. injection Em as <-. specialize (V (fun m => - ind c m)%R).
      rewrite (rsum_ext _ (fun j => (-1) * (L i j * U T (ind c) j))%R) in V by (intros; unfold U; lra). rewrite rsum_scale, (rsum_entry T (L i) i c ND E) in V. rewrite !hv_neg in V.
      unfold ind in V at 1 4. rewrite Nat.eqb_refl in V.
      assert (forall k s x h v, (k < 2)%nat -> stencil T c k s x -> negv (hv (ind c) x) = Some (h, v) -> (0 < h)%R /\ v = 0%R) as N.
      { intros k s x h v Hk S W. destruct (hv (ind c) x) as [[h0 v0]|] eqn:Eh; [|discriminate]. injection W as -> <-. split; [eapply hv_pos; eauto|].
        destruct (hv_ind T c k s x c S Lc) as [A _]. destruct (A _ _ Eh) as [_ B]. rewrite B; [lra|]. eapply no_self; eauto. apply Lc. }
      set (y1 := negv (hv (ind c) x1)) in *. set (y2 := negv (hv (ind c) x2)) in *. set (y3 := negv (hv (ind c) x3)) in *. set (y4 := negv (hv (ind c) x4)) in *.
      assert (forall h v, y1 = Some (h, v) -> 0 < h /\ v = 0)%R as N1 by (intros h v W; apply (N 0%nat false x1); auto). assert (forall h v, y2 = Some (h, v) -> 0 < h /\ v = 0)%R as N2 by (intros h v W; apply (N 0%nat true x2); auto).
      assert (forall h v, y3 = Some (h, v) -> 0 < h /\ v = 0)%R as N3 by (intros h v W; apply (N 1%nat false x3); auto). assert (forall h v, y4 = Some (h, v) -> 0 < h /\ v = 0)%R as N4 by (intros h v W; apply (N 1%nat true x4); auto).
      destruct (second_sign (- (1)) y1 y2) as [P1 Q1]; [intros h v W; destruct (N1 h v W); lra|intros h v W; destruct (N2 h v W); lra|].
      destruct (second_sign (- (1)) y3 y4) as [P2 _]; [intros h v W; destruct (N3 h v W); lra|intros h v W; destruct (N4 h v W); lra|].
      assert (0 < second (- (1)) y1 y2)%R; [|lra]. apply Q1.
      pose proof (axis_len _ _ _ _ I Hw c 0 x1 x2 Hn Lc ltac:(lia) S1 S2) as P.
      assert (forall y, (forall h v, y = Some (h, v) -> 0 < h /\ v = 0)%R -> y <> None -> above (- (1)) y) as Nn. { intros [[h v]|] W Y; [|congruence]. exists h, v. split; [reflexivity|]. destruct (W h v eq_refl). lra. }
      destruct x1 as [[h1 l1]|]; [left; apply Nn; [exact N1|unfold y1; discriminate]|]. destruct x2 as [[h2 l2]|]; [right; apply Nn; [exact N2|unfold y2; discriminate]|]. cbn in P. lra.
    + intro Nij. assert (m <> c) as Nmc. { intros ->. apply Nij. apply (proj1 (NoDup_nth_error (leaves T)) ND); [apply nth_error_Some|]; congruence. }
      specialize (V (ind m)). rewrite (rsum_entry T (L i) j m ND Em) in V. unfold ind in V at 1 4. replace (Nat.eqb c m) with false in V by (symmetry; apply Nat.eqb_neq; auto).
      destruct (hv_ind T c 0 false x1 m S1 Lm) as [A1 B1]. destruct (hv_ind T c 0 true x2 m S2 Lm) as [A2 B2]. destruct (hv_ind T c 1 false x3 m S3 Lm) as [A3 B3]. destruct (hv_ind T c 1 true x4 m S4 Lm) as [A4 B4].
      pose proof (hv_pos _ _ _ _ _ _ _ (ind m) _ I Hw Lc S1) as H1. pose proof (hv_pos _ _ _ _ _ _ _ (ind m) _ I Hw Lc S2) as H2. pose proof (hv_pos _ _ _ _ _ _ _ (ind m) _ I Hw Lc S3) as H3. pose proof (hv_pos _ _ _ _ _ _ _ (ind m) _ I Hw Lc S4) as H4.
      destruct (second_sign 0 (hv (ind m) x1) (hv (ind m) x2)) as [P1 Q1]; [intros h v W; split; [eauto|apply (A1 h v W)]|intros h v W; split; [eauto|apply (A2 h v W)]|].
      destruct (second_sign 0 (hv (ind m) x3) (hv (ind m) x4)) as [P2 Q2]; [intros h v W; split; [eauto|apply (A3 h v W)]|intros h v W; split; [eauto|apply (A4 h v W)]|].
      rewrite B1, B2 in Q1. rewrite B3, B4 in Q2. rewrite V. split; [lra|]. split.
      * intro W. assert (qA T c m <> 0)%Z as N0. { destruct (Rlt_dec 0 (second 0 (hv (ind m) x1) (hv (ind m) x2))) as [W1|W1]; [apply Q1 in W1 as [-> | ->]; apply code_pos|]. assert (0 < second 0 (hv (ind m) x3) (hv (ind m) x4))%R as W2 by lra. apply Q2 in W2 as [-> | ->]; apply code_pos. }
        exists (qA T c m). apply (adj_iff _ _ _ _ _ I); auto; [apply Lc|apply Lm].
      * intros (a & Da). assert (a <> 0)%Z as Na by (destruct Da as (k & _ & [[-> _]|[-> _]]); lia). apply (adj_iff _ _ _ _ _ I) in Da; auto; [|apply Lc|apply Lm].
        destruct (i_codes _ _ _ _ _ I c m (proj1 Lc) (proj1 Lm)) as [Z0|(k & s & Hk & Cm)]; [congruence|].
        destruct k as [|[|]]; [| |lia]; destruct s.
        -- assert (0 < second 0 (hv (ind m) x1) (hv (ind m) x2))%R by (apply Q1; auto). lra.
        -- assert (0 < second 0 (hv (ind m) x1) (hv (ind m) x2))%R by (apply Q1; auto). lra.
        -- assert (0 < second 0 (hv (ind m) x3) (hv (ind m) x4))%R by (apply Q2; auto). lra.
        -- assert (0 < second 0 (hv (ind m) x3) (hv (ind m) x4))%R by (apply Q2; auto). lra.
Qed.
(** Exactness: affine functions are harmonic at every leaf with neighbours on all four sides and no coarser one;
    at a leaf whose four neighbours have its size the Laplacian of every quadratic function is exact. *)
Definition affine (T : qtree) (a b0 b1 : R) (m : nat) : R := (a + b0 * centre T m 0 + b1 * centre T m 1)%R.
Definition quadratic (T : qtree) (q0 q1 r a b0 b1 : R) (m : nat) : R :=
  (q0 * centre T m 0 * centre T m 0 + q1 * centre T m 1 * centre T m 1 + r * centre T m 0 * centre T m 1 + affine T a b0 b1 m)%R.
Lemma on_side_code lo w0 T X c m k s : inv 2 lo w0 T X -> (0 < w0)%R -> (c < qn T)%nat -> (m < qn T)%nat -> (k < 2)%nat -> qA T c m = code k s <-> on_side T c m k s.
Proof. intros I Hw Hc Hm Hk. rewrite <- (i_adj _ _ _ _ _ I) by auto. unfold on_side, dirg. destruct s; symmetry; apply (touch_iff _ _ _ _ _ I); auto. Qed.
Lemma hv_affine T c k s x a b0 b1 : (k < 2)%nat -> stencil T c k s x ->
  (if Nat.eqb k 0 then b1 else b0) = 0%R \/ (forall m, leaf 2 T m -> qA T c m = code k s -> (depth T c <= depth T m)%nat) ->
  forall h v, hv (affine T a b0 b1) x = Some (h, v) -> v = (affine T a b0 b1 c + sgn s * (if Nat.eqb k 0 then b0 else b1) * h)%R.
Proof.
  intros Hk S Cs h v E. destruct S as [N|m Lm A Dm Only Cm Tm|p q Lp Lq Hpq Ap Aq Only Dp Dq Cpq Tpq]; cbn [hv fold_right fst snd] in E; [discriminate| |].
  - injection E as <- <-. unfold affine. destruct Cs as [Cs|Cs].
    + destruct k as [|[|]]; [| |lia]; cbn [Nat.eqb] in *; rewrite Cs, Cm; lra.
    + specialize (Cs m Lm A). specialize (Tm ltac:(lia)). destruct k as [|[|]]; [| |lia]; cbn [Nat.eqb]; rewrite Cm; [rewrite (Tm 1%nat)|rewrite (Tm 0%nat)]; try lia; lra.
  - injection E as <- <-. unfold affine. pose proof (Cpq p (or_introl eq_refl)) as C1. pose proof (Cpq q (or_intror eq_refl)) as C2.
    destruct k as [|[|]]; [| |lia]; cbn [Nat.eqb]; rewrite C1, C2; [specialize (Tpq 1%nat ltac:(lia) ltac:(lia))|specialize (Tpq 0%nat ltac:(lia) ltac:(lia))]; replace 0.5%R with (/ 2)%R by lra; replace 2.0%R with 2%R by lra.
    + replace (centre T q 1) with (2 * centre T c 1 - centre T p 1)%R by lra. lra.
    + replace (centre T q 0) with (2 * centre T c 0 - centre T p 0)%R by lra. lra.
Qed.
Lemma some_side lo w0 T X c k s x u : inv 2 lo w0 T X -> (0 < w0)%R -> leaf 2 T c -> (k < 2)%nat -> stencil T c k s x -> (exists m, leaf 2 T m /\ on_side T c m k s) -> exists h v, hv u x = Some (h, v) /\ (0 < h)%R.
Proof.
  intros I Hw Lc Hk S (m & Lm & O). apply (on_side_code _ _ _ _ c m k s I Hw (proj1 Lc) (proj1 Lm) Hk) in O. pose proof (hv_pos _ _ _ _ _ _ _ u x I Hw Lc S) as P.
  destruct S as [N|m'|a b]; [destruct (N m (proj1 Lm) O)| |]; cbn [hv] in *; do 2 eexists; (split; [reflexivity|eapply P; reflexivity]).
Qed.
Theorem C29_laplacian_exact c0 w0 T n L : length c0 = 2%nat -> (0 < w0)%R -> history 2 c0 w0 T -> graded_tree 2 T -> (1 < qn T)%nat -> quadtree_laplacian 2 T = Ok (n, L) ->
  forall i c, nth_error (leaves T) i = Some c ->
    ((forall k s, (k < 2)%nat -> (exists m, leaf 2 T m /\ on_side T c m k s) /\ forall m, leaf 2 T m -> on_side T c m k s -> (depth T c <= depth T m)%nat) ->
       forall a b0 b1, rsum (fun j => L i j * affine T a b0 b1 (nth j (leaves T) 0%nat))%R n = 0%R) /\
    ((forall k s, (k < 2)%nat -> exists m, leaf 2 T m /\ on_side T c m k s /\ depth T m = depth T c) ->
       forall q0 q1 r a b0 b1, rsum (fun j => L i j * quadratic T q0 q1 r a b0 b1 (nth j (leaves T) 0%nat))%R n = (2 * (q0 + q1))%R).
Proof.
  intros Hc Hw H G Hn EL. destruct (lap_formula c0 w0 T Hc Hw H G Hn) as (lo & X & I & L' & EL' & F). rewrite EL in EL'. injection EL' as -> <-.
  intros i c E. assert (leaf 2 T c) as Lc by (apply (leaves_iff _ _ _ _ I); eapply nth_error_In; eauto). destruct (F i c E) as (x1 & x2 & x3 & x4 & S1 & S2 & S3 & S4 & V). split.
  - intros Q a b0 b1. etransitivity; [exact (V (affine T a b0 b1))|].
    assert (forall k s x, (k < 2)%nat -> stencil T c k s x -> exists h, hv (affine T a b0 b1) x = Some (h, affine T a b0 b1 c + sgn s * (if Nat.eqb k 0 then b0 else b1) * h)%R /\ (0 < h)%R) as Sd.
    { intros k s x Hk S. destruct (Q k s Hk) as [Q1 Q2]. destruct (some_side _ _ _ _ c k s x (affine T a b0 b1) I Hw Lc Hk S Q1) as (h & v & Eh & Ph). exists h. rewrite Eh. split; [|exact Ph]. f_equal. f_equal.
      eapply hv_affine; eauto. right. intros m Lm A. apply Q2; auto. apply (on_side_code _ _ _ _ c m k s I Hw (proj1 Lc) (proj1 Lm) Hk); auto. }
    destruct (Sd 0%nat false x1 ltac:(lia) S1) as (h1 & -> & P1). destruct (Sd 0%nat true x2 ltac:(lia) S2) as (h2 & -> & P2). destruct (Sd 1%nat false x3 ltac:(lia) S3) as (h3 & -> & P3). destruct (Sd 1%nat true x4 ltac:(lia) S4) as (h4 & -> & P4).
    cbn [second Nat.eqb sgn]. set (z := affine T a b0 b1 c). clearbody z. field. repeat split; lra.
  - intros Q q0 q1 r a b0 b1. etransitivity; [exact (V (quadratic T q0 q1 r a b0 b1))|].
    assert (forall k s x, (k < 2)%nat -> stencil T c k s x -> exists h, hv (quadratic T q0 q1 r a b0 b1) x = Some (h, quadratic T q0 q1 r a b0 b1 c + sgn s * (if Nat.eqb k 0 then b0 + 2 * q0 * centre T c 0 + r * centre T c 1 else b1 + 2 * q1 * centre T c 1 + r * centre T c 0) * h + (if Nat.eqb k 0 then q0 else q1) * (h * h))%R /\ (0 < h)%R) as Sd.
    { intros k s x Hk S. destruct (Q k s Hk) as (m & Lm & O & Dm). pose proof (proj2 (on_side_code _ _ _ _ c m k s I Hw (proj1 Lc) (proj1 Lm) Hk) O) as A.
      pose proof (width_pos _ _ _ _ I Hw c (proj1 Lc)) as Wc.
      destruct S as [N|m' Lm' A' Dm' Only Cm Tm|p q Lp Lq Hpq Ap Aq Only Dp Dq _ _]; [destruct (N m (proj1 Lm) A)| |destruct (Only m Lm A); subst m; lia].
      assert (m = m') by (apply Only; auto). subst m'. specialize (Tm Dm). pose proof (width_pos _ _ _ _ I Hw m (proj1 Lm)) as Wm. cbn [hv fold_right fst snd]. exists ((width T c + width T m) / 2.0)%R. split; [|replace 2.0%R with 2%R by lra; lra]. f_equal. f_equal.
      replace 2.0%R with 2%R by lra. replace 1.0%R with 1%R by lra. unfold quadratic, affine. destruct k as [|[|]]; [| |lia]; cbn [Nat.eqb]; rewrite Cm; [rewrite (Tm 1%nat) by lia|rewrite (Tm 0%nat) by lia]; destruct s; unfold sgn; field. }
    destruct (Sd 0%nat false x1 ltac:(lia) S1) as (h1 & -> & P1). destruct (Sd 0%nat true x2 ltac:(lia) S2) as (h2 & -> & P2). destruct (Sd 1%nat false x3 ltac:(lia) S3) as (h3 & -> & P3). destruct (Sd 1%nat true x4 ltac:(lia) S4) as (h4 & -> & P4).
    cbn [second Nat.eqb sgn]. set (z := quadratic T q0 q1 r a b0 b1 c). clearbody z. field. repeat split; lra.
Qed.

(** ** C29: the gradient *)
Theorem C29_gradient c0 w0 T : length c0 = 2%nat -> (0 < w0)%R -> history 2 c0 w0 T -> graded_tree 2 T -> (1 < qn T)%nat ->
  exists Gr, quadtree_gradient T = Ok ((2 * length (leaves T))%nat, length (leaves T), Gr) /\ forall i c, nth_error (leaves T) i = Some c -> forall u, exists xm xp ym yp,
    side T c 0 false u xm /\ side T c 0 true u xp /\ side T c 1 false u ym /\ side T c 1 true u yp /\ (xm <> None \/ xp <> None) /\ (ym <> None \/ yp <> None) /\
    rsum (fun j => Gr i j * u (nth j (leaves T) 0%nat))%R (length (leaves T)) = first (u c) xm xp /\
    rsum (fun j => Gr (length (leaves T) + i)%nat j * u (nth j (leaves T) 0%nat))%R (length (leaves T)) = first (u c) ym yp.
Proof.
  intros Hc Hw H G Hn. destruct (grad_formula c0 w0 T Hc Hw H G Hn) as (lo & X & I & Gr & EG & F). exists Gr. split; [exact EG|].
  intros i c E u. assert (leaf 2 T c) as Lc by (apply (leaves_iff _ _ _ _ I); eapply nth_error_In; eauto).
  destruct (F i c E) as (x1 & x2 & x3 & x4 & S1 & S2 & S3 & S4 & P1 & P2 & V). exists (hv u x1), (hv u x2), (hv u x3), (hv u x4).
  assert (forall x y, (0 < len_of x + len_of y)%R -> hv u x <> None \/ hv u y <> None) as NN. { intros [[h l]|] y P; [left; discriminate|]. destruct y as [[h l]|]; [right; discriminate|]. cbn in P. lra. }
  split; [|split; [|split; [|split; [|split; [auto|split; [auto|apply (V u)]]]]]]; eapply side_of_stencil; eauto.
Qed.
(** It annihilates constants; along each axis it is exact for affine functions of that coordinate, and for all affine functions
    if no neighbour along the axis is coarser. *)
Theorem C29_gradient_exact c0 w0 T rows n Gr : length c0 = 2%nat -> (0 < w0)%R -> history 2 c0 w0 T -> graded_tree 2 T -> (1 < qn T)%nat -> quadtree_gradient T = Ok (rows, n, Gr) ->
  rows = (2 * n)%nat /\ n = length (leaves T) /\ (forall i, (i < rows)%nat -> rsum (Gr i) n = 0%R) /\
  forall i c k a b0 b1, nth_error (leaves T) i = Some c -> (k < 2)%nat ->
    (if Nat.eqb k 0 then b1 else b0) = 0%R \/ (forall m s, leaf 2 T m -> on_side T c m k s -> (depth T c <= depth T m)%nat) ->
    rsum (fun j => Gr (k * n + i)%nat j * affine T a b0 b1 (nth j (leaves T) 0%nat))%R n = (if Nat.eqb k 0 then b0 else b1).
Proof.
  intros Hc Hw H G Hn EG. destruct (grad_formula c0 w0 T Hc Hw H G Hn) as (lo & X & I & Gr' & EG' & F). rewrite EG in EG'. injection EG' as -> -> <-.
  set (nc := length (leaves T)) in *. split; [reflexivity|]. split; [reflexivity|].
  assert (forall i c k a b0 b1, nth_error (leaves T) i = Some c -> (k < 2)%nat -> (if Nat.eqb k 0 then b1 else b0) = 0%R \/ (forall m s, leaf 2 T m -> on_side T c m k s -> (depth T c <= depth T m)%nat) ->
    rsum (fun j => Gr (k * nc + i)%nat j * affine T a b0 b1 (nth j (leaves T) 0%nat))%R nc = (if Nat.eqb k 0 then b0 else b1)) as Ex.
  { intros i c k a b0 b1 E Hk Cs. assert (leaf 2 T c) as Lc by (apply (leaves_iff _ _ _ _ I); eapply nth_error_In; eauto).
    destruct (F i c E) as (x1 & x2 & x3 & x4 & S1 & S2 & S3 & S4 & P1 & P2 & V). destruct (V (affine T a b0 b1)) as [V1 V2]. unfold U in V1, V2.
    assert (forall k' s x, k' = k -> stencil T c k' s x -> forall h v, hv (affine T a b0 b1) x = Some (h, v) -> (0 < h)%R /\ v = (affine T a b0 b1 c + sgn s * (if Nat.eqb k 0 then b0 else b1) * h)%R) as Sd.
    { intros k' s x -> S h v Eh. split; [eapply hv_pos; eauto|]. eapply hv_affine; eauto. destruct Cs as [Cs|Cs]; [left; exact Cs|right]. intros m Lm A. apply (Cs m s Lm). apply (on_side_code _ _ _ _ c m k s I Hw (proj1 Lc) (proj1 Lm) Hk); auto. }
    assert (forall xm xp b z, (forall h v, xm = Some (h, v) -> 0 < h /\ v = z - b * h)%R -> (forall h v, xp = Some (h, v) -> 0 < h /\ v = z + b * h)%R -> xm <> None \/ xp <> None -> first z xm xp = b) as Fi.
    { intros xm xp b z A B N. destruct xm as [[h v]|], xp as [[h' v']|]; cbn [first].
      - destruct (A h v eq_refl) as [? ->]. destruct (B h' v' eq_refl) as [? ->]. field. lra.
      - destruct (A h v eq_refl) as [? ->]. field. lra.
      - destruct (B h' v' eq_refl) as [? ->]. field. lra.
      - destruct N; congruence. }
    assert (forall x y u, (0 < len_of x + len_of y)%R -> hv u x <> None \/ hv u y <> None) as NN. { intros [[h l]|] y u P; [left; discriminate|]. destruct y as [[h l]|]; [right; discriminate|]. cbn in P. lra. }
    destruct k as [|[|]]; [| |lia].
    - cbn [Nat.mul Nat.add Nat.eqb]. rewrite V1. apply Fi; [| |auto]; intros h v Eh; [destruct (Sd 0%nat false x1 eq_refl S1 h v Eh) as [? ->]|destruct (Sd 0%nat true x2 eq_refl S2 h v Eh) as [? ->]]; cbn [sgn Nat.eqb]; (split; [assumption|lra]).
    - replace (1 * nc + i)%nat with (nc + i)%nat by lia. cbn [Nat.eqb]. rewrite V2. apply Fi; [| |auto]; intros h v Eh; [destruct (Sd 1%nat false x3 eq_refl S3 h v Eh) as [? ->]|destruct (Sd 1%nat true x4 eq_refl S4 h v Eh) as [? ->]]; cbn [sgn Nat.eqb]; (split; [assumption|lra]). }
  split; [|exact Ex].
  intros i Hi. assert (forall j k, (j < nc)%nat -> (k < 2)%nat -> rsum (Gr (k * nc + j)%nat) nc = 0%R) as Z.
  { intros j k Hj Hk. destruct (nth_error (leaves T) j) as [c|] eqn:E; [|apply nth_error_None in E; unfold nc in Hj; lia].
    specialize (Ex j c k 1%R 0%R 0%R E Hk). rewrite (rsum_ext _ (Gr (k * nc + j)%nat)) in Ex by (intros; unfold affine; lra). rewrite Ex; [|left; destruct (Nat.eqb k 0); reflexivity]. destruct (Nat.eqb k 0); reflexivity. }
  destruct (Nat.lt_ge_cases i nc) as [Hi'|Hi']; [apply (Z i 0%nat); auto|]. replace i with (1 * nc + (i - nc))%nat by lia. apply Z; lia.
Qed.

(** ** what fails *)
(** A quadtree that is a single cell is accepted by neither. *)
Theorem C29_single_cell_refuted c0 w0 : quadtree_laplacian 2 (fresh_root 2 c0 w0) = Err TypeError /\ quadtree_gradient (fresh_root 2 c0 w0) = Err ZeroDivisionError.
Proof.
  split; [reflexivity|]. unfold quadtree_gradient. change (leaves (fresh_root 2 c0 w0)) with [0%nat]. cbn [length seq combine mapE].
  assert (grad_row (fresh_root 2 c0 w0) 1 (0%nat, 0%nat) = Err ZeroDivisionError) as ->; [|reflexivity].
  unfold grad_row. change (dir_nb (fresh_root 2 c0 w0) 0 1) with (@Ok (option (R * list (nat * R))) None). change (dir_nb (fresh_root 2 c0 w0) 0 2) with (@Ok (option (R * list (nat * R))) None).
  change (dir_nb (fresh_root 2 c0 w0) 0 3) with (@Ok (option (R * list (nat * R))) None). change (dir_nb (fresh_root 2 c0 w0) 0 4) with (@Ok (option (R * list (nat * R))) None). cbn [bind len_of].
  unfold grad_entries at 1. cbn [cells_of map app len_of]. rewrite isz_0. cbn [mapE]. unfold rdiv. rewrite Rplus_0_r, isz_0. reflexivity.
Qed.
(** quadtree_laplacian is written for every dimension but fails on every octree with more than one cell. *)
Theorem C29_octree_refuted c0 w0 T : length c0 = 3%nat -> (0 < w0)%R -> history 3 c0 w0 T -> (1 < qn T)%nat -> exists e, quadtree_laplacian 3 T = Err e.
Proof.
  intros Hc Hw H Hn. destruct (history_inv _ _ _ _ (or_intror eq_refl) Hc H) as [X I].
  assert (forall i c, leaf 3 T c -> exists e, lap_row 3 T (i, c) = Err e) as Row.
  { intros i c Lc. unfold lap_row. destruct (dir_nb T c 1) as [x1|]; cbn [bind]; [|eauto]. destruct (dir_nb T c 2) as [x2|]; cbn [bind]; [|eauto]. destruct (dir_nb T c 3) as [x3|]; cbn [bind]; [|eauto]. destruct (dir_nb T c 4) as [x4|]; cbn [bind]; [|eauto].
    cbn [Nat.eqb]. destruct (dir_nb T c 5) as [x5|] eqn:E5; cbn [bind]; [|eauto]. destruct (dir_nb T c 6) as [x6|] eqn:E6; cbn [bind]; [|eauto].
    destruct x5 as [y|]; [cbn [bind]; eauto|]. destruct x6 as [y|]; [cbn [bind]; eauto|]. exfalso.
    destruct (axis_neighbour _ _ _ _ _ I c 2 Hn Lc ltac:(lia)) as (m & s & Hm & A).
    assert (forall j, dir_nb T c j = Ok None -> forall m, (m < qn T)%nat -> qA T c m <> j) as N.
    { intros j E m' Hm' Aj. unfold dir_nb in E. destruct (filter (fun m => (qA T c m =? j)%Z) (seq 0 (qn T))) as [|m0 r] eqn:Ef.
      - assert (In m' (filter (fun m => (qA T c m =? j)%Z) (seq 0 (qn T)))) as W by (apply filter_In; split; [apply in_seq; lia|apply Z.eqb_eq; auto]). rewrite Ef in W. destruct W.
      - cbv zeta in E. destruct (Nat.leb _ _); [destruct (_ <=? _)%Z; discriminate|]. destruct (filter _ (m0 :: r)) as [|p [|q [|z l]]]; try discriminate. destruct (is_leaf T p && is_leaf T q); discriminate. }
    destruct s; [apply (N _ E6 m Hm A)|apply (N _ E5 m Hm A)]. }
  assert (exists c, leaf 3 T c) as [c Lc].
  { assert (0 < width T 0)%R as W0. { rewrite (width_eq _ _ _ _ _ I) by lia. apply Rdiv_lt_0_compat; [lra|]. apply IZR_lt. pose proof (pw_pos (depth T 0)). lia. }
    destruct (leaf_cover _ _ _ _ _ I (qn T) 0%nat (centre T 0)) as (j & Hj & L & _); [lia|lia| |exists j; apply (leaf_iff _ _ _ _ _ I); auto; lia]. intros k Hk. unfold low, high. lra. }
  assert (In c (leaves T)) as Ic. { unfold leaves. apply filter_In. split; [apply in_seq; destruct Lc; lia|apply (is_leaf_iff _ _ _ _ _ I); auto]. }
  unfold quadtree_laplacian.
  assert (forall m, In m (leaves T) -> leaf 3 T m) as Lf. { intros m Hm. unfold leaves in Hm. apply filter_In in Hm as [_ Hm]. apply (is_leaf_iff _ _ _ _ _ I) in Hm. exact Hm. }
  destruct (leaves T) as [|m l]; [destruct Ic|]. destruct (Row 0%nat m (Lf m ltac:(left; auto))) as [e Ee]. exists e. cbn [length seq combine mapE]. rewrite Ee. reflexivity.
Qed.

Lemma tree2b_graded : graded_tree 2 tree2b.
Proof. apply C28_nonvacuous. Qed.
Lemma cell2b i : (i < 9)%nat -> leaf 2 tree2b i -> i <> 0%nat /\ i <> 4%nat.
Proof. intros Hi [_ L]. split; intros ->; specialize (L 0%nat ltac:(cbn; lia)); vm_compute in L; discriminate. Qed.
Lemma centre2b i k x d : (i < 9)%nat -> (k < 2)%nat -> depth tree2b i = d -> X2b i k = x -> centre tree2b i k = (-1 + (IZR x + 1 / 2) * (4 / IZR (pw d)))%R.
Proof.
  intros Hi Hk Ed Ex. rewrite (i_c _ _ _ _ _ inv2b i k Hi Hk), (width_eq _ _ _ _ _ inv2b i Hi), Ed, Ex.
  replace (nth k [0%R; 0%R] 0%R) with 0%R by (destruct k as [|[|]]; [reflexivity|reflexivity|lia]). replace (2 * 2)%R with 4%R by lra. lra.
Qed.
(** Next to a coarser cell the gradient of an affine function is not exact: the x derivative of y at cell 5 of [tree2b] comes out as -1/5. *)
Theorem C29_gradient_linear_refuted : exists rows n Gr, quadtree_gradient tree2b = Ok (rows, n, Gr) /\ graded_tree 2 tree2b /\ history 2 [0%R; 0%R] 2 tree2b /\
  nth_error (leaves tree2b) 3 = Some 5%nat /\ rsum (fun j => Gr 3%nat j * affine tree2b 0 0 1 (nth j (leaves tree2b) 0%nat))%R n = (- (1 / 5))%R.
Proof.
  destruct (grad_formula [0%R; 0%R] 2 tree2b eq_refl ltac:(lra) history2b tree2b_graded ltac:(cbn; lia)) as (lo & X & I & Gr & EG & F).
  do 3 eexists. split; [exact EG|]. split; [apply tree2b_graded|]. split; [apply history2b|].
  assert (nth_error (leaves tree2b) 3 = Some 5%nat) as E by (vm_compute; reflexivity). split; [exact E|].
  destruct (F 3%nat 5%nat E) as (x1 & x2 & x3 & x4 & S1 & S2 & _ & _ & _ & _ & V). destruct (V (affine tree2b 0 0 1)) as [V1 _]. etransitivity; [exact V1|].
  assert (forall m, (m < 9)%nat -> leaf 2 tree2b m -> qA tree2b 5 m = code 0 false -> m = 3%nat) as O1.
  { intros m Hm L A. destruct (cell2b m Hm L). do 9 (destruct m as [|m]; [solve [reflexivity|congruence|vm_compute in A; discriminate]|]). lia. }
  assert (forall m, (m < 9)%nat -> leaf 2 tree2b m -> qA tree2b 5 m = code 0 true -> m = 6%nat) as O2.
  { intros m Hm L A. destruct (cell2b m Hm L). do 9 (destruct m as [|m]; [solve [reflexivity|congruence|vm_compute in A; discriminate]|]). lia. }
  assert (width tree2b 3 = 1 /\ width tree2b 5 = 1 / 2 /\ width tree2b 6 = 1 / 2)%R as (W3 & W5 & W6).
  { rewrite !(width_eq _ _ _ _ _ inv2b) by (cbn; lia). replace (depth tree2b 3) with 2%nat by reflexivity. replace (depth tree2b 5) with 3%nat by reflexivity. replace (depth tree2b 6) with 3%nat by reflexivity.
    change (pw 2) with 4%Z. change (pw 3) with 8%Z. lra. }
  assert (hv (affine tree2b 0 0 1) x1 = Some (3 / 4, 1 / 2)%R) as ->.
  { destruct S1 as [N|m Lm A _ _ _ _|a b La Lb Hab Aa Ab _ _ _ _ _].
    - destruct (N 3%nat); [cbn; lia|vm_compute; reflexivity].
    - rewrite (O1 m (proj1 Lm) Lm A). cbn [hv fold_right fst snd]. unfold affine. rewrite W3, W5, (centre2b 3 0 0 2), (centre2b 3 1 1 2) by (first [lia|reflexivity]). change (pw 2) with 4%Z. f_equal. f_equal; lra.
    - rewrite (O1 a (proj1 La) La Aa), (O1 b (proj1 Lb) Lb Ab) in Hab. lia. }
  assert (hv (affine tree2b 0 0 1) x2 = Some (1 / 2, 1 / 4)%R) as ->.
  { destruct S2 as [N|m Lm A _ _ _ _|a b La Lb Hab Aa Ab _ _ _ _ _].
    - destruct (N 6%nat); [cbn; lia|vm_compute; reflexivity].
    - rewrite (O2 m (proj1 Lm) Lm A). cbn [hv fold_right fst snd]. unfold affine. rewrite W5, W6, (centre2b 6 0 3 3), (centre2b 6 1 2 3) by (first [lia|reflexivity]). change (pw 3) with 8%Z. f_equal. f_equal; lra.
    - rewrite (O2 a (proj1 La) La Aa), (O2 b (proj1 Lb) Lb Ab) in Hab. lia. }
  cbn [first]. lra.
Qed.

(** [tree2b] meets the hypotheses of the positive theorems: it is graded, not uniform, and cell 8 has two neighbours of its size and none on the other sides,
    cell 2 has the two finer cells 5 and 6 above it. *)
Example C29_nonvacuous : history 2 [0%R; 0%R] 2 tree2b /\ graded_tree 2 tree2b /\ (1 < qn tree2b)%nat /\ leaves tree2b = [1; 2; 3; 5; 6; 7; 8]%nat /\
  (forall m s, leaf 2 tree2b m -> on_side tree2b 2 m 1 s -> (depth tree2b 2 <= depth tree2b m)%nat) /\ on_side tree2b 2 5 1 true /\ on_side tree2b 2 6 1 true.
Proof.
  split; [apply history2b|]. split; [apply tree2b_graded|]. split; [cbn; lia|]. split; [vm_compute; reflexivity|].
  assert (forall m s, (m < 9)%nat -> qA tree2b 2 m = code 1 s <-> on_side tree2b 2 m 1 s) as OS by (intros; apply (on_side_code _ _ _ _ 2 m 1 s inv2b ltac:(lra)); cbn; lia).
  split; [|split; apply OS; try lia; vm_compute; reflexivity].
  intros m s Lm O. pose proof (proj1 Lm) as Hm. change (qn tree2b) with 9%nat in Hm. destruct (cell2b m Hm Lm). do 9 (destruct m as [|m]; [try congruence; vm_compute; lia|]). lia.
Qed.
(** a cell with four neighbours of its size: split the four cells of [tree2a] *)
Example C29_interior_nonvacuous : exists T, history 2 [0%R; 0%R] 2 T /\ graded_tree 2 T /\ (1 < qn T)%nat /\ exists c, leaf 2 T c /\ forall k s, (k < 2)%nat -> exists m, leaf 2 T m /\ on_side T c m k s /\ depth T m = depth T c.
Proof.
  set (T1 := splitT 2 tree2b 1). set (T2 := splitT 2 T1 2). set (T3 := splitT 2 T2 3).
  assert (inv 2 lo2 2 T1 (X' tree2b X2b 1)) as I1 by (apply split_inv; [apply inv2b|cbn; lia|reflexivity]).
  assert (inv 2 lo2 2 T2 (X' T1 (X' tree2b X2b 1) 2)) as I2 by (apply split_inv; [exact I1|cbn; lia|vm_compute; reflexivity]).
  assert (inv 2 lo2 2 T3 (X' T2 (X' T1 (X' tree2b X2b 1) 2) 3)) as I3 by (apply split_inv; [exact I2|cbn; lia|vm_compute; reflexivity]).
  exists T3. split; [|split; [|split]].
  - apply h_step with (T := T2) (graded := false) (ind := 3%nat); [|eapply subdivide_split; [exact I2|cbn; lia|vm_compute; reflexivity]].
    apply h_step with (T := T1) (graded := false) (ind := 2%nat); [|eapply subdivide_split; [exact I1|cbn; lia|vm_compute; reflexivity]].
    apply h_step with (T := tree2b) (graded := false) (ind := 1%nat); [apply history2b|eapply subdivide_split; [apply inv2b|cbn; lia|vm_compute; reflexivity]].
  - intros i j [Hi Li] [Hj Lj] _. change (qn T3) with 21%nat in Hi, Hj.
    assert (depth T3 i <= 3)%nat by (clear Li; do 21 (destruct i as [|i]; [vm_compute; lia|]); lia).
    assert (2 <= depth T3 j)%nat; [|lia]. destruct j as [|j]; [specialize (Lj 0%nat ltac:(cbn; lia)); vm_compute in Lj; discriminate|]. clear Lj. do 20 (destruct j as [|j]; [vm_compute; lia|]). lia.
  - vm_compute. lia.
  - assert (forall m, (m < 21)%nat -> is_leaf T3 m = true -> leaf 2 T3 m) as Lf by (intros m _ E; apply (is_leaf_iff _ _ _ _ _ I3); exact E).
    exists 5%nat. split; [apply Lf; [lia|vm_compute; reflexivity]|].
    assert (forall k s m, (k < 2)%nat -> (m < 21)%nat -> is_leaf T3 m = true -> qA T3 5 m = code k s -> depth T3 m = depth T3 5 -> exists m, leaf 2 T3 m /\ on_side T3 5 m k s /\ depth T3 m = depth T3 5) as W.
    { intros k s m Hk Hm E A D. exists m. split; [apply Lf; auto|]. split; [|exact D]. apply (on_side_code _ _ _ _ 5 m k s I3 ltac:(lra)); auto. cbn. lia. }
    intros k s Hk. destruct k as [|[|]]; [| |lia]; destruct s.
    + apply (W 0%nat true 6%nat); [lia|lia|vm_compute; reflexivity|vm_compute; reflexivity|vm_compute; reflexivity].
    + apply (W 0%nat false 18%nat); [lia|lia|vm_compute; reflexivity|vm_compute; reflexivity|vm_compute; reflexivity].
    + apply (W 1%nat true 7%nat); [lia|lia|vm_compute; reflexivity|vm_compute; reflexivity|vm_compute; reflexivity].
    + apply (W 1%nat false 15%nat); [lia|lia|vm_compute; reflexivity|vm_compute; reflexivity|vm_compute; reflexivity].
Qed.
