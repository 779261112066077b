(** C81, continued: targets on the spheres, success, fixed point, invariants of the whole run *)
From Coq Require Import List Arith ZArith Lia Bool Reals Lra.
From Verif Require Import PyExn NumpyModel TopoModel MatModel MatProofs Subdiv3Proofs SolveModel SolveProofs P_Solve P_ElDyn BiharmProofs Psr3Proofs RfsModel RfsProofs P_Rfs.
From Verif Require Psr4Proofs.
Import ListNotations.
Open Scope R_scope.

(** -- specification -- *)
Definition coord (u : row) (c : nat) : R := nth c u 0.
Definition dist2 (dim : nat) (x y : nat -> R) : R := sumn dim (fun c => (x c - y c) ^ 2).
(** the contract of the closest-point query at one sample: it names a simplex of the mesh, and its squared distance is the one to the point it names *)
Definition query_ok (e : env) (V : list row) (F : list (list nat)) (u : row) : Prop :=
  let '(d2, i, b) := closest e V F u in (i < List.length F)%nat /\ List.length b = List.length (nth i F [])
   /\ d2 = dist2 (List.length u) (fun c => sumf (fun p => snd p * at2 V (fst p) c) (combine (nth i F []) b)) (coord u).
Definition distance (e : env) V F u : R := let '(d2, _, _) := closest e V F u in sqrt d2.
(** (contact - sample) . normal: negative when the sample is on the outer side of the simplex *)
Definition facing (V : list row) (t : touch) (u : row) : R := sumn (List.length u) (fun c => (contact_point V t c - coord u c) * coord (normal V (tf t)) c).
(** the sign of S is taken at its word when the test is off or the contact is within 1/1000 of the simplex's boundary *)
Definition trusts_sign (o : opts) (t : touch) : Prop := inside_outside_test o = false \/ Exists (fun x => x < / 1000) (tb t).
Definition sides_agree (o : opts) V (t : touch) u S : Prop := trusts_sign o t \/ (0 < S /\ facing V t u < 0) \/ (S < 0 /\ 0 < facing V t u).
Definition sides_differ (o : opts) V (t : touch) u S : Prop := ~ trusts_sign o t /\ ((0 < S /\ 0 < facing V t u) \/ (S < 0 /\ facing V t u < 0)).

(** -- proofs -- *)
Lemma rsub_nth n : forall a b c, List.length a = n -> List.length b = n -> nth c (rsub a b) 0 = nth c a 0 - nth c b 0.
Proof.
  unfold rsub. induction n; intros [|x a] [|y b] c; cbn [List.length]; intros; try lia; [destruct c; cbn; ring|]. destruct c; cbn [combine map nth fst snd]; [reflexivity|]. apply IHn; lia.
Qed.
Lemma radd_scal_nth n k : forall a b c, List.length a = n -> List.length b = n -> nth c (radd a (rscal k b)) 0 = nth c a 0 + k * nth c b 0.
Proof.
  unfold radd, rscal. induction n; intros [|x a] [|y b] c; cbn [List.length]; intros; try lia; [destruct c; cbn; ring|]. destruct c; cbn [combine map nth fst snd]; [reflexivity|]. apply IHn; lia.
Qed.
Lemma rsub_length n a b : List.length a = n -> List.length b = n -> List.length (rsub a b) = n.
Proof. intros A B. unfold rsub. rewrite map_length, combine_length. lia. Qed.
Lemma rdot_sumn n : forall a b, List.length a = n -> (List.length b = n \/ b = []) -> rdot a b = sumn n (fun c => nth c a 0 * nth c b 0).
Proof.
  intros a b A [B| ->].
  - rewrite <- (map_id a) at 1. unfold rdot. revert a b A B. induction n; intros [|x a] [|y b] A B; cbn [List.length] in *; try lia; [reflexivity|].
    rewrite map_id. cbn [combine sumf fst snd]. specialize (IHn a b ltac:(lia) ltac:(lia)). rewrite map_id in IHn. rewrite IHn. rewrite Psr4Proofs.sumn_shift. reflexivity.
  - unfold rdot. rewrite combine_nil. cbn [sumf]. symmetry. unfold sumn. apply sumf_zero. intros c _. destruct c; cbn [nth]; ring.
Qed.
Lemma blend_length dim V f b : List.length (blend dim V f b) = dim.
Proof. unfold blend. rewrite map_length, seq_length. reflexivity. Qed.
Lemma blend_nth dim V f b c : (c < dim)%nat -> nth c (blend dim V f b) 0 = sumf (fun p => snd p * at2 V (fst p) c) (combine f b).
Proof. intros H. unfold blend. rewrite nth_ms by auto. reflexivity. Qed.
Lemma sgn_abs x : sgn x * x = Rabs x.
Proof. unfold sgn. destruct (Rlt_dec 0 x); [rewrite Rabs_right; lra|]. destruct (Rlt_dec x 0); [rewrite Rabs_left; lra|]. replace x with 0 by lra. rewrite Rabs_R0. ring. Qed.
Lemma near_ex b : existsb (fun x => if Rlt_dec x (/ 1000) then true else false) b = true <-> Exists (fun x => x < / 1000) b.
Proof. rewrite existsb_exists, Exists_exists. split; intros (x & I & H); exists x; (split; [auto|]); destruct (Rlt_dec x (/ 1000)); auto; discriminate. Qed.
Lemma normal_length V f dim : (List.length f = 2%nat /\ dim = 2%nat) \/ (List.length f = 3%nat /\ dim = 3%nat) \/ (List.length f <> 2%nat /\ List.length f <> 3%nat) -> List.length (normal V f) = dim \/ normal V f = [].
Proof. intros H. destruct f as [|a [|b [|c [|d f]]]]; cbn in *; auto; left; lia. Qed.

(** the simplices have as many corners as the space has dimensions *)
Definition same_dim (u : row) (f : list nat) : Prop := List.length f = List.length u /\ (List.length u = 2%nat \/ List.length u = 3%nat).

(** ** the target of a sample u lies on the line through u and the contact point, at distance at most |S| from u;
    at distance exactly |S| when the mesh is at least tol/2 away and the side is decided; towards the mesh if the mesh's side agrees with the sign of S, away from it if not *)
Theorem C81_target : forall e o V F u S, query_ok e V F u -> 0 < tol o -> same_dim u (tf (correspond e o V F u S)) ->
  let t := correspond e o V F u S in let dim := List.length u in
  exists k, (forall c, (c < dim)%nat -> coord (ttarget t) c = coord u c + k * (contact_point V t c - coord u c))
   /\ dist2 dim (coord (ttarget t)) (coord u) <= S ^ 2
   /\ (/ 2 * tol o <= distance e V F u -> sides_agree o V t u S \/ sides_differ o V t u S -> dist2 dim (coord (ttarget t)) (coord u) = S ^ 2)
   /\ (sides_agree o V t u S -> k = Rabs S / Rmax (/ 2 * tol o) (distance e V F u)) /\ (sides_differ o V t u S -> k = - (Rabs S / Rmax (/ 2 * tol o) (distance e V F u))).
Proof.
  intros e o V F u S0 Q T SD t dim. unfold query_ok in Q. unfold distance. subst t. unfold correspond in *. destruct (closest e V F u) as [[d2 i] b] eqn:EC. destruct Q as (Qi & Qb & Q2).
  cbv zeta in *. cbn [tf tb tface tgap tw ttarget] in *. fold dim. destruct SD as (SL & S23). fold dim in SL, S23. set (f := nth i F []) in *. set (d := sqrt d2) in *.
  match goal with |- context[radd u (rscal (?s * S0 / _) ?w)] => set (ww := w) end.
  match goal with |- context[radd u (rscal (?s * S0 / _) ww)] => set (sd := s) end.
  assert (LB : List.length (blend dim V f b) = dim) by apply blend_length.
  assert (LW : List.length ww = dim) by (apply rsub_length; auto).
  assert (WN : forall c, (c < dim)%nat -> nth c ww 0 = sumf (fun p => snd p * at2 V (fst p) c) (combine f b) - coord u c). { intros c Hc. unfold ww. rewrite (rsub_nth dim) by auto. rewrite blend_nth by auto. reflexivity. }
  set (m := Rmax (/ 2 * tol o) d) in *. assert (MP : 0 < m). { pose proof (Rmax_l (/ 2 * tol o) d). unfold m. lra. } assert (DM : d <= m) by apply Rmax_r.
  assert (D0 : 0 <= d) by apply sqrt_pos.
  assert (DD : d2 = d ^ 2). { unfold d. rewrite <- Rsqr_pow2, Rsqr_sqrt; [reflexivity|]. rewrite Q2. apply sumn_nonneg. intros; apply pow2_ge_0. }
  assert (FD : rdot ww (normal V f) = sumn dim (fun c => (sumf (fun p => snd p * at2 V (fst p) c) (combine f b) - coord u c) * coord (normal V f) c)).
  { rewrite (rdot_sumn dim) by (auto; apply normal_length; lia). apply sumn_ext. intros c Hc. rewrite WN by auto. reflexivity. }
  exists (sd * S0 / m).
  assert (K : forall c, (c < dim)%nat -> coord (radd u (rscal (sd * S0 / m) ww)) c = coord u c + sd * S0 / m * (sumf (fun p => snd p * at2 V (fst p) c) (combine f b) - coord u c)).
  { intros c Hc. unfold coord at 1. rewrite (radd_scal_nth dim) by auto. rewrite WN by auto. reflexivity. }
  assert (DS : dist2 dim (coord (radd u (rscal (sd * S0 / m) ww))) (coord u) = (sd * S0 / m) ^ 2 * d2).
  { unfold dist2. rewrite (sumn_ext dim _ (fun c => (sd * S0 / m) ^ 2 * (sumf (fun p => snd p * at2 V (fst p) c) (combine f b) - coord u c) ^ 2)) by (intros c Hc; rewrite K by auto; ring).
    rewrite sumn_scal. rewrite Q2. reflexivity. }
  assert (SG : forall x, sgn x ^ 2 <= 1 /\ (x <> 0 -> sgn x ^ 2 = 1)) by (intros x; unfold sgn; destruct (Rlt_dec 0 x); [split; intros; lra|]; destruct (Rlt_dec x 0); split; intros; lra).
  assert (S1 : sd ^ 2 <= 1).
  { unfold sd. destruct (inside_outside_test o); [|apply SG]. destruct (existsb _ b); [apply SG|]. replace ((- sgn (rdot ww (normal V f))) ^ 2) with (sgn (rdot ww (normal V f)) ^ 2) by ring. apply SG. }
  assert (TRn : forall P : Prop, trusts_sign o {| tf := f; tb := b; tface := i; tgap := Rabs S0 - d; tw := if (if pseudosdf_interior o then if Rlt_dec 0 S0 then if Rlt_dec (Rabs S0 - d) 0 then true else false else false else match clamp o with Some c => if Req_EM_T (Rabs S0) c then if Rlt_dec (Rabs S0 - d) 0 then true else false else false | None => false end) then 0 else 1; ttarget := radd u (rscal (sd * S0 / m) ww) |} -> sd = sgn S0).
  { intros _ [E|E]; unfold sd; [rewrite E; reflexivity|]. cbn [tb] in E. apply near_ex in E. rewrite E. destruct (inside_outside_test o); reflexivity. }
  assert (NTR : ~ (inside_outside_test o = false \/ Exists (fun x => x < / 1000) b) -> sd = - sgn (rdot ww (normal V f))).
  { intros NT. unfold sd. destruct (inside_outside_test o) eqn:EI; [|exfalso; auto]. destruct (existsb _ b) eqn:EX; [|reflexivity]. apply near_ex in EX. exfalso; auto. }
  split; [exact K|]. split.
  { rewrite DS, DD. replace ((sd * S0 / m) ^ 2 * d ^ 2) with (sd ^ 2 * ((d / m) ^ 2 * S0 ^ 2)) by (field; lra). pose proof (pow2_ge_0 S0). pose proof (pow2_ge_0 sd).
    assert (Hr : 0 <= d / m <= 1). { split; [apply Rmult_le_pos; [lra|apply Rlt_le, Rinv_0_lt_compat; lra]|]. apply Rmult_le_reg_r with m; auto. unfold Rdiv. rewrite Rmult_assoc, Rinv_l by lra. lra. }
    set (q := d / m) in *. assert (q ^ 2 <= 1) by nra. assert (0 <= q ^ 2) by apply pow2_ge_0. assert (q ^ 2 * S0 ^ 2 <= 1 * S0 ^ 2) by (apply Rmult_le_compat_r; auto).
    assert (0 <= q ^ 2 * S0 ^ 2) by (apply Rmult_le_pos; auto). assert (sd ^ 2 * (q ^ 2 * S0 ^ 2) <= 1 * (q ^ 2 * S0 ^ 2)) by (apply Rmult_le_compat_r; auto). lra. }
  assert (FF : facing V {| tf := f; tb := b; tface := i; tgap := Rabs S0 - d; tw := if (if pseudosdf_interior o then if Rlt_dec 0 S0 then if Rlt_dec (Rabs S0 - d) 0 then true else false else false else match clamp o with Some c => if Req_EM_T (Rabs S0) c then if Rlt_dec (Rabs S0 - d) 0 then true else false else false | None => false end) then 0 else 1; ttarget := radd u (rscal (sd * S0 / m) ww) |} u = rdot ww (normal V f)) by (rewrite FD; reflexivity).
  set (t := {| tf := f |}) in *. 
  assert (AG : sides_agree o V t u S0 -> sd * S0 = Rabs S0).
  { intros [A|A]; [rewrite (TRn True A); apply sgn_abs|]. destruct (Rlt_dec 0 (Rabs S0)) as [|N0]. 2:{ pose proof (Rabs_pos S0). assert (Z : Rabs S0 = 0) by lra. destruct A as [(A & _)|(A & _)]; [rewrite Rabs_right in Z by lra|rewrite Rabs_left in Z by lra]; lra. }
    assert (DT : trusts_sign o t \/ ~ trusts_sign o t).
    { unfold trusts_sign. destruct (inside_outside_test o) eqn:EI; [|auto]. destruct (existsb (fun x => if Rlt_dec x (/ 1000) then true else false) b) eqn:EX; [left; right; apply near_ex; auto|].
      right. intros [E|E]; [discriminate|]. change (tb t) with b in E. apply near_ex in E. rewrite E in EX. discriminate. }
    destruct DT as [DT|DT]; [rewrite (TRn True DT); apply sgn_abs|]. rewrite (NTR DT), <- FF. unfold sgn.
    destruct A as [(A & B)|(A & B)]; destruct (Rlt_dec 0 (facing V t u)); destruct (Rlt_dec (facing V t u) 0); try lra; [rewrite Rabs_right|rewrite Rabs_left]; lra. }
  assert (DF : sides_differ o V t u S0 -> sd * S0 = - Rabs S0).
  { intros (DT & A). rewrite (NTR DT), <- FF. unfold sgn. destruct A as [(A & B)|(A & B)]; destruct (Rlt_dec 0 (facing V t u)); destruct (Rlt_dec (facing V t u) 0); try lra; [rewrite Rabs_right|rewrite Rabs_left]; lra. }
  split; [|split].
  - intros DL A. rewrite DS, DD. assert (m = d) as ->. { unfold m. apply Rmax_right. auto. }
    replace ((sd * S0 / d) ^ 2 * d ^ 2) with ((sd * S0) ^ 2) by (field; lra). destruct A as [A|A]; [rewrite (AG A)|rewrite (DF A)]; rewrite <- (pow2_abs S0); ring.
  - intros A. rewrite (AG A). reflexivity.
  - intros A. rewrite (DF A). field. lra.
Qed.

Lemma filter_nil {A} (p : A -> bool) l : (forall x, In x l -> p x = false) -> filter p l = [].
Proof. induction l; intros H; [reflexivity|]. cbn. rewrite (H a) by (left; auto). apply IHl. intros; apply H; right; auto. Qed.
(** ** a sample whose sphere the mesh already touches is not pulled anywhere: its target is its contact point *)
Definition touches (e : env) (o : opts) V F (u : row) (S : R) : Prop :=
  query_ok e V F u /\ same_dim u (tf (correspond e o V F u S)) /\ sides_agree o V (correspond e o V F u S) u S /\ / 2 * tol o <= distance e V F u /\ Rabs S = distance e V F u.
Lemma touching_target e o V F u S : 0 < tol o -> touches e o V F u S ->
  (forall c, (c < List.length u)%nat -> coord (ttarget (correspond e o V F u S)) c = contact_point V (correspond e o V F u S) c) /\ tgap (correspond e o V F u S) = 0.
Proof.
  intros T (Q & SD & AG & DL & E). split.
  - destruct (C81_target e o V F u S Q T SD) as (k & K1 & _ & _ & K2 & _). specialize (K2 AG). rewrite Rmax_right, E in K2 by auto.
    assert (k = 1) as ->. { rewrite K2. field. lra. } intros c Hc. rewrite (K1 c Hc). ring.
  - unfold distance in E. unfold correspond. destruct (closest e V F u) as [[d2 i] b]. cbn [tgap]. lra.
Qed.
Lemma corr_range e o V F us ss n : Forall (fun f => Forall (fun i => (i < n)%nat) f) F -> contacts_in_range n (contacts e o V F us ss).
Proof.
  intros H. unfold contacts_in_range, contacts. apply Forall_forall. intros t I. apply in_map_iff in I. destruct I as ((u, s) & <- & _). unfold correspond. destruct (closest e V F (fst (u, s))) as [[d2 i] b].
  cbn [tf]. intros j J. destruct (le_lt_dec (List.length F) i) as [L|L]; [rewrite nth_overflow in J by auto; destruct J|].
  apply (proj1 (Forall_forall _ _) (proj1 (Forall_forall _ _) H (nth i F []) ltac:(apply nth_In; auto)) j J).
Qed.

(** ** the linear system of a step is symmetric positive definite, so the step succeeds *)
Lemma Q_form e V F dim ts t x : let n := List.length V in let m := List.length ts in
  sumn n (fun i => x i * sumn n (fun j => Qmat e V F dim ts t i j * x j)) = sumn n (fun i => mass e V F dim i * x i ^ 2) + t * (1 / INR m) * sumn m (fun r => sumn n (fun j => Amat ts r j * x j) ^ 2).
Proof.
  intros n m. unfold Qmat. fold m. set (rho := 1 / INR m). set (M := mass e V F dim).
  rewrite (sumn_ext n _ (fun i => M i * x i ^ 2 + t * rho * sumn m (fun r => (Amat ts r i * x i) * sumn n (fun j => Amat ts r j * x j)))).
  2:{ intros i Hi. rewrite (sumn_ext n _ (fun j => (if Nat.eqb i j then 1 else 0) * (M i * x j) + t * rho * sumn m (fun r => Amat ts r i * (Amat ts r j * x j)))).
      2:{ intros j Hj. rewrite (sumn_ext m (fun r => Amat ts r i * (rho * Amat ts r j)) (fun r => rho * (Amat ts r i * Amat ts r j))) by (intros; ring). rewrite sumn_scal.
          rewrite (sumn_ext m (fun r => Amat ts r i * (Amat ts r j * x j)) (fun r => (Amat ts r i * Amat ts r j) * x j)) by (intros; ring). rewrite sumn_scal_r. destruct (Nat.eqb i j); ring. }
      rewrite sumn_plus, sumn_delta, sumn_scal, sumn_swap by auto.
      rewrite (sumn_ext m (fun r => Amat ts r i * x i * sumn n (fun j => Amat ts r j * x j)) (fun r => x i * sumn n (fun j => Amat ts r i * (Amat ts r j * x j)))) by (intros; rewrite sumn_scal; ring).
      rewrite sumn_scal. ring. }
  rewrite sumn_plus. f_equal. rewrite sumn_scal. f_equal. rewrite sumn_swap. apply sumn_ext. intros r _. rewrite sumn_scal_r. ring.
Qed.
Lemma Q_sym e V F dim ts t i j : Qmat e V F dim ts t i j = Qmat e V F dim ts t j i.
Proof.
  unfold Qmat. f_equal; [|f_equal; apply sumn_ext; intros; ring]. destruct (Nat.eqb_spec i j) as [->|N]; [rewrite Nat.eqb_refl; reflexivity|]. destruct (Nat.eqb_spec j i); [lia|reflexivity].
Qed.
Lemma Q_pd e V F dim ts t : 0 < t -> positive_mass e V F dim -> pos_def (List.length V) (Qmat e V F dim ts t).
Proof.
  intros T PM x. rewrite Q_form. set (n := List.length V) in *. set (a := sumn n _). set (b := t * _ * _).
  assert (A : 0 <= a) by (apply sumn_nonneg; intros; apply Rmult_le_pos; [apply Rlt_le; auto|apply pow2_ge_0]).
  assert (B : 0 <= b). { unfold b. pose proof (inv_nonneg (List.length ts)). apply Rmult_le_pos; [apply Rmult_le_pos; lra|apply sumn_nonneg; intros; apply pow2_ge_0]. }
  split; [lra|]. intros Z i Hi. assert (a = 0) by lra.
  pose proof (sumn_ge n (fun i => mass e V F dim i * x i ^ 2) i ltac:(intros; apply Rmult_le_pos; [apply Rlt_le; auto|apply pow2_ge_0]) Hi) as G. cbv beta in G. fold a in G.
  pose proof (PM i Hi). assert (x i ^ 2 <= 0) by (apply Rmult_le_reg_l with (mass e V F dim i); auto; lra). apply Rsqr_0_uniq. unfold Rsqr. pose proof (pow2_ge_0 (x i)). lra.
Qed.
Theorem C81_step_succeeds : forall e o V F dim ts, spd_solver (splu e) -> positive_step o -> positive_mass e V F dim -> fix_boundary o = false -> exists V1, solve_step e o V F dim ts = Ok V1.
Proof.
  intros e o V F dim ts (_ & SP) PS PM FB. unfold solve_step. rewrite FB. set (t := timestep _ _ _ _ _). assert (T : 0 < t) by (apply timestep_pos; auto).
  destruct (SP (List.length V) (Qmat e V F dim ts t) ltac:(intros; apply Q_sym) (Q_pd e V F dim ts t T PM)) as (s & ->). cbn [bind]. eexists. reflexivity.
Qed.
(** ** the mesh stands still only at a stationary point of the misfit: at every vertex the pulls of the samples, weighted by its barycentric coordinates, cancel *)
Definition pull (V : list row) (ts : list touch) (v c : nat) : R := sumf (fun t => (tw t * sumf (fun p => if Nat.eqb (fst p) v then snd p else 0) (combine (tf t) (tb t))) * (tw t * (contact_point V t c - nth c (ttarget t) 0))) ts.
Lemma pull_eq n V ts v c : contacts_in_range n ts -> pull V ts v c = sumn (List.length ts) (fun r => Amat ts r v * (sumn n (fun j => Amat ts r j * at2 V j c) - cmat ts r c)).
Proof.
  intros RG. unfold pull. rewrite (sumf_nth _ no_touch). apply sumn_ext. intros r Hr. unfold Amat at 1, cmat, c_entry. rewrite <- (sumn_ext n (fun j => a_entry (nth r ts no_touch) j * at2 V j c) (fun j => Amat ts r j * at2 V j c)) by reflexivity.
  rewrite (row_blend n _ (fun j => at2 V j c)) by (apply (proj1 (Forall_forall _ _) RG); apply nth_In; auto). unfold contact_point, a_entry.
  assert (A1 : forall l, sumf (fun p : nat * R => if Nat.eqb (fst p) v then tw (nth r ts no_touch) * snd p else 0) l = tw (nth r ts no_touch) * sumf (fun p => if Nat.eqb (fst p) v then snd p else 0) l).
  { induction l as [|p l IH]; cbn [sumf]; [ring|]. rewrite IH. destruct (Nat.eqb (fst p) v); ring. }
  rewrite A1. ring.
Qed.
Theorem C81_stationary : forall e o V F dim ts, solver_ok (splu e) -> positive_step o -> contacts_in_range (List.length V) ts -> fix_boundary o = false ->
  solve_step e o V F dim ts = Ok V -> (0 < List.length ts)%nat -> forall v c, (v < List.length V)%nat -> (c < dim)%nat -> pull V ts v c = 0.
Proof.
  intros e o V F dim ts SO PS RG FB H LT v c Hv Hc. destruct (solve_cases e o V F dim ts V SO H) as (X & fixed & EV & DEC & NF & _ & HC). specialize (NF FB).
  set (n := List.length V) in *. set (t := timestep o n dim ts (at2 V)) in *. assert (T : 0 < t) by (apply timestep_pos; auto).
  destruct (HC c Hc) as (_ & K). specialize (K v Hv (NF v)). unfold Qmat, rhs in K. set (m := List.length ts) in *. assert (R1 : 0 < 1 / INR m). { unfold Rdiv. rewrite Rmult_1_l. apply Rinv_0_lt_compat. apply lt_0_INR. lia. } set (rho := 1 / INR m) in *.
  assert (EX : forall j, (j < n)%nat -> X j c = at2 V j c). { intros j Hj. rewrite EV. rewrite at2_rows by auto. reflexivity. }
  rewrite (sumn_ext n _ (fun j => (if Nat.eqb v j then 1 else 0) * (mass e V F dim v * at2 V j c) + t * rho * sumn m (fun r => Amat ts r v * (Amat ts r j * at2 V j c)))) in K.
  2:{ intros j Hj. rewrite EX by auto. rewrite (sumn_ext m (fun r => Amat ts r v * (rho * Amat ts r j)) (fun r => rho * (Amat ts r v * Amat ts r j))) by (intros; ring). rewrite sumn_scal.
      rewrite (sumn_ext m (fun r => Amat ts r v * (Amat ts r j * at2 V j c)) (fun r => (Amat ts r v * Amat ts r j) * at2 V j c)) by (intros; ring). rewrite sumn_scal_r. destruct (Nat.eqb v j); ring. }
  rewrite sumn_plus, sumn_delta, sumn_scal, sumn_swap in K by auto.
  rewrite (sumn_ext m (fun r => Amat ts r v * (rho * cmat ts r c)) (fun r => rho * (Amat ts r v * cmat ts r c))) in K by (intros; ring). rewrite sumn_scal in K.
  rewrite (sumn_ext m (fun j => sumn n (fun i0 => Amat ts j v * (Amat ts j i0 * at2 V i0 c))) (fun r => Amat ts r v * sumn n (fun j => Amat ts r j * at2 V j c))) in K by (intros; apply sumn_scal).
  assert (Z : sumn m (fun r => Amat ts r v * (sumn n (fun j => Amat ts r j * at2 V j c) - cmat ts r c)) = 0).
  { rewrite (sumn_ext m _ (fun r => Amat ts r v * sumn n (fun j => Amat ts r j * at2 V j c) - Amat ts r v * cmat ts r c)) by (intros; ring). rewrite sumn_minus.
    assert (TR : 0 < t * rho) by (apply Rmult_lt_0_compat; auto). apply Rmult_eq_reg_l with (t * rho); [|lra]. lra. }
  rewrite (pull_eq n) by auto. exact Z.
Qed.
(** in the plane the masses are positive as soon as every vertex is used by a segment, and never negative *)
Theorem C81_plane_mass : forall e V F, (forall i, (i < List.length V)%nat -> exists a b, In [a; b] F /\ (a = i \/ b = i)) -> positive_mass e V F 2.
Proof.
  intros e V F H i Hi. destruct (H i Hi) as (a & b & I & E). unfold mass. cbn [Nat.eqb].
  assert (S0 : 0 < sqrt eps100) by (apply sqrt_lt_R0; unfold eps100; apply Rdiv_lt_0_compat; [lra|apply pow_lt; lra]).
  match goal with |- 0 < sumf ?g F => assert (G : g [a; b] <= sumf g F); [apply (sumf_ge_term g F [a; b]); auto|] end.
  { intros f _. cbv zeta. match goal with |- context[Rmax ?x _] => pose proof (Rmax_r x (sqrt eps100)) end. repeat match goal with |- context[if ?c then _ else _] => destruct c end; lra. }
  eapply Rlt_le_trans; [|exact G]. cbv zeta. cbn [nth]. match goal with |- context[Rmax ?x _] => pose proof (Rmax_r x (sqrt eps100)) end.
  destruct E as [-> | ->]; rewrite Nat.eqb_refl; repeat match goal with |- context[if ?c then _ else _] => destruct c end; lra.
Qed.

(** ** a mesh that already touches every sphere from the right side is returned unchanged after one iteration *)
Theorem C81_fixed_point : forall fuel e o U S V F dim h min_h, spd_solver (splu e) -> positive_step o -> positive_mass e V F dim -> fix_boundary o = false -> resample o = 0%nat ->
  (batch_size o = 0%nat \/ List.length U <= batch_size o)%nat -> 0 < tol o -> singular e V F = false ->
  U <> [] -> Forall (fun u => List.length u = dim) U -> all_rows dim V -> List.length S = List.length U -> Forall (fun f => Forall (fun i => (i < List.length V)%nat) f) F ->
  Forall (fun p => touches e o V F (fst p) (snd p)) (combine U S) ->
  reach_for_the_spheres (Datatypes.S fuel) e o (Some U) (Some S) V F dim h min_h = Ok (V, F, U).
Proof.
  intros fuel e o U S V F dim h mh SP PS PM FB RS BS T NS NU UD AR LS FR TC. unfold reach_for_the_spheres, start. replace (forallb _ U) with true.
  2:{ symmetry. apply forallb_forall. intros u I. apply Nat.eqb_eq. apply (proj1 (Forall_forall _ _) UD u I). }
  cbn [negb bind]. match goal with |- context[loop _ e o dim ?s] => set (st := s) end. cbn [loop].
  assert (IT : exists st', iteration e o dim st = Ok (true, st') /\ sV st' = V /\ sF st' = F /\ sU st' = U).
  { unfold iteration. destruct (Z.leb_spec (max_iter o) (Z.of_nat (its st))) as [L|L]; [exists st; auto|].
    assert (ED : draw e o st = (U, S)). { unfold draw. cbn [sU Ub Sb st]. destruct (Nat.ltb_spec 0 (batch_size o)); cbn [andb]; [|reflexivity]. destruct (Nat.ltb_spec (batch_size o) (List.length U)); [lia|reflexivity]. }
    rewrite ED. cbv zeta. change (sV st) with V. change (sF st) with F. fold (contacts e o V F U S). set (ts := contacts e o V F U S).
    destruct (C81_step_succeeds e o V F dim ts SP PS PM FB) as (V1 & E1). rewrite E1. cbn [bind].
    assert (LT : (0 < List.length ts)%nat). { unfold ts, contacts. rewrite map_length, combine_length, LS. destruct U; [congruence|cbn; lia]. }
    destruct (C81_descent e o V F dim ts V1 (proj1 SP) PS ltac:(intros i Hi; apply Rlt_le; auto) ltac:(apply corr_range; auto) AR E1) as (_ & _ & DL & ST).
    assert (M0 : misfit dim ts V = 0).
    { unfold misfit. apply sumf_zero. intros t I. unfold ts, contacts in I. apply in_map_iff in I. destruct I as ((u, s) & <- & I). cbn [fst snd]. pose proof (proj1 (Forall_forall _ _) TC _ I) as TU. cbn [fst snd] in TU.
      destruct (touching_target e o V F u s T TU) as (K & _). assert (LU : List.length u = dim) by (apply (proj1 (Forall_forall _ _) UD u); eapply in_combine_l; eauto). rewrite LU in K.
      unfold sumn. apply sumf_zero. intros c Hc. apply in_seq in Hc. specialize (K c ltac:(lia)). unfold coord in K. rewrite K. ring. }
    assert (MN : 0 <= misfit dim ts V1). { unfold misfit. apply sumf_nonneg. intros t I. unfold sumn. apply sumf_nonneg. intros; apply pow2_ge_0. }
    destruct (ST PM LT) as [-> |X]; [|lra]. rewrite NS.
    assert (FI : invalid_faces o ts = []).
    { unfold invalid_faces. replace (filter (is_invalid o) ts) with (@nil touch); [reflexivity|]. symmetry. apply filter_nil. intros t I. unfold ts, contacts in I. apply in_map_iff in I. destruct I as ((u, s) & <- & I).
      destruct (touching_target e o V F u s T (proj1 (Forall_forall _ _) TC _ I)) as (_ & G). cbn [fst snd]. unfold is_invalid. rewrite G, Rabs_R0. destruct (Rlt_dec 0 (tol o)); [reflexivity|contradiction]. }
    rewrite FI. cbn [best st]. cbn [Nat.ltb Nat.leb]. rewrite RS, orb_true_r. cbn [Nat.ltb Nat.leb resampled st negb andb]. eexists. split; [reflexivity|]. cbn [sV sF sU]. auto. }
  destruct IT as (st' & -> & <- & <- & <-). cbn [bind]. reflexivity.
Qed.

(** ** invariants of a run: the step sizes, the resampling count, and where the returned mesh comes from *)
Lemma iteration_state e o dim st conv st' : iteration e o dim st = Ok (conv, st') ->
  smin_h st' = smin_h st /\ (sh st' = sh st \/ sh st' = Rmax (sh st / 2) (smin_h st))
  /\ ((resampled st' = resampled st /\ sU st' = sU st /\ sS st' = sS st) \/ (resampled st < resample o /\ resampled st' = S (resampled st) /\ sS st' = sdf e (sU st'))%nat)
  /\ ((Vlast st' = Vlast st /\ Flast st' = Flast st) \/ singular e (Vlast st') (Flast st') = false).
Proof.
  intros H. unfold iteration in H. destruct (Z.leb (max_iter o) (Z.of_nat (its st))).
  { injection H as <- <-. split; [auto|]. split; [auto|]. split; [auto|]. auto. }
  destruct (draw e o st) as [us ss] eqn:ED. cbv zeta in H.
  match type of H with context[solve_step ?a ?b ?c ?d ?f ?g] => destruct (solve_step a b c d f g) as [V1|]; cbn [bind] in H; [|discriminate] end.
  destruct (singular e V1 (sF st)) eqn:EG.
  { injection H as <- <-. cbn. split; [auto|]. split; [auto|]. split; [auto|]. auto. }
  destruct (match best st with Some b => _ | None => _ end) as [cnt1 best1].
  match type of H with context[if Nat.ltb 10 cnt1 then ?a else ?b] => set (tup := if Nat.ltb 10 cnt1 then a else b) in H;
    assert (TP : let '(Vl, Fl, _, _, h2) := tup in (h2 = sh st \/ h2 = Rmax (sh st / 2) (smin_h st)) /\ ((Vl = Vlast st /\ Fl = Flast st) \/ singular e Vl Fl = false)) end.
  { unfold tup. destruct (Nat.ltb 10 cnt1); [destruct (Rlt_dec (smin_h st) (sh st))|]; auto. }
  clearbody tup. destruct tup as [[[[Vl Fl] cnt2] best2] h2]. destruct TP as (T1 & T2).
  match type of H with context[if (?d && negb ?r) then _ else _] => destruct d eqn:ED2; destruct r eqn:ER end; cbn [andb negb] in H.
  2:{ injection H as <- <-. cbn. split; [auto|]. split; [auto|]. split; [auto|]. auto. }
  all: match type of H with context[remesh ?a ?b ?c ?d ?f ?g] => destruct (remesh a b c d f g) as [[V2 F2]|]; cbn [bind] in H; [|discriminate] end;
    injection H as <- <-; cbn [smin_h sh resampled sU sS Vlast Flast]; (split; [auto|]); (split; [auto|]); (split; [|auto]).
  - right. apply Nat.ltb_lt in ER. auto.
  - left. auto.
  - left. auto.
Qed.
(** h never leaves [min_h, h0] *)
Theorem C81_h_bounds : forall e o dim k st st', runs e o dim k st st' -> 0 <= smin_h st <= sh st -> smin_h st' = smin_h st /\ smin_h st <= sh st' <= sh st.
Proof.
  intros e o dim k st st' R. induction R as [st st' I|k st st1 st' I R IH]; intros L; destruct (iteration_state e o dim _ _ _ I) as (E1 & E2 & _).
  - split; [auto|]. destruct E2 as [-> | ->]; [lra|]. split; [apply Rmax_r|]. apply Rmax_lub; lra.
  - assert (B : smin_h st <= sh st1 <= sh st). { destruct E2 as [-> | ->]; [lra|]. split; [apply Rmax_r|]. apply Rmax_lub; lra. }
    destruct (IH ltac:(lra)) as (A1 & A2). split; [congruence|lra].
Qed.
(** at most [resample] resamplings; the samples only change by resampling, and afterwards the stored distances are those of the stored samples *)
Theorem C81_samples : forall e o dim k st st', runs e o dim k st st' -> (resampled st <= resample o)%nat ->
  (resampled st <= resampled st' <= resample o)%nat /\ ((resampled st' = resampled st /\ sU st' = sU st /\ sS st' = sS st) \/ (resampled st < resampled st' /\ sS st' = sdf e (sU st'))%nat).
Proof.
  intros e o dim k st st' R. induction R as [st st' I|k st st1 st' I R IH]; intros L; destruct (iteration_state e o dim _ _ _ I) as (_ & _ & E & _).
  - destruct E as [(E1 & E2 & E3)|(E1 & E2 & E3)]; (split; [lia|]); [left|right]; auto. split; [lia|auto].
  - destruct (IH ltac:(lia)) as (A1 & A2). split; [lia|]. destruct E as [(E1 & E2 & E3)|(E1 & E2 & E3)], A2 as [(B1 & B2 & B3)|(B1 & B2)]; [left; split; [lia|split; congruence]|right; split; [lia|auto]|right; split; [lia|congruence]|right; split; [lia|auto]].
Qed.
Theorem C81_samples_kept : forall fuel e o U S V F dim h min_h V' F' U', resample o = 0%nat -> reach_for_the_spheres fuel e o (Some U) S V F dim h min_h = Ok (V', F', U') -> U' = U.
Proof.
  intros fuel e o U S0 V F dim h mh V' F' U' RS H. unfold reach_for_the_spheres in H. destruct (start e (Some U) S0 V F dim h mh) as [st|] eqn:ES; cbn [bind] in H; [|discriminate].
  destruct (loop fuel e o dim st) as [st'|] eqn:EL; cbn [bind] in H; [|discriminate]. injection H as _ _ <-. destruct (loop_runs _ _ _ _ _ _ EL) as (k & R).
  unfold start in ES. destruct (negb _); [discriminate|]. assert (EU : sU st = U /\ resampled st = 0%nat) by (injection ES as <-; auto). destruct EU as (EU & ER).
  destruct (C81_samples _ _ _ _ _ _ R ltac:(lia)) as (A & [(_ & B & _)|(B & _)]); [congruence|lia].
Qed.
(** ** the returned mesh is the input, or one that passed the degeneracy test, or what the remesher made of one that passed it *)
Definition origin (e : env) (V0 : list row) (F0 : list (list nat)) (V : list row) (F : list (list nat)) : Prop :=
  (V = V0 /\ F = F0) \/ singular e V F = false \/ exists V1 F1 h Fi feat, singular e V1 F1 = false /\ remesh e V1 F1 h Fi feat = Ok (V, F).
Lemma origin_step e o dim V0 F0 st conv st' : iteration e o dim st = Ok (conv, st') -> origin e V0 F0 (sV st) (sF st) -> origin e V0 F0 (Vlast st) (Flast st) ->
  origin e V0 F0 (sV st') (sF st') /\ origin e V0 F0 (Vlast st') (Flast st').
Proof.
  intros I O1 O2. split.
  - destruct (C81_iteration e o dim st conv st' I) as [(_ & _ & ->)|(_ & V1 & us & ss & _ & _ & [(_ & _ & -> & ->)|[(G & _ & -> & -> & _)|(G & _ & _ & feat & ER)]])]; auto.
    + right. left. auto.
    + right. right. eexists _, _, _, _, _. split; [exact G|exact ER].
  - destruct (iteration_state e o dim st conv st' I) as (_ & _ & _ & [(-> & ->)|G]); [auto|]. right. left. auto.
Qed.
Theorem C81_result : forall fuel e o U S V F dim h min_h V' F' U', reach_for_the_spheres fuel e o U S V F dim h min_h = Ok (V', F', U') -> origin e V F V' F'.
Proof.
  intros fuel e o U S0 V F dim h mh V' F' U' H. unfold reach_for_the_spheres in H. destruct (start e U S0 V F dim h mh) as [st|] eqn:ES; cbn [bind] in H; [|discriminate].
  destruct (loop fuel e o dim st) as [st'|] eqn:EL; cbn [bind] in H; [|discriminate]. injection H as <- <- _. destruct (loop_runs _ _ _ _ _ _ EL) as (k & R).
  unfold start in ES. destruct U as [U|]; [|discriminate]. destruct (negb _); [discriminate|].
  assert (OO : origin e V F (sV st) (sF st) /\ origin e V F (Vlast st) (Flast st)) by (injection ES as <-; cbn; split; left; auto). clear ES EL.
  induction R as [st st' I|k st st1 st' I R IH]; destruct OO as (O1 & O2); destruct (origin_step e o dim V F _ _ _ I O1 O2) as (A & B); auto.
Qed.
(** ** the default min_h: twice the mean distance to the nearest other sample, kept within [0.001, 0.1]; a given one is used as it is *)
Theorem C81_default_min_h : forall e U S V F dim h st, start e (Some U) S V F dim h None = Ok st -> / 1000 <= smin_h st <= / 10.
Proof.
  intros e U S0 V F dim h st H. unfold start in H. destruct (negb _); [discriminate|]. injection H as <-. cbn [smin_h]. set (q := 2 * mean (nn e U)). split; [apply Rmin_glb; [apply Rmax_r|lra]|apply Rmin_r].
Qed.
(** ** the line search: the time step lies between min_t and max_t, and unless min_t is binding an explicit step of that size along the negative gradient
    satisfies the Armijo condition with constant 1/100 (for the objective misfit / (2 m)) *)
Theorem C81_linesearch : forall o V dim ts, linesearch o = true -> contacts_in_range (List.length V) ts -> (0 < List.length ts)%nat ->
  let n := List.length V in let m := INR (List.length ts) in let t := timestep o n dim ts (at2 V) in
  (min_t o <= max_t o -> min_t o <= t <= max_t o)
  /\ (0 <= min_t o < t -> misfit dim ts (to_rows n dim (fun v c => at2 V v c - t * (pull V ts v c / m)))
        <= misfit dim ts V - 2 * m * (/ 100 * t * sumn n (fun v => sumn dim (fun c => (pull V ts v c / m) ^ 2)))).
Proof.
  intros o V dim ts LS RG LT n m t. assert (MP : 0 < m) by (apply lt_0_INR; auto). assert (Et : t = timestep o n dim ts (at2 V)) by reflexivity. clearbody t. unfold timestep in Et. rewrite LS in Et. cbv zeta in Et. fold m in Et.
  match type of Et with t = Rmin _ (Rmax ?x _) => set (t0 := x) in Et end.
  split.
  { intros L. rewrite Et. split; [apply Rmin_glb; [auto|apply Rmax_r]|apply Rmin_l]. }
  intros (M0 & L). assert (TT : t <= t0).
  { assert (t <= Rmax t0 (min_t o)) by (rewrite Et; apply Rmin_r). unfold Rmax in H. destruct (Rle_dec t0 (min_t o)); lra. }
  assert (T0 : 0 < t0) by lra. set (g := fun v c => pull V ts v c / m).
  set (M := List.length ts) in *. set (res := fun r c => sumn n (fun j => Amat ts r j * at2 V j c) - cmat ts r c).
  set (ag := fun r c => sumn n (fun j => Amat ts r j * g j c)).
  set (X := sumn M (fun r => sumn dim (fun c => res r c * ag r c))). set (D := sumn M (fun r => sumn dim (fun c => ag r c * ag r c))). set (N := sumn n (fun v => sumn dim (fun c => g v c ^ 2))).
  assert (NP : forall j c, (j < n)%nat -> - sumn M (fun r => Amat ts r j * (1 / m * residual n dim ts (at2 V) r c)) = - g j c).
  { intros j c Hj. unfold g. rewrite (pull_eq n) by auto. fold M. f_equal. rewrite (sumn_ext M _ (fun r => 1 / m * (Amat ts r j * (sumn n (fun j => Amat ts r j * at2 V j c) - cmat ts r c)))) by (intros; unfold residual; ring).
    rewrite sumn_scal. field. lra. }
  assert (AP : forall r c, sumn n (fun j => Amat ts r j * - sumn M (fun r0 => Amat ts r0 j * (1 / m * residual n dim ts (at2 V) r0 c))) = - ag r c).
  { intros r c. unfold ag. rewrite (sumn_ext n _ (fun j => - 1 * (Amat ts r j * g j c))) by (intros j Hj; rewrite NP by auto; ring). rewrite sumn_scal. ring. }
  assert (E0 : t0 = if Req_EM_T (D / m) 0 then 0 else (X / m - / 100 * N) / (D / m)).
  { unfold t0. 
    replace (sumn M (fun r => sumn dim (fun c => sumn n (fun j => Amat ts r j * - sumn M (fun r0 => Amat ts r0 j * (1 / m * residual n dim ts (at2 V) r0 c))) * (1 / m * sumn n (fun j => Amat ts r j * - sumn M (fun r0 => Amat ts r0 j * (1 / m * residual n dim ts (at2 V) r0 c))))))) with (D / m).
    2:{ unfold D, Rdiv. rewrite <- sumn_scal_r. apply sumn_ext. intros r _. rewrite <- sumn_scal_r. apply sumn_ext. intros c _. rewrite AP. ring. }
    replace (sumn M (fun r => sumn dim (fun c => residual n dim ts (at2 V) r c * (1 / m * sumn n (fun j => Amat ts r j * - sumn M (fun r0 => Amat ts r0 j * (1 / m * residual n dim ts (at2 V) r0 c))))))) with (- (X / m)).
    2:{ unfold X, Rdiv. rewrite <- sumn_scal_r. replace (- sumn M _) with (-1 * sumn M (fun i => sumn dim (fun c => res i c * ag i c) * / m)) by ring. rewrite <- sumn_scal. apply sumn_ext. intros r _. rewrite <- sumn_scal_r, <- sumn_scal. apply sumn_ext. intros c _. rewrite AP. unfold residual, res. ring. }
    replace (sumn n (fun j => sumn dim (fun c => (- sumn M (fun r => Amat ts r j * (1 / m * residual n dim ts (at2 V) r c))) ^ 2))) with N.
    2:{ unfold N. apply sumn_ext. intros j Hj. apply sumn_ext. intros c _. rewrite NP by auto. ring. }
    destruct (Req_EM_T (D / m) 0); [reflexivity|]. f_equal. ring. }
  assert (MV : misfit dim ts V = sumn M (fun r => sumn dim (fun c => res r c ^ 2))) by (rewrite (misfit_residual n) by auto; rewrite sumn_swap; reflexivity).
  assert (MW : misfit dim ts (to_rows n dim (fun v c => at2 V v c - t * (pull V ts v c / m))) = misfit dim ts V - 2 * t * X + t ^ 2 * D).
  { rewrite MV, (misfit_residual n) by auto. rewrite sumn_swap. fold M.
    rewrite (sumn_ext M _ (fun r => sumn dim (fun c => res r c ^ 2) + (-2 * t * sumn dim (fun c => res r c * ag r c) + t ^ 2 * sumn dim (fun c => ag r c * ag r c)))).
    - rewrite !sumn_plus, !sumn_scal. unfold X, D. ring.
    - intros r _. rewrite <- !sumn_scal, <- !sumn_plus. apply sumn_ext. intros c Hc.
      rewrite (sumn_ext n _ (fun j => Amat ts r j * at2 V j c - t * (Amat ts r j * g j c))) by (intros j Hj; rewrite at2_rows by auto; unfold g; ring). rewrite sumn_minus, sumn_scal. fold (ag r c). unfold res. ring. }
  rewrite MW. fold (g). change (sumn n (fun v => sumn dim (fun c => (pull V ts v c / m) ^ 2))) with N.
  destruct (Req_EM_T (D / m) 0) as [Z|NZ]; [lra|].
  assert (DP : 0 <= D) by (apply sumn_nonneg; intros; apply sumn_nonneg; intros; apply Rle_0_sqr).
  assert (DN : D <> 0) by (intros ->; apply NZ; field; lra). assert (EX : X = t0 * D + m * / 100 * N) by (rewrite E0; field; lra).
  rewrite EX. assert (0 <= t * D * (2 * t0 - t)) by (apply Rmult_le_pos; [apply Rmult_le_pos|]; lra). nra.
Qed.
(** a closed surface: the tetrahedron *)
Example C81_closed_example : forall e o st, fix_boundary o = true -> max_iter o = 5%Z -> its st = 0%nat -> sF st = [[0;2;1];[0;1;3];[1;2;3];[2;0;3]]%nat -> sV st <> [] -> iteration e o 3 st = Err ValueError.
Proof.
  intros e o st FB MI I0 EF NV. apply (C81_fix_boundary_closed_refuted e o 3 st [(0,2,1);(0,1,3);(1,2,3);(2,0,3)]%nat); auto. rewrite MI, I0. reflexivity.
Qed.
(** ** non-vacuity: one segment of a polygon traversed anticlockwise, sampled from above (inside) *)
Definition exV : list row := [[0; 0]; [1; 0]].
Definition exF : list (list nat) := [[0; 1]]%nat.
Definition exe : env := {| closest := fun _ _ _ => (1, 0%nat, [/ 2; / 2]); mass3 := fun _ _ => []; splu := elimination; garbage := fun _ _ => 7; singular := fun _ _ => false;
  remesh := fun V F _ _ _ => Ok (V, F); sdf := fun _ => []; sample := fun _ _ U _ => U; choice := fun _ _ _ => []; nn := fun _ => [1] |}.
Definition exo : opts := {| max_iter := 20; tol := / 100; linesearch := true; min_t := / 1000; max_t := 50; dt := 10; inside_outside_test := true; resample := 0; aggressive := true; batch_size := 0;
  fix_boundary := false; clamp := None; pseudosdf_interior := false |}.
Example C81_nonvacuous :
  reach_for_the_spheres 5 exe exo (Some [[/ 2; 1]]) (Some [-1]) exV exF 2 None None = Ok (exV, exF, [[/ 2; 1]])
  /\ exists V1, solve_step exe exo exV exF 2 (contacts exe exo exV exF [[/ 2; 1]] [-2]) = Ok V1 /\ List.length V1 = 2%nat /\ misfit 2 (contacts exe exo exV exF [[/ 2; 1]] [-2]) V1 < misfit 2 (contacts exe exo exV exF [[/ 2; 1]] [-2]) exV.
Proof.
  assert (PS : positive_step exo) by (unfold positive_step; cbn; lra).
  assert (PM : positive_mass exe exV exF 2). { apply C81_plane_mass. intros i Hi. cbn in Hi. exists 0%nat, 1%nat. split; [left; auto|lia]. }
  assert (FR : Forall (fun f => Forall (fun i => (i < List.length exV)%nat) f) exF) by (repeat constructor; cbn; lia).
  assert (AR : all_rows 2 exV) by (repeat constructor).
  assert (SQ1 : sqrt 1 = 1) by apply sqrt_1.
  assert (MX : Rmax (/ 2 * / 100) 1 = 1) by (apply Rmax_right; lra).
  split.
  - apply C81_fixed_point; auto.
    + exact elimination_ok.
    + cbn. lra.
    + discriminate.
    + cbn [combine]. apply Forall_cons; [|apply Forall_nil]. cbn [fst snd]. unfold touches. split; [|split; [|split; [|split]]].
      * unfold query_ok. cbn -[Rinv]. split; [lia|]. split; [reflexivity|]. unfold dist2, sumn, coord. cbn -[Rinv]. unfold at2. cbn -[Rinv]. field.
      * split; cbn; auto.
      * right. right. split; [lra|]. unfold facing, sumn, coord, contact_point, at2. cbn -[Rinv]. lra.
      * unfold distance. cbn -[Rinv]. rewrite SQ1. lra.
      * unfold distance. cbn -[Rinv]. rewrite SQ1. rewrite Rabs_left; lra.
  - set (ts := contacts exe exo exV exF [[/ 2; 1]] [-2]). destruct (C81_step_succeeds exe exo exV exF 2 ts elimination_ok PS PM eq_refl) as (V1 & E1). exists V1. split; [exact E1|].
    destruct (C81_descent exe exo exV exF 2 ts V1 (proj1 elimination_ok) PS ltac:(intros i Hi; apply Rlt_le; auto) ltac:(apply corr_range; auto) AR E1) as (L & _ & _ & ST). split; [exact L|].
    destruct (ST PM ltac:(cbn; lia)) as [E |X]; [|exact X]. exfalso. rewrite E in E1.
    pose proof (C81_stationary exe exo exV exF 2 ts (proj1 elimination_ok) PS ltac:(apply corr_range; auto) eq_refl E1 ltac:(cbn; lia) 0 1 ltac:(cbn; lia) ltac:(lia)) as P.
    unfold pull, ts, contacts in P. cbn [combine map sumf fst snd] in P. unfold correspond in P. cbn [closest exe] in P. cbn [tw tf tb ttarget] in P. 
    cbn [pseudosdf_interior clamp exo inside_outside_test tol] in P. rewrite SQ1, MX in P. cbn -[Rinv] in P. unfold contact_point, at2 in P. cbn -[Rinv] in P.
    destruct (Rlt_dec (/ 2) (/ 1000)); [lra|]. cbn [orb] in P. unfold sgn in P. destruct (Rlt_dec 0 _); [lra|]. match goal with N : ~ (0 < _) |- _ => apply N; lra end.
Qed.
(** ** with h given, every mesh size the flow uses lies between the smallest allowed size and h; without it the bound is 0.2 in space and 0.1 in the plane *)
Theorem C81_h_given : forall e o U S V F dim h min_h st k st', start e (Some U) S V F dim h min_h = Ok st -> runs e o dim k st st' ->
  let h0 := match h with Some x => x | None => if Nat.eqb dim 3 then / 5 else / 10 end in 0 <= smin_h st <= h0 -> smin_h st <= sh st' <= h0.
Proof.
  intros e o U S0 V F dim h mh st k st' ES R h0 B. assert (E : sh st = h0) by (unfold start in ES; destruct (negb _); [discriminate|]; injection ES as <-; reflexivity).
  destruct (C81_h_bounds _ _ _ _ _ _ R ltac:(rewrite E; auto)) as (_ & A). rewrite E in A. auto.
Qed.
(** ** a sample has weight 1 unless it says no more than that the mesh is at least that far away, and is: then it is ignored.  With pseudosdf_interior these are the samples outside (S > 0), otherwise those at the clamping value *)
Theorem C81_ignored : forall e o V F u S, let t := correspond e o V F u S in
  (tw t = 0 \/ tw t = 1) /\ (tw t = 0 <-> Rabs S < distance e V F u /\ (if pseudosdf_interior o then 0 < S else clamp o = Some (Rabs S))).
Proof.
  intros e o V F u S0. cbv zeta. unfold correspond, distance. destruct (closest e V F u) as [[d2 i] b]. cbn [tw]. cbn [fst].
  destruct (pseudosdf_interior o).
  - destruct (Rlt_dec 0 S0), (Rlt_dec (Rabs S0 - sqrt d2) 0); (split; [auto|split; intros; [try split; auto; lra|]]); try lra; destruct H; lra.
  - destruct (clamp o) as [c|]; [|split; [auto|split; [lra|intros (_ & Q); discriminate]]].
    destruct (Req_EM_T (Rabs S0) c) as [<-|NE]; [destruct (Rlt_dec (Rabs S0 - sqrt d2) 0); (split; [auto|split; intros; [try split; auto; lra|]]); try lra; destruct H; lra|].
    split; [auto|split; [lra|]]. intros (_ & Q). injection Q as Q. congruence.
Qed.
