(** C85: the smoothing stage of remesh_botsch (src/cpp/remesher/tangential_relaxation.cpp) *)
From Coq Require Import Reals Lra Psatz List Arith Bool Lia FunctionalExtensionality.
From Verif Require Import Vec SplitModel RelaxModel Split3Proofs P_Split SqDistModel SqDistProofs.
Import ListNotations.
Open Scope nat_scope.

(** -- specification (polyline and on_seg of P_Split, surface of Split3Proofs: the points of a triangle mesh) -- *)
Definition dist (p q : vec3) : R := norm3 (sub3 p q).
(** number of ends of feature edges at a vertex *)
Definition degree (fe : list (nat * nat)) (v : nat) : nat := length (filter (fun r => Nat.eqb (fst r) v) fe) + length (filter (fun r => Nat.eqb (snd r) v) fe).
(** vertices that must not move: the feature vertices and the ends and junctions of feature curves *)
Definition pinned (feature : list nat) (fe : list (nat * nat)) (v : nat) : Prop := In v feature \/ (degree fe v <> 0 /\ degree fe v <> 2).
Definition on_line (feature : list nat) (fe : list (nat * nat)) (v : nat) : Prop := ~ pinned feature fe v /\ degree fe v = 2.
Definition regular (feature : list nat) (fe : list (nat * nat)) (v : nat) : Prop := ~ pinned feature fe v /\ degree fe v = 0.
Definition nearest (S : vec3 -> Prop) (p c : vec3) : Prop := S c /\ forall x, S x -> (dist p c <= dist p x)%R.
(** contract of igl::point_mesh_squared_distance *)
Definition closest_on_mesh (V0 : nat -> vec3) (F0 : nat -> nat -> nat) (m0 n : nat) (closest : (nat -> vec3) -> (nat -> vec3) -> (nat -> nat -> nat) -> nat -> vec3) : Prop :=
  forall W i, i < n -> nearest (surface V0 F0 m0) (W i) (closest W V0 F0 i).
(** [S] are the smoothed positions: row i only sees the smoothed rows before it *)
Definition seen (V S : nat -> vec3) (i : nat) : nat -> vec3 := fun j => if j <? i then S j else V j.
Definition vsum (l : list vec3) : vec3 := fold_right add3 zero3 l.

(** -- proofs -- *)
Lemma degree_feat fe v : length (feat_adj fe v) = degree fe v.
Proof. unfold feat_adj, degree. induction fe as [|(a & b) r IH]; [reflexivity|]. cbn [flat_map filter fst snd]. rewrite !app_length, IH. destruct (a =? v), (b =? v); cbn [length]; lia. Qed.
Lemma in_feat fe v w : In w (feat_adj fe v) <-> In (v, w) fe \/ In (w, v) fe.
Proof.
  unfold feat_adj. rewrite in_flat_map. split.
  - intros ((a & b) & I & J). cbn [fst snd] in J. apply in_app_or in J. destruct J as [J|J]; [destruct (Nat.eqb_spec a v)|destruct (Nat.eqb_spec b v)]; try contradiction; destruct J as [J|[]]; subst; auto.
  - intros [I|I]; [exists (v, w)|exists (w, v)]; (split; [auto|]); cbn [fst snd]; apply in_or_app; [left|right]; rewrite Nat.eqb_refl; left; auto.
Qed.
Lemma isf feature v : existsb (Nat.eqb v) feature = true <-> In v feature.
Proof. rewrite existsb_exists. split; [intros (x & I & E); apply Nat.eqb_eq in E; subst; auto|intros I; exists v; rewrite Nat.eqb_refl; auto]. Qed.
Lemma fixed_spec feature fe v : is_fixed feature fe v = true <-> pinned feature fe v.
Proof.
  unfold is_fixed, pinned. rewrite degree_feat, orb_true_iff, isf, andb_true_iff, Nat.leb_le, negb_true_iff, Nat.eqb_neq. split; intros [A|(A & B)]; auto; right; split; auto; lia.
Qed.
Lemma segment_nearest p a b : nearest (on_seg a b) p (closest_point_on_segment p a b).
Proof.
  unfold closest_point_on_segment. cbv zeta. set (ab := sub3 b a).
  assert (SEG : forall t : R, (0 <= t <= 1)%R -> on_seg a b (add3 a (scal3 t ab))) by (intros t T; exists t; split; [auto|]; apply vec3_eq; unfold ab, add3, scal3, sub3, X, Y, Zc; cbn [fst snd]; ring).
  assert (MON : forall c x, (dot3 (sub3 p c) (sub3 p c) <= dot3 (sub3 p x) (sub3 p x))%R -> (dist p c <= dist p x)%R) by (intros; unfold dist, norm3; apply sqrt_le_1_alt; auto).
  assert (EXP : forall t : R, dot3 (sub3 p (add3 a (scal3 t ab))) (sub3 p (add3 a (scal3 t ab))) = (dot3 (sub3 p a) (sub3 p a) - 2 * t * dot3 (sub3 p a) ab + t * t * dot3 ab ab)%R) by (intros; unfold dot3, add3, scal3, sub3, X, Y, Zc; cbn [fst snd]; ring).
  assert (PAR : forall x, on_seg a b x -> exists t : R, (0 <= t <= 1)%R /\ x = add3 a (scal3 t ab)) by (intros x (t & T & ->); exists t; split; [auto|]; apply vec3_eq; unfold ab, add3, scal3, sub3, X, Y, Zc; cbn [fst snd]; ring).
  assert (NN : (0 <= dot3 ab ab)%R) by (unfold dot3; nra).
  destruct (Rle_dec (dot3 ab ab) 0) as [D|D].
  - assert (Z : (dot3 ab ab = 0)%R) by lra. split.
    + exists 0%R. split; [lra|]. apply vec3_eq; unfold add3, scal3, X, Y, Zc; cbn [fst snd]; ring.
    + intros x Hx. destruct (PAR x Hx) as (t & T & ->). apply MON. rewrite EXP, Z.
      assert (ab = zero3) by (unfold dot3 in Z; apply vec3_eq; unfold zero3, X, Y, Zc in *; cbn [fst snd]; nra). rewrite H. unfold dot3, zero3, X, Y, Zc. cbn [fst snd]. lra.
  - set (t0 := (dot3 (sub3 p a) ab / dot3 ab ab)%R). assert (T0 : (t0 * dot3 ab ab = dot3 (sub3 p a) ab)%R) by (unfold t0; field; lra). clearbody t0.
    set (D2 := dot3 ab ab) in *. set (q := dot3 (sub3 p a) ab) in *. clearbody D2 q. assert (P : (0 < D2)%R) by lra.
    destruct (Rlt_dec t0 0) as [L|L].
    + destruct (Rlt_dec 1 0); [lra|]. split; [apply SEG; lra|]. intros x Hx. destruct (PAR x Hx) as (t & T & ->). apply MON. rewrite !EXP. assert (q <= 0)%R by (clear -T0 L P; nra). assert (0 <= t * - q)%R by (apply Rmult_le_pos; lra). assert (0 <= t * t * D2)%R by (apply Rmult_le_pos; nra). lra.
    + destruct (Rlt_dec 1 t0) as [G|G]; (split; [apply SEG; lra|]); intros x Hx; destruct (PAR x Hx) as (t & T & ->); apply MON; rewrite !EXP.
      * assert ((D2 < q)%R) by (clear -T0 G P; nra). assert (t * D2 <= 1 * D2)%R by (apply Rmult_le_compat_r; lra). assert (0 <= (1 - t) * (q + q - D2 - t * D2))%R by (apply Rmult_le_pos; lra). lra.
      * rewrite <- T0. assert (0 <= D2 * ((t - t0) * (t - t0)))%R by (apply Rmult_le_pos; [lra|apply Rle_0_sqr]). lra.
Qed.
Lemma polyline_nearest V0 E0 p : E0 <> [] -> nearest (polyline V0 E0) p (to_polyline V0 E0 p).
Proof.
  intros NE. unfold to_polyline.
  set (step := fun best (r : nat * nat) => let c := closest_point_on_segment p (V0 (fst r)) (V0 (snd r)) in let d := dot3 (sub3 p c) (sub3 p c) in
                     match best with Some (bd, _) => if Rlt_dec d bd then Some (d, c) else best | None => Some (d, c) end).
  assert (MON : forall c x, (dot3 (sub3 p c) (sub3 p c) <= dot3 (sub3 p x) (sub3 p x))%R -> (dist p c <= dist p x)%R) by (intros; unfold dist, norm3; apply sqrt_le_1_alt; auto).
  assert (INVM : forall c x, (dist p c <= dist p x)%R -> (dot3 (sub3 p c) (sub3 p c) <= dot3 (sub3 p x) (sub3 p x))%R).
  { intros c x. unfold dist, norm3. intros L. apply sqrt_le_0; auto; unfold dot3; nra. }
  assert (G : forall l done best, (match best with None => done = [] | Some (d, c) => d = dot3 (sub3 p c) (sub3 p c) /\ polyline V0 done c /\ forall x, polyline V0 done x -> (d <= dot3 (sub3 p x) (sub3 p x))%R end) ->
    match fold_left step l best with None => done ++ l = [] | Some (d, c) => d = dot3 (sub3 p c) (sub3 p c) /\ polyline V0 (done ++ l) c /\ forall x, polyline V0 (done ++ l) x -> (d <= dot3 (sub3 p x) (sub3 p x))%R end).
  { induction l as [|r l IH]; intros done best HB; cbn [fold_left].
    - rewrite app_nil_r. exact HB.
    - replace (done ++ r :: l) with ((done ++ [r]) ++ l) by (rewrite <- app_assoc; reflexivity). apply IH. unfold step. cbv zeta.
      set (c := closest_point_on_segment p (V0 (fst r)) (V0 (snd r))). destruct (segment_nearest p (V0 (fst r)) (V0 (snd r))) as (SC & SN). fold c in SC, SN.
      assert (PC : polyline V0 (done ++ [r]) c) by (exists (fst r), (snd r); split; [apply in_or_app; right; left; destruct r; auto|auto]).
      assert (PS : forall x, polyline V0 (done ++ [r]) x -> polyline V0 done x \/ (dot3 (sub3 p c) (sub3 p c) <= dot3 (sub3 p x) (sub3 p x))%R).
      { intros x (a & b & I & S). apply in_app_or in I. destruct I as [I|[I|[]]]; [left; exists a, b; auto|right]. subst r. apply INVM. apply SN. exact S. }
      assert (PM : forall x, polyline V0 done x -> polyline V0 (done ++ [r]) x) by (intros x (a & b & I & S); exists a, b; split; [apply in_or_app; auto|auto]).
      destruct best as [(bd, bc)|].
      + destruct HB as (E & PB & PN). destruct (Rlt_dec (dot3 (sub3 p c) (sub3 p c)) bd) as [L|L].
        * split; [auto|]. split; [auto|]. intros x Hx. destruct (PS x Hx) as [Q|Q]; [apply PN in Q; lra|auto].
        * split; [auto|]. split; [auto|]. intros x Hx. destruct (PS x Hx) as [Q|Q]; [apply PN in Q; lra|lra].
      + subst done. split; [auto|]. split; [auto|]. intros x Hx. destruct (PS x Hx) as [(a & b & [] & _)|Q]; auto. }
  specialize (G E0 [] None eq_refl). cbn [app] in G. destruct (fold_left step E0 None) as [(d, c)|]; [|contradiction]. destruct G as (E & PC & PN). split; [auto|]. intros x Hx. apply MON. rewrite <- E. apply PN. auto.
Qed.
(** in-place updates row by row *)
Lemma in_place (g : (nat -> vec3) -> nat -> vec3) V n : let S := fold_left (fun V i => set1 V i (g V i)) (seq 0 n) V in
  (forall i, i < n -> S i = g (seen V S i) i) /\ (forall i, n <= i -> S i = V i).
Proof.
  induction n as [|n IH]; [cbn; split; [intros; lia|auto]|]. cbv zeta in *. rewrite seq_S, fold_left_app. cbn [fold_left plus]. set (S := fold_left (fun V i => set1 V i (g V i)) (seq 0 n) V) in *. destruct IH as (A & B). split.
  - intros i Li. unfold set1 at 1. destruct (Nat.eqb_spec i n) as [->|NE].
    + f_equal. apply functional_extensionality. intros j. unfold seen, set1. destruct (Nat.ltb_spec j n); [destruct (Nat.eqb_spec j n); [lia|auto]|apply B; lia].
    + rewrite A by lia. f_equal. apply functional_extensionality. intros j. unfold seen, set1. destruct (Nat.ltb_spec j i); [destruct (Nat.eqb_spec j n); [lia|auto]|auto].
  - intros i Li. unfold set1. destruct (Nat.eqb_spec i n); [lia|apply B; lia].
Qed.
Lemma average_ok k (V : nat -> vec3) (l : list nat) : fold_left (fun q j => add3 q (scal3 k (V j))) l zero3 = scal3 k (vsum (map V l)).
Proof.
  assert (G : forall l q, fold_left (fun q j => add3 q (scal3 k (V j))) l q = add3 q (scal3 k (vsum (map V l)))).
  { induction l0 as [|j l0 IH]; intros q; cbn [fold_left map]; [apply vec3_eq; unfold vsum; cbn [fold_right]; unfold add3, scal3, zero3, X, Y, Zc; cbn [fst snd]; ring|]. rewrite IH. change (vsum (V j :: map V l0)) with (add3 (V j) (vsum (map V l0))). generalize (vsum (map V l0)) (V j). intros a b. apply vec3_eq; unfold add3, scal3, X, Y, Zc; cbn [fst snd]; ring. }
  rewrite G. apply vec3_eq; unfold add3, scal3, zero3, X, Y, Zc; cbn [fst snd]; ring.
Qed.
Definition rows n feature fe A Nrm V := smooth n feature fe (fun _ => 1%R) A Nrm V.

(** What one smoothing pass does (lambda is 1 in remesh_botsch): pinned vertices stay exactly where they are; a vertex on a feature curve is put midway between its two neighbours on the curve and then, with [project], to the nearest point of the original feature curves; any other vertex moves in its tangent plane towards the average of its neighbours and then to the nearest point of the reference surface. *)
Theorem C85_relax closest n m0 feature fe A Nrm V0 F0 featV0 featE0 project V : closest_on_mesh V0 F0 m0 n closest ->
  let out := tangential_relaxation closest n feature fe (fun _ => 1%R) A Nrm V0 F0 featV0 featE0 project V in
  exists S : nat -> vec3,
    (forall i, i < n -> pinned feature fe i -> S i = V i /\ out i = V i)
    /\ (forall i, i < n -> on_line feature fe i -> exists u w, (forall x, In x [u; w] <-> In (i, x) fe \/ In (x, i) fe) /\ S i = mid3 (seen V S i u) (seen V S i w)
        /\ (if project then (featE0 <> [] -> nearest (polyline featV0 featE0) (S i) (out i)) /\ (featE0 = [] -> out i = S i) else out i = S i))
    /\ (forall i, i < n -> regular feature fe i -> nearest (surface V0 F0 m0) (S i) (out i)
        /\ (norm3 (Nrm i) = 1%R -> dot3 (sub3 (S i) (V i)) (Nrm i) = 0%R
            /\ forall w, dot3 w (Nrm i) = 0%R -> dot3 (sub3 (S i) (scal3 (/ INR (length (A i))) (vsum (map (seen V S i) (A i))))) w = 0%R))
    /\ (forall i, n <= i -> out i = V i).
Proof.
  intros CM out. exists (rows n feature fe A Nrm V). set (S := rows n feature fe A Nrm V).
  destruct (in_place (smooth_row feature fe (fun _ => 1%R) A Nrm) V n) as (G1 & G2). cbv zeta in G1, G2. change (fold_left (fun V i => set1 V i (smooth_row feature fe (fun _ => 1%R) A Nrm V i)) (seq 0 n) V) with S in G1, G2.
  assert (SEL : forall i, seen V S i i = V i) by (intros i; unfold seen; rewrite Nat.ltb_irrefl; auto).
  assert (NP : forall i, ~ pinned feature fe i -> is_fixed feature fe i = false) by (intros i NPI; destruct (is_fixed feature fe i) eqn:E; [apply fixed_spec in E; contradiction|auto]).
  split; [|split; [|split]].
  - intros i Li P. apply fixed_spec in P. unfold out, tangential_relaxation. rewrite (G1 i Li). unfold smooth_row. rewrite P, SEL. apply Nat.ltb_lt in Li. rewrite Li. cbn [negb]. auto.
  - intros i Li (NPI & D2). apply NP in NPI. rewrite <- degree_feat in D2. pose proof (in_feat fe i) as IF. destruct (feat_adj fe i) as [|u [|w [|? ?]]] eqn:FA; cbn [length] in D2; try lia.
    exists u, w. split; [exact IF|]. split; [rewrite (G1 i Li); unfold smooth_row; rewrite NPI, FA; reflexivity|].
    assert (OUT : out i = if project && negb (length featE0 =? 0) then to_polyline featV0 featE0 (S i) else S i) by (unfold out, tangential_relaxation; rewrite (proj2 (Nat.ltb_lt i n) Li), NPI, FA; reflexivity).
    destruct project; [|exact OUT]. split; intros NE.
    + rewrite OUT. destruct featE0 as [|r E0]; [contradiction|]. cbn [length Nat.eqb negb andb]. apply polyline_nearest. auto.
    + rewrite OUT, NE. reflexivity.
  - intros i Li (NPI & D0). apply NP in NPI. rewrite <- degree_feat in D0.
    assert (OUT : out i = closest S V0 F0 i) by (unfold out, tangential_relaxation; rewrite (proj2 (Nat.ltb_lt i n) Li), NPI, D0; reflexivity).
    split; [rewrite OUT; apply CM; auto|]. intros N1.
    assert (SI : S i = tangential (fun _ => 1%R) A Nrm (seen V S i) i) by (rewrite (G1 i Li); unfold smooth_row; rewrite NPI, D0; reflexivity). rewrite SI. unfold tangential. rewrite average_ok, SEL.
    set (q := scal3 (/ INR (length (A i))) (vsum (map (seen V S i) (A i)))). clearbody q. set (N := Nrm i) in *. clearbody N.
    assert (NN : dot3 N N = 1%R) by (unfold norm3 in N1; rewrite <- (sqrt_sqrt (dot3 N N)) by (unfold dot3; nra); rewrite N1; ring).
    split.
    + match goal with |- ?x = _ => transitivity (- (dot3 (sub3 (V i) q) N * (1 - dot3 N N)))%R end; [unfold dot3, add3, scal3, sub3, X, Y, Zc; cbn [fst snd]; ring|rewrite NN; ring].
    + intros w Hw. match goal with |- ?x = _ => transitivity (dot3 N (sub3 (V i) q) * dot3 w N)%R end; [unfold dot3, add3, scal3, sub3, X, Y, Zc; cbn [fst snd]; ring|rewrite Hw; ring].
  - intros i Li. unfold out, tangential_relaxation. destruct (Nat.ltb_spec i n); [lia|]. reflexivity.
Qed.

(** The documentation says that vertices on feature curves "are reprojected onto the original feature polyline"; without [project] they are not: a line vertex whose neighbours are not opposite to each other as seen from it leaves the curve through them. *)
Theorem C85_no_project_refuted : exists closest n m0 feature fe A Nrm V0 F0 V, closest_on_mesh V0 F0 m0 n closest /\ on_line feature fe 1 /\
  ~ polyline V fe (tangential_relaxation closest n feature fe (fun _ => 1%R) A Nrm V0 F0 V fe false V 1).
Proof.
  set (V := fun i : nat => match i with 0 => (0, 0, 0) | 1 => (1, 0, 0) | _ => (1, 1, 0) end%R).
  exists (fun W V0 F0 i => V 0), 3, 1, [0; 2], [(0, 1); (1, 2)], (fun _ => []), (fun _ => (0, 0, 1)%R), V, (fun _ _ => 0), V.
  assert (OL : on_line [0; 2] [(0, 1); (1, 2)] 1) by (split; [|reflexivity]; intros [[?|[?|[]]]|(A & B)]; try discriminate; apply B; reflexivity).
  assert (CM : closest_on_mesh V (fun _ _ => 0) 1 3 (fun W V0 F0 i => V 0)).
  { intros W i Li. split.
    - exists 0. split; [auto|]. exists 1%R, 0%R, 0%R. split; [lra|]. split; [lra|]. split; [lra|]. split; [lra|]. apply vec3_eq; unfold V, add3, scal3, X, Y, Zc; cbn [fst snd]; ring.
    - intros x (f & Lf & k & l & m & K & L & M & E & ->). apply Req_le. f_equal. f_equal. apply vec3_eq; unfold V, add3, scal3, X, Y, Zc; cbn [fst snd]; lra. }
  split; [exact CM|]. split; [exact OL|]. intros P.
  assert (E : tangential_relaxation (fun W V0 F0 i => V 0) 3 [0; 2] [(0, 1); (1, 2)] (fun _ => 1%R) (fun _ => []) (fun _ => (0, 0, 1)%R) V (fun _ _ => 0) V [(0, 1); (1, 2)] false V 1 = (/ 2, / 2, 0)%R).
  { unfold tangential_relaxation, smooth. cbn [seq fold_left]. unfold smooth_row. cbn. unfold set1. cbn. apply vec3_eq; unfold add3, scal3, X, Y, Zc; cbn [fst snd]; lra. }
  rewrite E in P. destruct P as (a & b & I & t & T & Q). cbn in I. destruct I as [I|[I|[]]]; injection I as <- <-; unfold V, add3, scal3, X, Y, Zc in Q; cbn [fst snd] in Q; injection Q; intros; lra.
Qed.
(** the contract is met by the nearest point of a proper triangle, and the three kinds of vertices occur *)
Theorem C85_example : let V := (fun i : nat => match i with 0 => (0, 0, 0) | 1 => (1, 0, 0) | _ => (0, 1, 0) end%R) in let F := fun _ c : nat => c in
  closest_on_mesh V F 1 4 (fun W V0 F0 i => let '(_, (x, y, z)) := sqd_triangle (W i) (V0 0) (V0 1) (V0 2) in conv3 (V0 0) (V0 1) (V0 2) x y z)
  /\ pinned [] [(0, 1); (1, 2)] 0 /\ on_line [] [(0, 1); (1, 2)] 1 /\ regular [] [(0, 1); (1, 2)] 3.
Proof.
  intros V F. split; [|split; [|split]].
  - intros W i _. assert (ND : cross3 (sub3 (V 1) (V 0)) (sub3 (V 2) (V 0)) <> zero3) by (unfold V, cross3, sub3, zero3, X, Y, Zc; cbn [fst snd]; intros Q; injection Q; intros; lra).
    pose proof (sqd_triangle_ok (W i) (V 0) (V 1) (V 2) ND) as K. destruct (sqd_triangle (W i) (V 0) (V 1) (V 2)) as [q [[x y] z]]. destruct K as (K1 & K2 & K3 & K4 & K5 & K6). split.
    + exists 0. split; [auto|]. exists x, y, z. repeat split; auto.
    + intros w (f & Lf & k & l & m & HK & HL & HM & E & ->). unfold dist, norm3. apply sqrt_le_1_alt. change (d2 (W i) (conv3 (V 0%nat) (V 1%nat) (V 2%nat) x y z) <= d2 (W i) (conv3 (V 0%nat) (V 1%nat) (V 2%nat) k l m))%R. rewrite <- K5. apply K6; auto.
  - right. split; discriminate.
  - split; [|reflexivity]. intros [[]|(_ & B)]. apply B. reflexivity.
  - split; [|reflexivity]. intros [[]|(B & _)]. apply B. reflexivity.
Qed.
