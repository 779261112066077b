(** C64, C65: winding_number and signed_distance in 2D.  Code: WindModel.v. *)
From Coq Require Import List ZArith Arith Reals Lra Lia Psatz Permutation.
From Verif Require Import NumpyModel TopoModel PyExn Vec SubdivModel Subdiv2Proofs Subdiv3Proofs LoopsModel GeomModel SqDistModel AabbModel AabbSpec AabbTreeProofs AabbQueryProofs AabbQuery2Proofs P_Aabb WindModel WindProofs.
Import ListNotations.
Open Scope R_scope.

(** ** vocabulary *)
Definition vtx (V : list vec2) (i : Z) : vec2 := nth (Z.to_nat i) V (0, 0).
Definition good_edges (V : list vec2) (F : list (Z * Z)) : Prop := Forall (fun e => (0 <= fst e < Z.of_nat (length V))%Z /\ (0 <= snd e < Z.of_nat (length V))%Z) F.
(** every vertex is left as often as it is entered *)
Definition closed_curve (F : list (Z * Z)) : Prop := Permutation (map fst F) (map snd F).
Definition on_segment (s d o : vec2) : Prop := exists t, 0 <= t <= 1 /\ o = add2 s (scal2 t (sub2 d s)).
Definition off_curve (V : list vec2) (F : list (Z * Z)) (o : vec2) : Prop := forall e, In e F -> ~ on_segment (vtx V (fst e)) (vtx V (snd e)) o.
(** positive when o is strictly to the left of the directed line from s to d *)
Definition left_of (s d o : vec2) : R := (fst s - fst o) * (snd d - snd o) - (snd s - snd o) * (fst d - fst o).
(** signed crossing of the edge s -> d with the horizontal ray from o towards -x: +1 downwards (counterclockwise about o), -1 upwards *)
Definition crossing (o s d : vec2) : Z :=
  if Rle_dec (snd o) (snd s) then (if Rlt_dec (snd d) (snd o) then (if Rlt_dec 0 (left_of s d o) then 1 else 0) else 0)%Z
  else (if Rle_dec (snd o) (snd d) then (if Rlt_dec (left_of s d o) 0 then -1 else 0) else 0)%Z.
Definition crossings (V : list vec2) (F : list (Z * Z)) (o : vec2) : Z := fold_right Z.add 0%Z (map (fun e => crossing o (vtx V (fst e)) (vtx V (snd e))) F).

(** ** lemmas *)
Lemma vec2_eq (a b : vec2) : fst a = fst b -> snd a = snd b -> a = b.
Proof. destruct a, b; cbn; congruence. Qed.
Lemma on_origin s d : det s d = 0 -> dot2 s d <= 0 -> exists t, 0 <= t <= 1 /\ (0, 0) = add2 s (scal2 t (sub2 d s)).
Proof.
  destruct s as [a b], d as [c e]. unfold det, dot2, add2, scal2, sub2. cbn [fst snd]. intros D P.
  destruct (Req_dec ((a - c) * (a - c) + (b - e) * (b - e)) 0) as [Z|N].
  - exists 0. pose proof (Rle_0_sqr (a - c)) as Q1. pose proof (Rle_0_sqr (b - e)) as Q2. unfold Rsqr in Q1, Q2. assert (a - c = 0) as Z1 by (apply Rsqr_0_uniq; unfold Rsqr; lra). assert (b - e = 0) as Z2 by (apply Rsqr_0_uniq; unfold Rsqr; lra).
    assert (a = c) by lra. assert (b = e) by lra. subst. pose proof (Rle_0_sqr c) as Q3. pose proof (Rle_0_sqr e) as Q4. unfold Rsqr in Q3, Q4. assert (c = 0) by (apply Rsqr_0_uniq; unfold Rsqr; lra). assert (e = 0) by (apply Rsqr_0_uniq; unfold Rsqr; lra). subst. split; [lra|]. f_equal; ring.
  - set (q := (a - c) * (a - c) + (b - e) * (b - e)) in *. assert (0 < q) as Q by (unfold q in *; pose proof (Rle_0_sqr (a - c)); pose proof (Rle_0_sqr (b - e)); unfold Rsqr in *; lra).
    set (p := a * (a - c) + b * (b - e)). assert (0 <= p) by (unfold p; nra). assert (p <= q) by (unfold p, q; nra).
    exists (p / q). split; [split; [apply Rmult_le_pos; [lra|left; apply Rinv_0_lt_compat; lra]|apply Rmult_le_reg_r with q; [lra|]; replace (p / q * q) with p by (field; lra); lra]|].
    f_equal; apply (Rmult_eq_reg_r q); try lra; [replace ((a + p / q * (c - a)) * q) with (a * q + p * (c - a)) by (field; lra)|replace ((b + p / q * (e - b)) * q) with (b * q + p * (e - b)) by (field; lra)].
    + replace (a * q + p * (c - a)) with ((a * e - b * c) * (e - b)) by (unfold p, q; ring). rewrite D. ring.
    + replace (b * q + p * (e - b)) with ((a * e - b * c) * (a - c)) by (unfold p, q; ring). rewrite D. ring.
Qed.
Lemma on_seg_origin o s d : (exists t, 0 <= t <= 1 /\ (0, 0) = add2 (sub2 s o) (scal2 t (sub2 (sub2 d o) (sub2 s o)))) -> on_segment s d o.
Proof. intros (t & T & E). exists t. split; [exact T|]. unfold add2, scal2, sub2 in *. cbn [fst snd] in *. injection E. intros. apply vec2_eq; cbn; lra. Qed.
Lemma off_nz o s d : ~ on_segment s d o -> (fst (sub2 s o) <> 0 \/ snd (sub2 s o) <> 0) /\ (fst (sub2 d o) <> 0 \/ snd (sub2 d o) <> 0) /\ ~ (det (sub2 s o) (sub2 d o) = 0 /\ dot2 (sub2 s o) (sub2 d o) <= 0).
Proof.
  intro N. assert (~ (det (sub2 s o) (sub2 d o) = 0 /\ dot2 (sub2 s o) (sub2 d o) <= 0)) as M by (intros [D P]; apply N, on_seg_origin, on_origin; auto). split; [|split; [|exact M]].
  - destruct (Req_dec (fst (sub2 s o)) 0) as [Z|]; [|auto]. destruct (Req_dec (snd (sub2 s o)) 0) as [Z2|]; [|auto]. exfalso. apply M. unfold det, dot2. rewrite Z, Z2. split; lra.
  - destruct (Req_dec (fst (sub2 d o)) 0) as [Z|]; [|auto]. destruct (Req_dec (snd (sub2 d o)) 0) as [Z2|]; [|auto]. exfalso. apply M. unfold det, dot2. rewrite Z, Z2. split; lra.
Qed.
Lemma edge_angle_atan2 o s d : edge_angle o s d = - atan2 (- det (sub2 s o) (sub2 d o)) (dot2 (sub2 s o) (sub2 d o)).
Proof. unfold edge_angle, det, dot2, sub2. cbn [fst snd]. do 2 f_equal; ring. Qed.
Lemma edge_angle_pos o s d : ~ on_segment s d o -> edge_angle o s d = atan2 (det (sub2 s o) (sub2 d o)) (dot2 (sub2 s o) (sub2 d o)).
Proof.
  intro N. destruct (off_nz _ _ _ N) as (_ & _ & M). rewrite edge_angle_atan2, atan2_opp; [ring|]. destruct (Req_dec (det (sub2 s o) (sub2 d o)) 0); [|auto]. right. destruct (Rlt_dec 0 (dot2 (sub2 s o) (sub2 d o))); [assumption|]. exfalso. apply M. split; lra.
Qed.
Lemma crossing_cross0 o s d : crossing o s d = cross0 (sub2 s o) (sub2 d o).
Proof.
  unfold crossing, cross0. change (left_of s d o) with (det (sub2 s o) (sub2 d o)). change (snd (sub2 s o)) with (snd s - snd o). change (snd (sub2 d o)) with (snd d - snd o). generalize (det (sub2 s o) (sub2 d o)). intro z.
  repeat match goal with |- context [Rle_dec ?a ?b] => destruct (Rle_dec a b) | |- context [Rlt_dec ?a ?b] => destruct (Rlt_dec a b) end; try reflexivity; exfalso; lra.
Qed.
Lemma wind_eq O V F : good_edges V F -> winding_number O V F = Ok (map (fun o => suml (map (fun e => edge_angle o (vtx V (fst e)) (vtx V (snd e))) F) / (2 * PI)) O).
Proof.
  intro G. unfold good_edges in G. rewrite Forall_forall in G. unfold winding_number.
  assert (forall i, (0 <= i < Z.of_nat (length V))%Z -> getZ V i = Some (vtx V i)) as GZ. { intros i Hi. rewrite Subdiv2Proofs.getZ_ok by auto. apply nth_error_nth'. lia. }
  rewrite (mapO_ok _ (fun e => vtx V (fst e))) by (intros e He; apply GZ, G, He). rewrite (mapO_ok _ (fun e => vtx V (snd e))) by (intros e He; apply GZ, G, He). cbn [lift bind]. f_equal. apply map_ext. intro o. f_equal. f_equal.
  clear. induction F as [|e F IH]; cbn; [reflexivity|]. f_equal. exact IH.
Qed.
Lemma suml_perm l l' : Permutation l l' -> suml l = suml l'.
Proof. induction 1; cbn; lra. Qed.
Lemma suml_tele {A} (f : A -> R) (F : list (A * A)) : Permutation (map fst F) (map snd F) -> suml (map (fun e => f (snd e) - f (fst e)) F) = 0.
Proof.
  intro P. assert (forall F : list (A * A), suml (map (fun e => f (snd e) - f (fst e)) F) = suml (map f (map snd F)) - suml (map f (map fst F))) as E by (clear; induction F as [|e F IH]; cbn; [ring|rewrite IH; ring]).
  rewrite E. rewrite (suml_perm _ _ (Permutation_map f P)). ring.
Qed.
(** the total angle about o, in a rotated and scaled frame with axes n and its perpendicular *)
Definition frame (n p : vec2) : vec2 := (dot2 n p, det n p).
Definition edge_off (o s d : vec2) : Prop := ~ on_segment s d o.
Lemma frame_angle n s d : n <> (0, 0) -> atan2 (det (frame n s) (frame n d)) (dot2 (frame n s) (frame n d)) = atan2 (det s d) (dot2 s d).
Proof.
  intro N. assert (0 < dot2 n n) as P. { destruct n as [a b]. unfold dot2. cbn. destruct (Req_dec a 0); destruct (Req_dec b 0); try nra. subst. exfalso. apply N. reflexivity. }
  replace (det (frame n s) (frame n d)) with (dot2 n n * det s d) by (unfold frame, det, dot2; cbn; ring). replace (dot2 (frame n s) (frame n d)) with (dot2 n n * dot2 s d) by (unfold frame, det, dot2; cbn; ring). apply atan2_scale, P.
Qed.
Definition zsum (l : list Z) : Z := fold_right Z.add 0%Z l.
Lemma total_angle n o V F : n <> (0, 0) -> closed_curve F -> off_curve V F o ->
  suml (map (fun e => edge_angle o (vtx V (fst e)) (vtx V (snd e))) F) = 2 * PI * IZR (zsum (map (fun e => cross0 (frame n (sub2 (vtx V (fst e)) o)) (frame n (sub2 (vtx V (snd e)) o))) F)).
Proof.
  intros N C Off. pose proof (suml_tele (fun i => theta (frame n (sub2 (vtx V i) o))) F C) as T.
  assert (forall G, (forall e, In e G -> In e F) -> suml (map (fun e => edge_angle o (vtx V (fst e)) (vtx V (snd e))) G) =
    suml (map (fun e => theta (frame n (sub2 (vtx V (snd e)) o)) - theta (frame n (sub2 (vtx V (fst e)) o))) G) + 2 * PI * IZR (zsum (map (fun e => cross0 (frame n (sub2 (vtx V (fst e)) o)) (frame n (sub2 (vtx V (snd e)) o))) G))) as E.
  { induction G as [|e G IH]; intro H; [cbn; ring|]. cbn [map suml zsum fold_right]. fold (zsum (map (fun e => cross0 (frame n (sub2 (vtx V (fst e)) o)) (frame n (sub2 (vtx V (snd e)) o))) G)). rewrite plus_IZR, IH by (intros; apply H; now right).
    pose proof (Off e (H e (or_introl eq_refl))) as Oe. rewrite edge_angle_pos by exact Oe. rewrite <- (frame_angle n) by exact N. destruct (off_nz _ _ _ Oe) as (Ns & Nd & M).
    set (s := sub2 (vtx V (fst e)) o) in *. set (d := sub2 (vtx V (snd e)) o) in *.
    assert (0 < dot2 n n) as P. { clear - N. destruct n as [a b]. unfold dot2. cbn. destruct (Req_dec a 0); destruct (Req_dec b 0); try nra. subst. exfalso. apply N. reflexivity. }
    assert (forall p : vec2, fst p <> 0 \/ snd p <> 0 -> fst (frame n p) <> 0 \/ snd (frame n p) <> 0) as Fz.
    { clear - P. intros p Np. destruct (Req_dec (fst (frame n p)) 0) as [Z|]; [|auto]. destruct (Req_dec (snd (frame n p)) 0) as [Z2|]; [|auto]. exfalso. unfold frame, dot2, det in *. cbn [fst snd] in *.
      assert ((fst n * fst n + snd n * snd n) * fst p = 0) as Q1 by (transitivity (fst n * (fst n * fst p + snd n * snd p) - snd n * (fst n * snd p - snd n * fst p)); [ring|rewrite Z, Z2; ring]).
      assert ((fst n * fst n + snd n * snd n) * snd p = 0) as Q2 by (transitivity (snd n * (fst n * fst p + snd n * snd p) + fst n * (fst n * snd p - snd n * fst p)); [ring|rewrite Z, Z2; ring]).
      apply Rmult_integral in Q1. apply Rmult_integral in Q2. destruct Np; lra. }
    rewrite edge_wrap; [ring|apply Fz, Ns|apply Fz, Nd|].
    intros [A B]. apply M. replace (det (frame n s) (frame n d)) with (dot2 n n * det s d) in A by (unfold frame, det, dot2; cbn; ring). replace (dot2 (frame n s) (frame n d)) with (dot2 n n * dot2 s d) in B by (unfold frame, det, dot2; cbn; ring).
    split; [apply Rmult_integral in A; lra|nra]. }
  rewrite (E F) by auto. rewrite T. ring.
Qed.
Lemma crossings_zsum V F o : crossings V F o = zsum (map (fun e => cross0 (frame (1, 0) (sub2 (vtx V (fst e)) o)) (frame (1, 0) (sub2 (vtx V (snd e)) o))) F).
Proof.
  unfold crossings, zsum. f_equal. apply map_ext. intro e. rewrite crossing_cross0. assert (forall p : vec2, frame (1, 0) p = p) as E by (intros [a b]; unfold frame, dot2, det; cbn; f_equal; ring). rewrite !E. reflexivity.
Qed.
Lemma total_crossings o V F : closed_curve F -> off_curve V F o -> suml (map (fun e => edge_angle o (vtx V (fst e)) (vtx V (snd e))) F) / (2 * PI) = IZR (crossings V F o).
Proof.
  intros C Off. rewrite (total_angle (1, 0) o V F); [|intro E; injection E; lra|exact C|exact Off]. rewrite <- crossings_zsum. pose proof PI_RGT_0. field. lra.
Qed.

(** ** C64 *)
(** for closed curves and points off them, the number of signed crossings of a ray, hence an integer *)
Theorem C64_crossings : forall O V F, good_edges V F -> closed_curve F -> (forall o, In o O -> off_curve V F o) ->
  winding_number O V F = Ok (map (fun o => IZR (crossings V F o)) O).
Proof. intros O V F G C Off. rewrite wind_eq by exact G. f_equal. apply map_ext_in. intros o Ho. apply total_crossings; auto. Qed.
Print Assumptions C64_crossings.
(** reversing the curve (closed or not) changes the sign *)
Theorem C64_reverse : forall O V F, good_edges V F -> (forall o, In o O -> off_curve V F o) ->
  exists W, winding_number O V F = Ok W /\ winding_number O V (map (fun e => (snd e, fst e)) F) = Ok (map Ropp W).
Proof.
  intros O V F G Off. rewrite wind_eq by exact G. rewrite wind_eq. 2:{ unfold good_edges in *. rewrite Forall_forall in *. intros e He. apply in_map_iff in He as (e' & <- & He'). cbn. destruct (G e' He'). auto. }
  eexists. split; [reflexivity|]. f_equal. rewrite map_map. apply map_ext_in. intros o Ho.
  assert (forall H, (forall e, In e H -> In e F) -> suml (map (fun e => edge_angle o (vtx V (fst e)) (vtx V (snd e))) (map (fun e => (snd e, fst e)) H)) = - suml (map (fun e => edge_angle o (vtx V (fst e)) (vtx V (snd e))) H)) as E.
  { induction H as [|e H IH]; intro I; cbn [map suml fst snd]; [ring|]. rewrite IH by (intros; apply I; now right). rewrite (edge_angle_pos o (vtx V (fst e)) (vtx V (snd e))) by (apply (Off o Ho), I; now left). rewrite edge_angle_atan2.
    replace (det (sub2 (vtx V (snd e)) o) (sub2 (vtx V (fst e)) o)) with (- det (sub2 (vtx V (fst e)) o) (sub2 (vtx V (snd e)) o)) by (unfold det; ring).
    replace (dot2 (sub2 (vtx V (snd e)) o) (sub2 (vtx V (fst e)) o)) with (dot2 (sub2 (vtx V (fst e)) o) (sub2 (vtx V (snd e)) o)) by (unfold dot2; ring). rewrite Ropp_involutive. ring. }
  rewrite E by auto. unfold Rdiv. ring.
Qed.
Print Assumptions C64_reverse.
Lemma off_half n o V F : (forall e, In e F -> 0 < dot2 n (sub2 (vtx V (fst e)) o) /\ 0 < dot2 n (sub2 (vtx V (snd e)) o)) -> off_curve V F o.
Proof.
  intros H e He (t & T & E). destruct (H e He) as [A B]. assert (dot2 n (sub2 o o) = (1 - t) * dot2 n (sub2 (vtx V (fst e)) o) + t * dot2 n (sub2 (vtx V (snd e)) o)) as Q by (rewrite E at 1; unfold dot2, sub2, add2, scal2; cbn [fst snd]; ring).
  assert (dot2 n (sub2 o o) = 0) by (unfold dot2, sub2; cbn; ring). nra.
Qed.
(** a point separated from the curve by a line has winding number 0 *)
Theorem C64_outside : forall V F o n, good_edges V F -> closed_curve F ->
  (forall e, In e F -> 0 < dot2 n (sub2 (vtx V (fst e)) o) /\ 0 < dot2 n (sub2 (vtx V (snd e)) o)) -> winding_number [o] V F = Ok [0].
Proof.
  intros V F o n G C H. rewrite wind_eq by exact G. cbn [map]. f_equal. f_equal. destruct F as [|e0 F0]; [cbn; unfold Rdiv; ring|]. set (F := e0 :: F0) in *.
  assert (n <> (0, 0)) as N. { intros ->. destruct (H e0 (or_introl eq_refl)) as [A _]. unfold dot2 in A. cbn [fst snd] in A. lra. }
  rewrite (total_angle n o V F N C (off_half n o V F H)).
  assert (forall l, (forall e, In e l -> In e F) -> zsum (map (fun e => cross0 (frame n (sub2 (vtx V (fst e)) o)) (frame n (sub2 (vtx V (snd e)) o))) l) = 0%Z) as Z.
  { induction l as [|e l IH]; intro I; [reflexivity|]. cbn [map zsum fold_right]. fold (zsum (map (fun e => cross0 (frame n (sub2 (vtx V (fst e)) o)) (frame n (sub2 (vtx V (snd e)) o))) l)). rewrite IH by (intros; apply I; now right).
    destruct (H e (I e (or_introl eq_refl))) as [A B]. rewrite Z.add_0_r. generalize (frame n (sub2 (vtx V (fst e)) o)) (frame n (sub2 (vtx V (snd e)) o)) (A : 0 < fst (frame n (sub2 (vtx V (fst e)) o))) (B : 0 < fst (frame n (sub2 (vtx V (snd e)) o))).
    clear. intros [a b] [c d]. cbn [fst]. intros A B. unfold cross0, det. cbn [fst snd]. destruct (Rle_dec 0 b), (Rlt_dec d 0), (Rle_dec 0 d); try reflexivity; try lra.
    - destruct (Rlt_dec 0 (a * d - b * c)); [exfalso; nra|reflexivity].
    - destruct (Rlt_dec (a * d - b * c) 0); [exfalso; nra|reflexivity]. }
  rewrite Z by auto. unfold Rdiv. ring.
Qed.
Print Assumptions C64_outside.
(** seen from o every edge runs counterclockwise: the winding number is an integer >= 1 (<= -1 if every edge runs clockwise) *)
Lemma ccw_off V F o : (forall e, In e F -> left_of (vtx V (fst e)) (vtx V (snd e)) o <> 0) -> off_curve V F o.
Proof. intros H e He (t & T & E). apply (H e He). unfold left_of. rewrite E. unfold add2, scal2, sub2. cbn [fst snd]. ring. Qed.
Lemma angle_sign o s d : ~ on_segment s d o -> 0 < left_of s d o -> 0 < edge_angle o s d.
Proof.
  intros N L. rewrite edge_angle_pos by exact N. change (left_of s d o) with (det (sub2 s o) (sub2 d o)) in L. set (y := det _ _) in *. set (x := dot2 _ _). destruct (atan2_upper x y ltac:(right; lra)) as [U _]. specialize (U ltac:(lra)).
  destruct (Req_dec (atan2 y x) 0) as [Z|]; [|lra]. destruct (atan2_ok x y ltac:(right; lra)) as (_ & _ & E). rewrite Z, sin_0 in E. lra.
Qed.
Theorem C64_inside : forall V F o, good_edges V F -> closed_curve F -> F <> [] -> (forall e, In e F -> 0 < left_of (vtx V (fst e)) (vtx V (snd e)) o) ->
  (1 <= crossings V F o)%Z /\ winding_number [o] V F = Ok [IZR (crossings V F o)].
Proof.
  intros V F o G C NE H. assert (off_curve V F o) as Off by (apply ccw_off; intros e He; specialize (H e He); lra).
  split; [|apply C64_crossings; auto; intros o' [<-|[]]; exact Off]. pose proof (total_crossings o V F C Off) as E. pose proof PI_RGT_0.
  assert (0 < suml (map (fun e => edge_angle o (vtx V (fst e)) (vtx V (snd e))) F)) as P.
  { assert (forall l, l <> [] -> (forall e, In e l -> In e F) -> 0 < suml (map (fun e => edge_angle o (vtx V (fst e)) (vtx V (snd e))) l)) as Q; [|apply Q; auto].
    induction l as [|e l IH]; intros Nl I; [congruence|]. cbn [map suml]. assert (0 < edge_angle o (vtx V (fst e)) (vtx V (snd e))) by (apply angle_sign; [apply Off, I; now left|apply H, I; now left]).
    destruct l as [|e' l']; [cbn [map suml]; lra|]. specialize (IH ltac:(congruence) ltac:(intros; apply I; now right)). lra. }
  assert (0 < IZR (crossings V F o)) as Q by (rewrite <- E; apply Rdiv_lt_0_compat; lra). apply (lt_IZR 0) in Q. lia.
Qed.
Print Assumptions C64_inside.
(** for a counterclockwise triangle: exactly 1 inside and 0 outside *)
Definition tri_edges : list (Z * Z) := [(0, 1); (1, 2); (2, 0)]%Z.
Theorem C64_triangle : forall a b c o, 0 < left_of a b c -> 
  ((0 < left_of a b o /\ 0 < left_of b c o /\ 0 < left_of c a o) -> winding_number [o] [a; b; c] tri_edges = Ok [1]) /\
  ((left_of a b o < 0 \/ left_of b c o < 0 \/ left_of c a o < 0) -> winding_number [o] [a; b; c] tri_edges = Ok [0]).
Proof.
  intros a b c o Pos. assert (good_edges [a; b; c] tri_edges) as G by (repeat constructor; cbn; lia).
  assert (closed_curve tri_edges) as C by (unfold closed_curve, tri_edges; cbn; apply (Permutation_cons_append [1; 2]%Z 0%Z)).
  split.
  - intros (A & B & D). destruct (C64_inside [a; b; c] tri_edges o G C ltac:(discriminate)) as [Ge E]. { intros e [<-|[<-|[<-|[]]]]; cbn; auto. }
    rewrite E. do 2 f_equal. assert (crossings [a; b; c] tri_edges o <= 1)%Z as Le; [|f_equal; lia].
    assert (off_curve [a; b; c] tri_edges o) as Off by (apply ccw_off; intros e [<-|[<-|[<-|[]]]]; apply Rgt_not_eq; assumption).
    pose proof (total_crossings o [a; b; c] tri_edges C Off) as T. pose proof PI_RGT_0 as PP.
    assert (forall s d, ~ on_segment s d o -> edge_angle o s d <= PI) as Ub.
    { intros s d N. rewrite edge_angle_pos by exact N. destruct (off_nz _ _ _ N) as (_ & _ & M). apply atan2_ok. destruct (Req_dec (dot2 (sub2 s o) (sub2 d o)) 0) as [Z|]; [|auto]. right. intro Z2. apply M. split; lra. }
    pose proof (Ub a b (Off (0, 1)%Z ltac:(cbn; auto))). pose proof (Ub b c (Off (1, 2)%Z ltac:(cbn; auto))). pose proof (Ub c a (Off (2, 0)%Z ltac:(cbn; auto))).
    apply Z.lt_succ_r. apply lt_IZR. rewrite <- T. cbn [tri_edges map suml fst snd]. unfold vtx. change (Z.to_nat 0) with 0%nat. change (Z.to_nat 1) with 1%nat. change (Z.to_nat 2) with 2%nat. cbn [nth].
    apply Rmult_lt_reg_r with (2 * PI); [lra|]. unfold Rdiv. rewrite Rmult_assoc, Rinv_l by lra. change (IZR (Z.succ 1)) with 2. lra.
  - assert (forall p q r, left_of p q r = left_of a b c -> left_of p q o < 0 -> (forall e, In e tri_edges -> (In (vtx [a; b; c] (fst e)) [p; q; r] /\ In (vtx [a; b; c] (snd e)) [p; q; r])) -> winding_number [o] [a; b; c] tri_edges = Ok [0]) as W.
    { intros p q r Eq N In3. apply (C64_outside [a; b; c] tri_edges o (- (snd q - snd p), fst q - fst p) G C).
      assert (forall x, In x [p; q; r] -> 0 < dot2 (- (snd q - snd p), fst q - fst p) (sub2 x o)) as Q.
      { assert (forall x, dot2 (- (snd q - snd p), fst q - fst p) (sub2 x o) = left_of p q x - left_of p q o) as E by (intro; unfold dot2, left_of, sub2; cbn [fst snd]; ring).
        intros x [<-|[<-|[<-|[]]]]; rewrite E; [|  |rewrite Eq; lra]; replace (left_of p q p) with 0 by (unfold left_of; ring); replace (left_of p q q) with 0 by (unfold left_of; ring); lra. }
      intros e He. destruct (In3 e He). auto. }
    intros [N|[N|N]]; [apply (W a b c)|apply (W b c a)|apply (W c a b)]; auto; try (unfold left_of; ring); intros e [<-|[<-|[<-|[]]]]; cbn; auto.
Qed.
Print Assumptions C64_triangle.
Example C64_nonvacuous : 0 < left_of (0,0) (3,0) (0,3) /\ 0 < left_of (0,0) (3,0) (1,1) /\ 0 < left_of (3,0) (0,3) (1,1) /\ 0 < left_of (0,3) (0,0) (1,1) /\
  good_edges [(0,0); (3,0); (0,3)] tri_edges /\ closed_curve tri_edges.
Proof. unfold left_of. cbn [fst snd]. repeat split; try lra; [repeat constructor; cbn; lia|]. unfold closed_curve, tri_edges; cbn. apply (Permutation_cons_append [1; 2]%Z 0%Z). Qed.

(** ** C65 *)
(** the edges used: the given ones, or the closed polygon through the vertices in order *)
Definition polygon (n : nat) : list (Z * Z) := map (fun i => (Z.of_nat i, Z.of_nat ((i + 1) mod n))) (seq 0 n).
Definition edges_of (V : list vec2) (F : option (list (Z * Z))) : list (Z * Z) := match F with Some E => E | None => polygon (length V) end.
Definition not_short (V : list vec2) (E : list (Z * Z)) : Prop := forall e, In e E -> vtx V (fst e) = vtx V (snd e) \/ 1/10000000000 <= norm2 (sub2 (vtx V (snd e)) (vtx V (fst e))).
Lemma polygon_edges n : (1 <= n)%nat -> edge_indices (Z.of_nat n) true = Ok (polygon n).
Proof.
  intro H. rewrite edge_indices_closed by lia. f_equal. unfold polygon. replace (Z.to_nat (Z.of_nat n - 1)) with (n - 1)%nat by lia. replace (seq 0 n) with (seq 0 (n - 1) ++ [(n - 1)%nat]).
  2:{ replace n with (S (n - 1)) at 3 by lia. rewrite seq_S. reflexivity. }
  rewrite map_app. f_equal.
  - apply map_ext_in. intros i Hi. apply in_seq in Hi. rewrite Nat.mod_small by lia. f_equal. lia.
  - cbn [map]. replace (n - 1 + 1)%nat with n by lia. rewrite Nat.mod_same by lia. f_equal. f_equal. lia.
Qed.
Lemma polygon_closed n : closed_curve (polygon n).
Proof.
  unfold closed_curve, polygon. rewrite !map_map. cbn [fst snd]. destruct n as [|n]; [constructor|]. change (seq 0 (S n)) with (0%nat :: seq 1 n) at 1. rewrite seq_S. rewrite map_app. cbn [map].
  replace (Z.of_nat ((0 + n + 1) mod S n)) with 0%Z by (replace (0 + n + 1)%nat with (S n) by lia; rewrite Nat.mod_same by lia; reflexivity).
  replace (map (fun x => Z.of_nat ((x + 1) mod S n)) (seq 0 n)) with (map Z.of_nat (seq 1 n)); [apply Permutation_cons_append|].
  rewrite <- seq_shift, map_map. apply map_ext_in. intros i Hi. apply in_seq in Hi. rewrite Nat.mod_small by lia. f_equal. lia.
Qed.
Lemma polygon_good V : good_edges V (polygon (length V)).
Proof.
  unfold good_edges, polygon. rewrite Forall_forall. intros e He. apply in_map_iff in He as (i & <- & Hi). apply in_seq in Hi. cbn [fst snd]. pose proof (Nat.mod_upper_bound (i + 1) (length V) ltac:(lia)). lia.
Qed.
Lemma vert_edge V E k : good_edges V E -> (k < length E)%nat -> vert_of (map row2 V) (map (fun e => [fst e; snd e]) E) k = [row2 (vtx V (fst (nth k E (0,0)%Z))); row2 (vtx V (snd (nth k E (0,0)%Z)))].
Proof.
  intros G Hk. unfold vert_of. rewrite (nth_indep _ [] ((fun e => [fst e; snd e]) (0,0)%Z)) by (rewrite map_length; exact Hk). rewrite (map_nth (fun e => [fst e; snd e])). set (e := nth k E (0,0)%Z).
  unfold good_edges in G. rewrite Forall_forall in G. destruct (G e (nth_In E _ Hk)) as [A B]. cbn [map]. unfold vtx.
  rewrite (nth_indep (map row2 V) [] (row2 (0,0))) by (rewrite map_length; lia). rewrite (map_nth row2). rewrite (nth_indep (map row2 V) [] (row2 (0,0))) by (rewrite map_length; lia). rewrite (map_nth row2). reflexivity.
Qed.
Lemma combo_seg l a b x : combo 2 l [row2 a; row2 b] x -> exists p : vec2, x = row2 p /\ on_segment a b p.
Proof.
  intros (Lx & Ll & Pl & Sl & H). destruct l as [|w [|u [|? ?]]]; try discriminate. destruct x as [|x0 [|x1 [|? ?]]]; try discriminate. cbn in Sl. inversion Pl as [|? ? Pw Pl']; subst. inversion Pl' as [|? ? Pu _]; subst.
  pose proof (H 0%nat ltac:(lia)) as H0. pose proof (H 1%nat ltac:(lia)) as H1. unfold row2 in H0, H1. cbn [nth wsum] in H0, H1. exists (x0, x1). split; [reflexivity|]. exists u. split; [lra|]. unfold add2, scal2, sub2. cbn [fst snd]. replace w with (1 - u) in * by lra. apply vec2_eq; cbn [fst snd]; lra.
Qed.
Lemma seg_combo a b p : on_segment a b p -> exists l, combo 2 l [row2 a; row2 b] (row2 p).
Proof.
  intros (t & T & ->). exists [1 - t; t]. split; [reflexivity|]. split; [reflexivity|]. split; [constructor; [lra|constructor; [lra|constructor]]|]. split; [cbn; lra|].
  intros j J. destruct j as [|[|j]]; [| |lia]; unfold row2, add2, scal2, sub2; cbn [nth wsum fst snd]; ring.
Qed.
Lemma dist2_norm p q : dist2 (row2 p) (row2 q) = norm2 (sub2 p q) * norm2 (sub2 p q).
Proof. unfold norm2. rewrite sqrt_sqrt by (unfold dot2; nra). unfold dist2, row2, dot2, sub2. cbn. ring. Qed.
Lemma norm2_pos v : 0 <= norm2 v. Proof. apply sqrt_pos. Qed.
Lemma sign_abs x : x <> 0 -> Rabs (sign x) = 1.
Proof. intro N. unfold sign. destruct (Rlt_dec x 0); [rewrite Rabs_left; lra|]. destruct (Rgt_dec x 0); [apply Rabs_R1|lra]. Qed.
(** absolute value: the distance to the curve; sign: negative exactly where the winding number is positive *)
Theorem C65_signed_distance : forall argsort fuel q V F, let E := edges_of V F in is_argsort argsort -> V <> [] -> E <> [] -> good_edges V E -> closed_curve E -> not_short V E -> (2 * length E - 1 <= fuel)%nat ->
  exists r i l, signed_distance argsort fuel q V F = Ok (r, i, l) /\
    (exists e x, In e E /\ on_segment (vtx V (fst e)) (vtx V (snd e)) x /\ Rabs r = norm2 (sub2 q x)) /\
    (forall e x, In e E -> on_segment (vtx V (fst e)) (vtx V (snd e)) x -> Rabs r <= norm2 (sub2 q x)) /\
    (off_curve V E q -> ((1 <= crossings V E q)%Z -> r < 0) /\ ((crossings V E q <= 0)%Z -> 0 < r)).
Proof.
  intros s fuel q V F E A NV NE G C NS FU.
  assert (match F with Some E => Ok E | None => edge_indices (Z.of_nat (length V)) true end = Ok E) as EE by (unfold E, edges_of; destruct F; [reflexivity|apply polygon_edges; destruct V; [congruence|cbn; lia]]).
  set (F' := map (fun e : Z * Z => [fst e; snd e]) E). assert (length F' = length E) as LF by apply map_length.
  assert (valid_mesh 2 (map row2 V) F') as VM.
  { split; [lia|]. split; [destruct V; [congruence|discriminate]|]. split; [unfold F'; destruct E; [congruence|discriminate]|]. split; [rewrite Forall_forall; intros v Hv; apply in_map_iff in Hv as (v' & <- & _); reflexivity|].
    unfold F'. rewrite Forall_forall. intros f Hf. apply in_map_iff in Hf as (e & <- & He). unfold good_edges in G. rewrite Forall_forall in G. destruct (G e He). rewrite map_length. constructor; [assumption|constructor; [assumption|constructor]]. }
  assert (all_supported 2 (map row2 V) F') as SP. { intros k Hk. rewrite LF in Hk. unfold F'. rewrite vert_edge by auto. right. left. split; [auto|eauto]. }
  assert (forall e, (e < length F')%nat -> long_enough (vert_of (map row2 V) F' e)) as LE.
  { intros k Hk. rewrite LF in Hk. unfold F'. rewrite vert_edge by auto. cbn [long_enough]. destruct (NS (nth k E (0,0)%Z) (nth_In E _ Hk)) as [Q|Q]; [left; rewrite Q; reflexivity|right]. rewrite dist2_norm, sqrt_square by apply norm2_pos. exact Q. }
  destruct (C31_aabb s 2 (map row2 V) F' (row2 q) fuel A VM eq_refl SP ltac:(lia)) as (d & i & l & Ed & _).
  destruct (C31_distance_to_shape s 2 (map row2 V) F' (row2 q) fuel d i l A VM eq_refl SP ltac:(lia) LE Ed) as [(k & x & Hk & _ & Cx & Ex) Low]. rewrite LF in Hk. unfold F' in Cx. rewrite vert_edge in Cx by auto.
  destruct (combo_seg _ _ _ _ Cx) as (px & -> & Sx). rewrite dist2_norm in Ex.
  exists (sign (-2 * (suml (map (fun e => edge_angle q (vtx V (fst e)) (vtx V (snd e))) E) / (2 * PI)) + 1) * sqrt d), i, l.
  assert (sqrt d = norm2 (sub2 q px)) as Sd by (rewrite Ex; apply sqrt_square, norm2_pos).
  assert (forall e x, In e E -> on_segment (vtx V (fst e)) (vtx V (snd e)) x -> sqrt d <= norm2 (sub2 q x)) as Lo.
  { intros e x He Hx. destruct (In_nth E e (0,0)%Z He) as (k' & Hk' & <-). destruct (seg_combo _ _ _ Hx) as (ws & Cw). rewrite <- (vert_edge V E k' G Hk') in Cw. specialize (Low k' ws (row2 x) ltac:(lia) Cw). rewrite dist2_norm in Low.
    rewrite <- (sqrt_square (norm2 (sub2 q x))) by apply norm2_pos. apply sqrt_le_1_alt. exact Low. }
  set (w := suml (map (fun e => edge_angle q (vtx V (fst e)) (vtx V (snd e))) E) / (2 * PI)).
  assert (off_curve V E q -> w = IZR (crossings V E q)) as Wc by (intro Off; apply total_crossings; auto).
  assert (0 < sqrt d \/ d = 0) as Dz. { rewrite Sd. destruct (norm2_pos (sub2 q px)); [left; assumption|right; rewrite Ex, <- H; ring]. }
  assert (sqrt d = 0 \/ off_curve V E q) as Dich.
  { destruct Dz as [P|Z]; [right|left; rewrite Z; apply sqrt_0]. intros e He On. specialize (Lo e q He On). assert (norm2 (sub2 q q) = 0) by (unfold norm2; replace (dot2 _ _) with 0 by (unfold dot2, sub2; cbn; ring); apply sqrt_0). lra. }
  assert (off_curve V E q -> 0 < sqrt d) as Dpos.
  { intro Off. destruct Dz as [P|Z]; [exact P|exfalso]. apply (Off (nth k E (0,0)%Z) (nth_In E _ Hk)). rewrite Z, sqrt_0 in Sd. symmetry in Sd. apply sqrt_eq_0 in Sd; [|unfold dot2; nra]. unfold dot2, sub2 in Sd. cbn [fst snd] in Sd.
    pose proof (Rle_0_sqr (fst q - fst px)) as Q1. pose proof (Rle_0_sqr (snd q - snd px)) as Q2. unfold Rsqr in Q1, Q2. assert (fst q - fst px = 0) as Z1 by (apply Rsqr_0_uniq; unfold Rsqr; lra). assert (snd q - snd px = 0) as Z2 by (apply Rsqr_0_uniq; unfold Rsqr; lra).
    assert (q = px) as -> by (apply vec2_eq; lra). exact Sx. }
  assert (off_curve V E q -> -2 * w + 1 <> 0) as Nz.
  { intros Off Z. rewrite (Wc Off) in Z. assert (IZR (2 * crossings V E q) = IZR 1) as Q by (rewrite mult_IZR; lra). apply eq_IZR in Q. lia. }
  assert (Rabs (sign (-2 * w + 1) * sqrt d) = sqrt d) as Ab.
  { destruct Dich as [Z|Off]; [rewrite Z, Rmult_0_r; apply Rabs_R0|]. rewrite Rabs_mult, (sign_abs _ (Nz Off)), Rmult_1_l. apply Rabs_pos_eq, sqrt_pos. }
  split; [|split; [|split]].
  - unfold signed_distance. rewrite EE. cbn [bind]. fold F'. rewrite Ed. cbn [bind]. rewrite wind_eq by exact G. cbn [bind map nth]. fold w. reflexivity.
  - exists (nth k E (0,0)%Z), px. split; [apply nth_In, Hk|]. split; [exact Sx|]. rewrite Ab. exact Sd.
  - intros e x He Hx. rewrite Ab. apply (Lo e x He Hx).
  - intro Off. specialize (Dpos Off). rewrite (Wc Off). split; intro H.
    + apply IZR_le in H. unfold sign. destruct (Rlt_dec _ 0); [nra|lra].
    + apply IZR_le in H. unfold sign. destruct (Rlt_dec _ 0); [lra|]. destruct (Rgt_dec _ 0); [lra|lra].
Qed.
Print Assumptions C65_signed_distance.
(** convex counterclockwise polygons: negative for points strictly to the left of every edge, positive for points separated by a line *)
Theorem C65_counterclockwise : forall argsort fuel q V F r i l, let E := edges_of V F in is_argsort argsort -> V <> [] -> E <> [] -> good_edges V E -> closed_curve E -> not_short V E -> (2 * length E - 1 <= fuel)%nat ->
  signed_distance argsort fuel q V F = Ok (r, i, l) ->
  ((forall e, In e E -> 0 < left_of (vtx V (fst e)) (vtx V (snd e)) q) -> r < 0) /\
  ((exists n, forall e, In e E -> 0 < dot2 n (sub2 (vtx V (fst e)) q) /\ 0 < dot2 n (sub2 (vtx V (snd e)) q)) -> 0 < r).
Proof.
  intros s fuel q V F r i l E A NV NE G C NS FU EQ. destruct (C65_signed_distance s fuel q V F A NV NE G C NS FU) as (r' & i' & l' & E' & _ & _ & S). rewrite EQ in E'. injection E' as <- <- <-. fold E in S. split.
  - intro H. destruct (C64_inside V E q G C NE H) as [Ge _]. apply S; [|exact Ge]. apply ccw_off. intros e He. specialize (H e He). lra.
  - intros [n H]. apply S; [apply (off_half n); exact H|]. pose proof (C64_outside V E q n G C H) as W. rewrite C64_crossings in W; [|exact G|exact C|intros o [<-|[]]; apply (off_half n); exact H]. cbn [map] in W. injection W as W. apply eq_IZR in W. lia.
Qed.
Print Assumptions C65_counterclockwise.
(** with the clockwise order every interior point of a convex polygon is reported outside *)
Theorem C65_clockwise_refuted : forall argsort fuel q V F r i l, let E := edges_of V F in is_argsort argsort -> V <> [] -> E <> [] -> good_edges V E -> closed_curve E -> not_short V E -> (2 * length E - 1 <= fuel)%nat ->
  signed_distance argsort fuel q V F = Ok (r, i, l) -> (forall e, In e E -> left_of (vtx V (fst e)) (vtx V (snd e)) q < 0) -> 0 < r.
Proof.
  intros s fuel q V F r i l E A NV NE G C NS FU EQ H. destruct (C65_signed_distance s fuel q V F A NV NE G C NS FU) as (r' & i' & l' & E' & _ & _ & S). rewrite EQ in E'. injection E' as <- <- <-. fold E in S.
  assert (off_curve V E q) as Off by (apply ccw_off; intros e He; specialize (H e He); lra). apply S; [exact Off|].
  set (E2 := map (fun e : Z * Z => (snd e, fst e)) E). assert (good_edges V E2) as G2 by (unfold good_edges, E2 in *; rewrite Forall_forall in *; intros e He; apply in_map_iff in He as (e' & <- & He'); cbn; destruct (G e' He'); auto).
  assert (closed_curve E2) as C2. { unfold closed_curve, E2. rewrite !map_map. cbn [fst snd]. apply Permutation_sym. exact C. }
  assert (forall e, In e E2 -> 0 < left_of (vtx V (fst e)) (vtx V (snd e)) q) as H2. { intros e He. apply in_map_iff in He as (e' & <- & He'). cbn [fst snd]. specialize (H e' He'). replace (left_of (vtx V (snd e')) (vtx V (fst e')) q) with (- left_of (vtx V (fst e')) (vtx V (snd e')) q) by (unfold left_of; ring). lra. }
  destruct (C64_inside V E2 q G2 C2) as [Ge W2]; [unfold E2; destruct E; [congruence|discriminate]|exact H2|].
  destruct (C64_reverse [q] V E G) as (W & W1 & W3); [intros o [<-|[]]; exact Off|]. rewrite C64_crossings in W1; [|exact G|exact C|intros o [<-|[]]; exact Off]. injection W1 as <-. fold E2 in W3. rewrite W2 in W3. cbn [map] in W3. injection W3 as W3. rewrite <- opp_IZR in W3. apply eq_IZR in W3. lia.
Qed.
Print Assumptions C65_clockwise_refuted.
Example C65_nonvacuous : let V := [(0,0); (0,3); (3,0)] in let E := edges_of V None in E <> [] /\ good_edges V E /\ closed_curve E /\ not_short V E /\ forall e, In e E -> left_of (vtx V (fst e)) (vtx V (snd e)) (1,1) < 0.
Proof.
  cbv zeta. split; [discriminate|]. split; [apply polygon_good|]. split; [apply polygon_closed|]. split.
  - intros e He. right. assert (3 <= norm2 (sub2 (vtx [(0,0); (0,3); (3,0)] (snd e)) (vtx [(0,0); (0,3); (3,0)] (fst e)))); [|lra]. apply Rle_trans with (sqrt (3 * 3)); [rewrite sqrt_square; lra|]. apply sqrt_le_1_alt. destruct He as [<-|[<-|[<-|[]]]]; unfold dot2, sub2, vtx; cbn [fst snd];
    repeat match goal with |- context [Z.to_nat ?a] => let b := eval vm_compute in (Z.to_nat a) in change (Z.to_nat a) with b end; cbn [nth fst snd]; lra.
  - intros e [<-|[<-|[<-|[]]]]; unfold left_of, vtx; cbn [fst snd]; repeat match goal with |- context [Z.to_nat ?a] => let b := eval vm_compute in (Z.to_nat a) in change (Z.to_nat a) with b end; cbn [nth fst snd]; lra.
Qed.
