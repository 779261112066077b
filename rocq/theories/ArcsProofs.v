(** Proofs about ArcsModel: geometry of the two dimensions, the sphere tree, the local search. *)
From Coq Require Import Reals List Arith Bool ZArith Lra Lia Permutation Sorted.
From Verif Require Import Vec ArcsModel.
Import ListNotations.
Open Scope R_scope.

Lemma lt_b_true x y : lt_b x y = true <-> x < y. Proof. unfold lt_b. destruct (Rlt_dec x y); split; intros; try congruence; lra. Qed.
Lemma lt_b_false x y : lt_b x y = false <-> y <= x. Proof. unfold lt_b. destruct (Rlt_dec x y); split; intros; try congruence; lra. Qed.
Lemma le_b_true x y : le_b x y = true <-> x <= y. Proof. unfold le_b. destruct (Rle_dec x y); split; intros; try congruence; lra. Qed.
Lemma le_b_false x y : le_b x y = false <-> y < x. Proof. unfold le_b. destruct (Rle_dec x y); split; intros; try congruence; lra. Qed.
Lemma eq_b_true x y : eq_b x y = true <-> x = y. Proof. unfold eq_b. destruct (Req_EM_T x y); split; intros; congruence. Qed.

(** ** what the proofs use of a dimension *)
Record laws (D : space) : Prop := {
  dot_pos : forall v, 0 <= pdot D v v;
  norm_scal : forall k v, pnorm D (pscal D k v) = Rabs k * pnorm D v;
  norm_axis : pnorm D (axis0 D) = 1;
  add_sub : forall u v, psub D (padd D u v) u = v;
  sub_add : forall u v, padd D u (psub D v u) = v;
  scal_scal : forall a b v, pscal D a (pscal D b v) = pscal D (a * b) v;
  scal_one : forall v, pscal D 1 v = v;
  back : forall p u, padd D p (pscal D (-1) (psub D p u)) = u;
  coord_sub : forall a p c, (a < dim D)%nat -> Rabs (nth a (coords D p) 0 - nth a (coords D c) 0) <= pnorm D (psub D p c);
  resolve_on : forall p c r ds, 0 <= r -> pnorm D (psub D p c) = r -> (forall d s, In (d, s) ds -> d <> c) -> pnorm D (psub D (resolve D p c r ds) c) = r }.

Lemma dot2_pos v : 0 <= dot2 v v. Proof. unfold dot2. nra. Qed.
Lemma dot3_pos v : 0 <= dot3 v v. Proof. unfold dot3. nra. Qed.
Lemma norm2_scal k v : norm2 (scal2 k v) = Rabs k * norm2 v.
Proof. unfold norm2. rewrite <- sqrt_Rsqr_abs, <- sqrt_mult by (apply Rle_0_sqr || apply dot2_pos). f_equal. unfold dot2, scal2, Rsqr. cbn [fst snd]. ring. Qed.
Lemma norm3_scal k v : norm3 (scal3 k v) = Rabs k * norm3 v.
Proof. unfold norm3. rewrite <- sqrt_Rsqr_abs, <- sqrt_mult by (apply Rle_0_sqr || apply dot3_pos). f_equal. unfold dot3, scal3, Rsqr, X, Y, Zc. cbn [fst snd]. ring. Qed.
Lemma norm2_sq v : norm2 v * norm2 v = dot2 v v. Proof. apply sqrt_sqrt, dot2_pos. Qed.
Lemma norm3_sq v : norm3 v * norm3 v = dot3 v v. Proof. apply sqrt_sqrt, dot3_pos. Qed.
Lemma norm2_pos v : 0 <= norm2 v. Proof. apply sqrt_pos. Qed.
Lemma norm3_pos v : 0 <= norm3 v. Proof. apply sqrt_pos. Qed.
Lemma norm2_is v r : 0 <= r -> dot2 v v = r * r -> norm2 v = r.
Proof. intros R E. unfold norm2. rewrite E. apply sqrt_square; auto. Qed.
Lemma norm3_is v r : 0 <= r -> dot3 v v = r * r -> norm3 v = r.
Proof. intros R E. unfold norm3. rewrite E. apply sqrt_square; auto. Qed.
Lemma vec2_eq (a b : vec2) : fst a = fst b -> snd a = snd b -> a = b.
Proof. destruct a, b. cbn. congruence. Qed.
Lemma sq0 x : x * x <= 0 -> x = 0. Proof. intros H. apply Rsqr_0_uniq. unfold Rsqr. nra. Qed.
Lemma diff2 a b : a <> b -> 0 < dot2 (sub2 a b) (sub2 a b).
Proof. intros N. destruct (dot2_pos (sub2 a b)) as [|E]; [auto|]. exfalso. apply N. unfold dot2, sub2 in E. cbn [fst snd] in E. set (x := fst a - fst b) in *. set (y := snd a - snd b) in *. assert (x = 0) by (apply sq0; nra). assert (y = 0) by (apply sq0; nra). unfold x, y in *. apply vec2_eq; lra. Qed.
Lemma diff3 a b : a <> b -> 0 < dot3 (sub3 a b) (sub3 a b).
Proof. intros N. destruct (dot3_pos (sub3 a b)) as [|E]; [auto|]. exfalso. apply N. unfold dot3, sub3, X, Y, Zc in E. cbn [fst snd] in E. set (x := fst (fst a) - fst (fst b)) in *. set (y := snd (fst a) - snd (fst b)) in *. set (z := snd a - snd b) in *. assert (x = 0) by (apply sq0; nra). assert (y = 0) by (apply sq0; nra). assert (z = 0) by (apply sq0; nra). unfold x, y, z in *. apply vec3_eq; unfold X, Y, Zc; lra. Qed.
Lemma unit2_ok v : 0 < dot2 v v -> dot2 (unit2 v) (unit2 v) = 1 /\ unit2 v = scal2 (/ norm2 v) v.
Proof.
  intros P. unfold unit2. destruct (Rlt_dec 0 (dot2 v v)); [|lra]. split; [|auto]. assert (0 < norm2 v) by (apply sqrt_lt_R0; auto).
  replace (dot2 (scal2 (/ norm2 v) v) (scal2 (/ norm2 v) v)) with (/ norm2 v * / norm2 v * dot2 v v) by (unfold dot2, scal2; cbn [fst snd]; ring). rewrite <- norm2_sq. field. lra.
Qed.
Lemma unit3_ok v : 0 < dot3 v v -> dot3 (unit3 v) (unit3 v) = 1 /\ unit3 v = scal3 (/ norm3 v) v.
Proof.
  intros P. unfold unit3. destruct (Rlt_dec 0 (dot3 v v)); [|lra]. split; [|auto]. assert (0 < norm3 v) by (apply sqrt_lt_R0; auto).
  replace (dot3 (scal3 (/ norm3 v) v) (scal3 (/ norm3 v) v)) with (/ norm3 v * / norm3 v * dot3 v v) by (unfold dot3, scal3, X, Y, Zc; cbn [fst snd]; ring). rewrite <- norm3_sq. field. lra.
Qed.
(** circles *)
Lemma circle_on c1 r1 c2 r2 i1 i2 : 0 <= r1 -> c2 <> c1 -> circle_circle_intersect c1 r1 c2 r2 = Some (i1, i2) -> forall i, i = i1 \/ i = i2 -> norm2 (sub2 i c1) = r1 /\ dot2 (sub2 i c2) (sub2 i c2) = r2 * r2.
Proof.
  intros R1 N E i I. unfold circle_circle_intersect in E. set (d := norm2 (sub2 c1 c2)) in *. set (a := _ / (2 * d)) in E.
  destruct (lt_b (r1 * r1 - a * a) 0) eqn:L; [discriminate|]. apply lt_b_false in L. injection E as E1 E2.
  assert (DP : 0 < dot2 (sub2 c2 c1) (sub2 c2 c1)) by (apply diff2; auto). assert (DD : d * d = dot2 (sub2 c2 c1) (sub2 c2 c1)) by (unfold d; rewrite norm2_sq; unfold dot2, sub2; cbn [fst snd]; ring).
  assert (d0 : 0 < d) by (assert (0 <= d) by apply norm2_pos; nra).
  set (h := sqrt (r1 * r1 - a * a)) in *. assert (HH : h * h = r1 * r1 - a * a) by (apply sqrt_sqrt; auto).
  set (v := sub2 c2 c1) in *. assert (UO : unit_orthogonal v = (- snd v / d, fst v / d)).
  { unfold unit_orthogonal. assert (P : dot2 (- snd v, fst v) (- snd v, fst v) = d * d) by (rewrite DD; unfold dot2; cbn [fst snd]; ring).
    destruct (unit2_ok (- snd v, fst v)) as (_ & ->); [rewrite P; nra|]. rewrite (norm2_is _ d) by (auto; lra). unfold scal2. cbn [fst snd]. apply vec2_eq; cbn [fst snd]; field; lra. }
  assert (XY : fst v * fst v + snd v * snd v = d * d) by (rewrite DD; reflexivity).
  assert (A2 : 2 * d * a = r1 * r1 - r2 * r2 + d * d) by (unfold a; field; lra).
  assert (G : exists e, (e = 1 \/ e = -1) /\ sub2 i c1 = add2 (scal2 (a / d) v) (scal2 (e * h / d) (- snd v, fst v))).
  { destruct I as [->| ->]; [exists 1|exists (-1)]; (split; [auto|]); rewrite <- ?E1, <- ?E2, UO; unfold sub2, add2, scal2; cbn [fst snd]; apply vec2_eq; cbn [fst snd]; field; lra. }
  destruct G as (e & EE & G).
  assert (C : i = add2 c1 (sub2 i c1)) by (unfold add2, sub2; cbn [fst snd]; apply vec2_eq; cbn [fst snd]; ring).
  assert (ee : e * e = 1) by (destruct EE; subst; ring).
  split.
  - apply norm2_is; [auto|]. rewrite G. unfold dot2, add2, scal2. cbn [fst snd]. transitivity ((a * a + e * e * (h * h)) / (d * d) * (fst v * fst v + snd v * snd v)); [field; lra|]. rewrite XY, HH, ee. field; lra.
  - assert (W : sub2 i c2 = sub2 (sub2 i c1) v) by (unfold v, sub2; cbn [fst snd]; apply vec2_eq; cbn [fst snd]; ring). rewrite W, G. unfold dot2, sub2, add2, scal2. cbn [fst snd].
    transitivity ((a * a + e * e * (h * h)) / (d * d) * (fst v * fst v + snd v * snd v) - 2 * (a / d) * (fst v * fst v + snd v * snd v) + (fst v * fst v + snd v * snd v)); [field; lra|]. rewrite XY, HH, ee.
    transitivity (r1 * r1 - 2 * d * a + d * d); [field; lra|]. rewrite A2. ring.
Qed.
Lemma towards2 c r d : 0 <= r -> d <> c -> norm2 (sub2 (add2 c (scal2 r (unit2 (sub2 d c)))) c) = r.
Proof.
  intros R N. destruct (unit2_ok (sub2 d c)) as (U & _); [apply diff2; auto|]. apply norm2_is; [auto|]. set (u := unit2 _) in *.
  transitivity (r * r * dot2 u u); [unfold dot2, sub2, add2, scal2; cbn [fst snd]; ring|]. rewrite U. ring.
Qed.
Lemma first_some_in {A B} (f : A -> option B) l y : first_some f l = Some y -> exists x, In x l /\ f x = Some y.
Proof. induction l as [|x l IH]; [discriminate|]. cbn [first_some]. destruct (f x) eqn:E; [intros [= ->]; exists x; cbn; auto|intros H; destruct (IH H) as (z & I & Z); exists z; cbn; auto]. Qed.
Lemma pick_in {P} sub dot ok (p p1 p2 q : P) : pick sub dot ok p p1 p2 = Some q -> (q = p1 \/ q = p2) /\ ok q = true.
Proof. unfold pick. destruct (ok p1) eqn:O1, (ok p2) eqn:O2; [destruct (lt_b _ _)| | |discriminate]; intros E; injection E as <-; auto. Qed.
Lemma resolve_2d_on p c r ds : 0 <= r -> norm2 (sub2 p c) = r -> (forall d s, In (d, s) ds -> d <> c) -> norm2 (sub2 (resolve_2d p c r ds) c) = r.
Proof.
  intros R NP ND. unfold resolve_2d. set (try := fun i : nat => _). destruct (first_some try (seq 0 (length ds))) as [q|] eqn:E; [|auto].
  apply first_some_in in E. destruct E as (i & Ii & E). apply in_seq in Ii. unfold try in E. destruct (nth i ds ((0, 0), 0)) as (d, s) eqn:EN.
  assert (Id : In (d, s) ds) by (rewrite <- EN; apply nth_In; lia). specialize (ND _ _ Id). destruct (circle_circle_intersect c r d s) as [(p1, p2)|] eqn:EC.
  - apply pick_in in E. destruct E as (Q & _). eapply circle_on in EC; eauto. apply EC.
  - destruct (collision _ _ _ _ _); [discriminate|]. injection E as <-. apply towards2; auto.
Qed.
(** spheres *)
Lemma towards3 c r N : 0 <= r -> dot3 N N = 1 -> norm3 (sub3 (add3 c (scal3 r N)) c) = r.
Proof. intros R U. apply norm3_is; [auto|]. transitivity (r * r * dot3 N N); [unfold dot3, sub3, add3, scal3, X, Y, Zc; cbn [fst snd]; ring|]. rewrite U. ring. Qed.
Lemma same3_true a b : same3 a b = true <-> a = b.
Proof. unfold same3. rewrite !andb_true_iff, !eq_b_true. split; [intros ((A & B) & C); apply vec3_eq; auto|intros ->; auto]. Qed.
Lemma pair_on p c r d s : 0 <= r -> d <> c -> norm3 (sub3 p c) = r -> norm3 (sub3 (sphere_sphere_intersect_closest_to_pt p c r d s) c) = r.
Proof.
  intros R N NP. unfold sphere_sphere_intersect_closest_to_pt. assert (NC : c <> d) by auto. pose proof (diff3 _ _ NC) as DC. pose proof (diff3 _ _ N) as DP. set (dd := norm3 (sub3 c d)).
  assert (D0 : 0 < dd) by (apply sqrt_lt_R0; auto). replace (le_b dd 0) with false by (symmetry; apply le_b_false; auto). cbn [andb].
  destruct (unit3_ok _ DP) as (U & _). set (u := unit3 _) in *. destruct (_ || _); [apply towards3; auto|]. set (a := _ / _). destruct (lt_b _ 0) eqn:L; [apply towards3; auto|]. apply lt_b_false in L.
  set (h := sqrt _). assert (HH : h * h = r * r - a * a) by (apply sqrt_sqrt; auto). set (mid := add3 c (scal3 a u)). set (pp := sub3 p _). destruct (same3 pp mid) eqn:S; [auto|].
  assert (NE : pp <> mid) by (intros Q; apply same3_true in Q; congruence). destruct (unit3_ok _ (diff3 _ _ NE)) as (W & WE). set (w := unit3 (sub3 pp mid)) in *.
  assert (UW : dot3 u w = 0).
  { rewrite WE. set (k := / _). transitivity (k * (dot3 u (sub3 p mid) * (1 - dot3 u u))); [unfold pp, dot3, sub3, scal3, X, Y, Zc; cbn [fst snd]; ring|]. rewrite U. ring. }
  apply norm3_is; [auto|]. transitivity (a * a * dot3 u u + h * h * dot3 w w + 2 * a * h * dot3 u w); [unfold mid, dot3, sub3, add3, scal3, X, Y, Zc; cbn [fst snd]; ring|]. rewrite U, W, UW, HH. ring.
Qed.
Lemma triple_on c r d s e t p1 p2 : 0 <= r -> sphere_sphere_sphere_intersect c r d s e t = Some (p1, p2) -> forall q, q = p1 \/ q = p2 -> norm3 (sub3 q c) = r /\ dot3 (sub3 q d) (sub3 q d) = s * s /\ dot3 (sub3 q e) (sub3 q e) = t * t.
Proof.
  intros R E q Q. unfold sphere_sphere_sphere_intersect in E. destruct (_ || _) eqn:C1; [discriminate|]. apply orb_false_iff in C1. destruct C1 as (C1 & _). apply orb_false_iff in C1. destruct C1 as (C1 & C2). apply lt_b_false in C1, C2.
  set (v := sub3 d c) in *. set (w := sub3 e c) in *. destruct (lt_b (Rabs _) epsilon) eqn:C3; [discriminate|]. apply lt_b_false in C3.
  assert (EP : 0 < epsilon) by (unfold epsilon; lra). set (b2 := norm3 v) in *. set (b3 := norm3 w) in *. assert (B2 : b2 * b2 = dot3 v v) by apply norm3_sq. assert (B3 : b3 * b3 = dot3 w w) by apply norm3_sq.
  assert (P2 : 0 < b2) by (assert (0 <= b2) by apply norm3_pos; nra). assert (P3 : 0 < b3) by (assert (0 <= b3) by apply norm3_pos; nra).
  set (i := scal3 (/ b2) v) in *. assert (II : dot3 i i = 1) by (transitivity (/ b2 * / b2 * dot3 v v); [unfold i, dot3, scal3, X, Y, Zc; cbn [fst snd]; ring|rewrite <- B2; field; lra]).
  set (b := dot3 w i) in *. set (o := sub3 w (scal3 b i)) in *.
  assert (OO : dot3 o o = b3 * b3 - b * b) by (transitivity (dot3 w w - 2 * b * dot3 w i + b * b * dot3 i i); [unfold o, dot3, sub3, scal3, X, Y, Zc; cbn [fst snd]; ring|rewrite II; fold b; rewrite B3; ring]).
  assert (OP : 0 < dot3 o o).
  { destruct (dot3_pos o) as [|Z]; [auto|]. exfalso. assert (VW : dot3 v w = b2 * b) by (unfold b, i, dot3, scal3, X, Y, Zc; cbn [fst snd]; field; lra).
    assert (BB : b3 = Rabs b) by (rewrite <- sqrt_Rsqr_abs; unfold Rsqr; replace (b * b) with (b3 * b3) by lra; rewrite sqrt_square; lra).
    rewrite VW, Rabs_mult, (Rabs_pos_eq b2) in C3 by lra. rewrite BB, Rminus_diag_eq, Rabs_R0 in C3 by ring. lra. }
  destruct (unit3_ok o OP) as (JJ & JE). set (j := unit3 o) in *. set (n := norm3 o) in *. assert (N0 : 0 < n) by (apply sqrt_lt_R0; auto).
  assert (IO : dot3 i o = 0) by (transitivity (dot3 w i - b * dot3 i i); [unfold o, dot3, sub3, scal3, X, Y, Zc; cbn [fst snd]; ring|rewrite II; fold b; ring]).
  assert (IJ : dot3 i j = 0) by (rewrite JE; transitivity (/ n * dot3 i o); [unfold dot3, scal3, X, Y, Zc; cbn [fst snd]; ring|rewrite IO; ring]).
  set (k := cross3 i j) in *. assert (KK : dot3 k k = 1) by (transitivity (dot3 i i * dot3 j j - dot3 i j * dot3 i j); [unfold k, dot3, cross3, X, Y, Zc; cbn [fst snd]; ring|rewrite II, JJ, IJ; ring]).
  assert (IK : dot3 i k = 0) by (unfold k, dot3, cross3, X, Y, Zc; cbn [fst snd]; ring). assert (JK : dot3 j k = 0) by (unfold k, dot3, cross3, X, Y, Zc; cbn [fst snd]; ring).
  assert (WJ : dot3 w j = n).
  { transitivity (b * dot3 i j + dot3 o j); [unfold o, dot3, sub3, scal3, X, Y, Zc; cbn [fst snd]; ring|]. rewrite IJ, JE. transitivity (/ n * dot3 o o); [unfold dot3, scal3, X, Y, Zc; cbn [fst snd]; ring|]. rewrite <- norm3_sq. fold n. field. lra. }
  assert (WK : dot3 w k = 0) by (transitivity (b * dot3 i k + dot3 o k); [unfold o, dot3, sub3, scal3, X, Y, Zc; cbn [fst snd]; ring|]; rewrite IK; replace (dot3 o k) with (n * dot3 j k) by (rewrite JE; unfold dot3, scal3, X, Y, Zc; cbn [fst snd]; field; lra); rewrite JK; ring).
  assert (VI : v = scal3 b2 i) by (unfold i; apply vec3_eq; unfold scal3, X, Y, Zc; cbn [fst snd]; field; lra).
  set (x := (r * r - s * s + b2 * b2) / (2 * b2)) in *. set (y := _ / (2 * dot3 w j)) in *. destruct (lt_b _ 0) eqn:L; [discriminate|]. apply lt_b_false in L. set (z := sqrt _) in *. assert (ZZ : z * z = r * r - x * x - y * y) by (apply sqrt_sqrt; auto).
  injection E as E1 E2.
  assert (G : exists g, g * g = 1 /\ sub3 q c = add3 (add3 (scal3 x i) (scal3 y j)) (scal3 (g * z) k)).
  { destruct Q as [->| ->]; [exists 1|exists (-1)]; (split; [ring|]); rewrite <- ?E1, <- ?E2; apply vec3_eq; unfold add3, sub3, scal3, X, Y, Zc; cbn [fst snd]; ring. }
  destruct G as (g & GG & G). set (f := sub3 q c) in *.
  assert (FF : dot3 f f = r * r).
  { rewrite G. transitivity (x * x * dot3 i i + y * y * dot3 j j + g * g * (z * z) * dot3 k k + 2 * x * y * dot3 i j + 2 * x * g * z * dot3 i k + 2 * y * g * z * dot3 j k); [unfold dot3, add3, scal3, X, Y, Zc; cbn [fst snd]; ring|]. rewrite II, JJ, KK, IJ, IK, JK, GG, ZZ. ring. }
  assert (FV : dot3 f v = b2 * x) by (rewrite VI, G; transitivity (b2 * (x * dot3 i i + y * dot3 i j + g * z * dot3 i k)); [unfold dot3, add3, scal3, X, Y, Zc; cbn [fst snd]; ring|]; rewrite II, IJ, IK; ring).
  assert (FW : dot3 f w = b * x + n * y) by (rewrite G; transitivity (x * dot3 w i + y * dot3 w j + g * z * dot3 w k); [unfold dot3, add3, scal3, X, Y, Zc; cbn [fst snd]; ring|]; rewrite WJ, WK; fold b; ring).
  split; [apply norm3_is; auto|]. split.
  - replace (sub3 q d) with (sub3 f v) by (apply vec3_eq; unfold f, v, sub3, X, Y, Zc; cbn [fst snd]; ring). transitivity (dot3 f f - 2 * dot3 f v + dot3 v v); [unfold dot3, sub3, X, Y, Zc; cbn [fst snd]; ring|]. rewrite FF, FV, <- B2. unfold x. field. lra.
  - replace (sub3 q e) with (sub3 f w) by (apply vec3_eq; unfold f, w, sub3, X, Y, Zc; cbn [fst snd]; ring). transitivity (dot3 f f - 2 * dot3 f w + dot3 w w); [unfold dot3, sub3, X, Y, Zc; cbn [fst snd]; ring|]. rewrite FF, FW, <- B3. unfold y. rewrite WJ. field. lra.
Qed.
Lemma resolve_3d_on p c r ds : 0 <= r -> norm3 (sub3 p c) = r -> (forall d s, In (d, s) ds -> d <> c) -> norm3 (sub3 (resolve_3d p c r ds) c) = r.
Proof.
  intros R NP ND. destruct ds as [|(d0, s0) [|x ds']]; [auto|cbn [resolve_3d]; apply pair_on; auto; apply (ND d0 s0); left; auto|]. set (ds := (d0, s0) :: x :: ds') in *. unfold resolve_3d. fold ds. change (match ds with [] => p | _ => _ end) with
   (let try ij := let '(i, j) := ij in let '(di, si) := nth i ds (zero3, 0) in let '(dj, sj) := nth j ds (zero3, 0) in
      match sphere_sphere_sphere_intersect c r di si dj sj with
      | Some (p1, p2) => pick sub3 dot3 (fun x => in_bounds (row3 x) && negb (collision sub3 dot3 ds x [i; j])) p p1 p2
      | None => let p1 := sphere_sphere_intersect_closest_to_pt p c r di si in
                if negb (collision sub3 dot3 ds p1 [i]) then Some p1 else
                let p2 := sphere_sphere_intersect_closest_to_pt p c r dj sj in
                if negb (collision sub3 dot3 ds p2 [j]) then Some p2 else None
      end in
    match first_some try (flat_map (fun i => map (fun j => (i, j)) (seq 0 i)) (seq 0 (length ds))) with Some q => q | None => p end). cbv zeta.
  destruct (first_some _ _) as [q|] eqn:E; [|auto]. apply first_some_in in E. destruct E as ((i, j) & Ii & E). apply in_flat_map in Ii. destruct Ii as (i' & Ii & Ij). apply in_map_iff in Ij. destruct Ij as (j' & [= -> ->] & Ij). apply in_seq in Ii, Ij.
  destruct (nth i ds (zero3, 0)) as (di, si) eqn:EI. destruct (nth j ds (zero3, 0)) as (dj, sj) eqn:EJ.
  assert (Idi : In (di, si) ds) by (rewrite <- EI; apply nth_In; lia). assert (Idj : In (dj, sj) ds) by (rewrite <- EJ; apply nth_In; lia).
  destruct (sphere_sphere_sphere_intersect _ _ _ _ _ _) as [(p1, p2)|] eqn:ET.
  - apply pick_in in E. eapply triple_on in ET; [apply ET|auto|apply E].
  - destruct (negb _); [injection E as <-; apply pair_on; eauto|]. destruct (negb _); [injection E as <-; apply pair_on; eauto|discriminate].
Qed.
Lemma abs_le_norm x t : 0 <= t -> x * x <= t -> Rabs x <= sqrt t.
Proof. intros T L. rewrite <- sqrt_Rsqr_abs. apply sqrt_le_1; [apply Rle_0_sqr|auto|exact L]. Qed.
Lemma laws2 : laws E2.
Proof.
  constructor; cbn [pt psub padd pscal pdot axis0 coords dim resolve E2]; unfold pnorm; cbn [pdot E2].
  - apply dot2_pos. - apply norm2_scal. - apply norm2_is; [lra|]. unfold dot2. cbn. ring.
  - intros u v. apply vec2_eq; unfold sub2, add2; cbn [fst snd]; ring. - intros u v. apply vec2_eq; unfold sub2, add2; cbn [fst snd]; ring.
  - intros a b v. apply vec2_eq; unfold scal2; cbn [fst snd]; ring. - intros v. apply vec2_eq; unfold scal2; cbn [fst snd]; ring.
  - intros p u. apply vec2_eq; unfold add2, scal2, sub2; cbn [fst snd]; ring.
  - intros a p c A. apply abs_le_norm; [apply dot2_pos|]. unfold row2, dot2, sub2. destruct a as [|[|a]]; [| |lia]; cbn [nth fst snd]; pose proof (Rle_0_sqr (fst p - fst c)); pose proof (Rle_0_sqr (snd p - snd c)); unfold Rsqr in *; lra.
  - apply resolve_2d_on.
Qed.
Lemma laws3 : laws E3.
Proof.
  constructor; cbn [pt psub padd pscal pdot axis0 coords dim resolve E3]; unfold pnorm; cbn [pdot E3].
  - apply dot3_pos. - apply norm3_scal. - apply norm3_is; [lra|]. unfold dot3, X, Y, Zc. cbn. ring.
  - intros u v. apply vec3_eq; unfold sub3, add3, X, Y, Zc; cbn [fst snd]; ring. - intros u v. apply vec3_eq; unfold sub3, add3, X, Y, Zc; cbn [fst snd]; ring.
  - intros a b v. apply vec3_eq; unfold scal3, X, Y, Zc; cbn [fst snd]; ring. - intros v. apply vec3_eq; unfold scal3, X, Y, Zc; cbn [fst snd]; ring.
  - intros p u. apply vec3_eq; unfold add3, scal3, sub3, X, Y, Zc; cbn [fst snd]; ring.
  - intros a p c A. apply abs_le_norm; [apply dot3_pos|]. unfold row3, dot3, sub3, X, Y, Zc. destruct a as [|[|[|a]]]; [| | |lia]; cbn [nth fst snd]; pose proof (Rle_0_sqr (fst (fst p) - fst (fst c))); pose proof (Rle_0_sqr (snd (fst p) - snd (fst c))); pose proof (Rle_0_sqr (snd p - snd c)); unfold Rsqr in *; lra.
  - apply resolve_3d_on.
Qed.
