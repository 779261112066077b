(** C76: the keyframes of swept_volume *)
From Coq Require Import Reals Lra Psatz List Arith Lia.
From Verif Require Import Vec PyExn NumpyModel RotModel P_Rot SweepModel.
Import ListNotations.
Open Scope R_scope.

(** ** Specification (is_rotation3 and app3 are those of C48) *)
Definition dist (a b : vec3) : R := norm3 (sub3 a b).
(** a 4x4 matrix acting on a point through homogeneous coordinates *)
Definition hom_apply (T : list (list R)) (p : vec3) : list R := map (fun row => dotl row [X p; Y p; Zc p; 1]) T.
(** difference of the neighbouring keyframes: one-sided at the ends *)
Definition delta (tr : list vec3) (i : nat) : vec3 :=
  let get k := nth k tr zero3 in let n := length tr in
  if Nat.eqb i 0 then sub3 (get 1%nat) (get 0%nat) else if Nat.eqb i (n - 1) then sub3 (get (n - 1)%nat) (get (n - 2)%nat) else sub3 (get (i + 1)%nat) (get (i - 1)%nat).

(** ** Rotations *)
Ltac ex3 := repeat match goal with v : vec3 |- _ => destruct v as [[? ?] ?] | v : mat3 |- _ => destruct v as [[? ?] ?] end; unfold app3, mmul, rowmul, col, madd, mscal, eye3, kmat, add3, sub3, scal3, dot3, cross3, X, Y, Zc in *; cbn [fst snd] in *.
Lemma dot3_nn v : 0 <= dot3 v v. Proof. destruct v as [[a b] c]. unfold dot3, X, Y, Zc. cbn [fst snd]. nra. Qed.
Lemma dot3_z v : dot3 v v = 0 -> v = zero3.
Proof. destruct v as [[a b] c]. unfold dot3, X, Y, Zc. cbn [fst snd]. intro H. assert (a = 0) by nra. assert (b = 0) by nra. assert (c = 0) by nra. subst. reflexivity. Qed.
Lemma third_row M : is_rotation3 M -> snd M = cross3 (fst (fst M)) (snd (fst M)).
Proof.
  destruct M as [[r0 r1] r2]. intros [(A & B & C & D & E & F) G]. cbn [fst snd] in *.
  assert (H : sub3 r2 (cross3 r0 r1) = zero3).
  { apply dot3_z. unfold det3 in G. cbn [fst snd] in G. assert (I : dot3 (cross3 r0 r1) (cross3 r0 r1) = dot3 r0 r0 * dot3 r1 r1 - dot3 r0 r1 * dot3 r0 r1) by (clear; ex3; ring).
    assert (J : dot3 r2 (cross3 r0 r1) = dot3 r0 (cross3 r1 r2)) by (clear; ex3; ring).
    transitivity (dot3 r2 r2 - 2 * dot3 r2 (cross3 r0 r1) + dot3 (cross3 r0 r1) (cross3 r0 r1)); [clear; ex3; ring|]. rewrite I, J, G, A, B, C, D. ring. }
  unfold sub3, zero3 in H. injection H. intros. apply vec3_eq; unfold cross3, X, Y, Zc in *; cbn [fst snd] in *; lra.
Qed.
Lemma rot_iso M x : is_rotation3 M -> dot3 (app3 M x) (app3 M x) = dot3 x x.
Proof.
  intro H. pose proof (third_row M H) as T. destruct M as [[r0 r1] r2]. destruct H as [(A & B & C & D & E & F) G]. cbn [fst snd] in *. subst r2.
  assert (I : dot3 x (cross3 r0 r1) * dot3 x (cross3 r0 r1) = dot3 x x * (dot3 r0 r0 * dot3 r1 r1 - dot3 r0 r1 * dot3 r0 r1) - dot3 x r0 * (dot3 x r0 * dot3 r1 r1 - dot3 r0 r1 * dot3 x r1) + dot3 x r1 * (dot3 x r0 * dot3 r0 r1 - dot3 x r1 * dot3 r0 r0)) by (clear; ex3; ring).
  rewrite A, B, D in I. unfold app3. cbn [fst snd]. unfold dot3 at 1, X at 1 2, Y at 1 2, Zc at 1 2. cbn [fst snd].
  assert (Q : forall r, dot3 r x = dot3 x r) by (intro; clear; ex3; ring). rewrite !Q. lra.
Qed.
Lemma rot_dot M x y : is_rotation3 M -> dot3 (app3 M x) (app3 M y) = dot3 x y.
Proof.
  intro H. pose proof (rot_iso M x H). pose proof (rot_iso M y H). pose proof (rot_iso M (add3 x y) H) as Q.
  assert (L : app3 M (add3 x y) = add3 (app3 M x) (app3 M y)) by (clear; apply vec3_eq; ex3; ring). rewrite L in Q.
  assert (P : forall u v, dot3 (add3 u v) (add3 u v) = dot3 u u + 2 * dot3 u v + dot3 v v) by (intros; clear; ex3; ring). rewrite !P in Q. lra.
Qed.
Definition tr3 (M : mat3) : mat3 := (col M 0, col M 1, col M 2).
Lemma col_app M : col M 0 = app3 M (1,0,0) /\ col M 1 = app3 M (0,1,0) /\ col M 2 = app3 M (0,0,1).
Proof. repeat split; ex3; apply vec3_eq; unfold X, Y, Zc; cbn [fst snd]; ring. Qed.
Lemma tr3_rot M : is_rotation3 M -> is_rotation3 (tr3 M).
Proof.
  intro H. split.
  - unfold orthogonal3, tr3. cbn [fst snd]. destruct (col_app M) as (-> & -> & ->). rewrite !rot_dot by exact H. unfold dot3, X, Y, Zc. cbn [fst snd]. repeat split; ring.
  - destruct H as [_ G]. rewrite <- G. unfold det3, tr3. clear. ex3. ring.
Qed.
Lemma mmul_rot M N : is_rotation3 M -> is_rotation3 N -> is_rotation3 (mmul M N).
Proof.
  intros HM HN. pose proof (tr3_rot N HN) as HT. assert (RM : forall r, rowmul r N = app3 (tr3 N) r). { intro r. clear. unfold rowmul, tr3, app3. cbn [fst snd]. ex3. apply vec3_eq; unfold X, Y, Zc; cbn [fst snd]; ring. }
  destruct HM as [O D]. split.
  - unfold orthogonal3, mmul in *. cbn [fst snd] in *. rewrite !RM. rewrite !rot_dot by exact HT. exact O.
  - transitivity (det3 M * det3 N); [unfold det3; clear; ex3; ring|]. rewrite D. destruct HN as [_ ->]. ring.
Qed.
Lemma app_mmul M N x : app3 (mmul M N) x = app3 M (app3 N x).
Proof. clear. ex3. apply vec3_eq; unfold X, Y, Zc; cbn [fst snd]; ring. Qed.
Lemma unit_nz a : dot3 a a = 1 -> a <> zero3. Proof. intros H ->. unfold dot3, zero3, X, Y, Zc in H. cbn in H. lra. Qed.
Lemma normalized_unit a : dot3 a a = 1 -> normalized3 a = a.
Proof. intro H. unfold normalized3, norm3. rewrite H, sqrt_1, Rinv_1. destruct a as [[? ?] ?]. unfold scal3, X, Y, Zc. cbn [fst snd]. apply vec3_eq; unfold X, Y, Zc; cbn [fst snd]; ring. Qed.
Lemma norm_sq v : norm3 v * norm3 v = dot3 v v. Proof. apply sqrt_sqrt, dot3_nn. Qed.
Lemma dist_le a b r : 0 <= r -> dot3 (sub3 a b) (sub3 a b) <= r * r -> dist a b <= r.
Proof. intros Hr H. unfold dist, norm3. rewrite <- (sqrt_square r Hr). apply sqrt_le_1_alt. exact H. Qed.
(** the half turn about a unit axis *)
Lemma half_turn n : dot3 n n = 1 -> is_rotation3 (madd eye3 (mscal 2 (mmul (kmat n) (kmat n)))) /\
  forall a, dot3 n a = 0 -> app3 (madd eye3 (mscal 2 (mmul (kmat n) (kmat n)))) a = scal3 (-1) a.
Proof.
  intro U. assert (E : madd eye3 (mscal 2 (mmul (kmat n) (kmat n))) = (let '(x, y, z) := n in ((1 - 2 * (y * y + z * z), 2 * (x * y), 2 * (x * z)), (2 * (x * y), 1 - 2 * (x * x + z * z), 2 * (y * z)), (2 * (x * z), 2 * (y * z), 1 - 2 * (x * x + y * y))))).
  { clear. ex3. repeat match goal with |- (_, _) = (_, _) => f_equal end; ring. }
  rewrite E. destruct n as [[x y] z]. unfold dot3, X, Y, Zc in U. cbn [fst snd] in U. assert (Z2 : z * z = 1 - x * x - y * y) by lra. split; [split|].
  - unfold orthogonal3, dot3, X, Y, Zc. cbn [fst snd].
    assert (D : forall i j (r : R), i = r + (x * x + y * y + z * z - 1) * j -> i = r) by (intros i j r Q; rewrite Q; rewrite U; ring).
    repeat split; [apply (D _ (4 * (y * y + z * z)))|apply (D _ (4 * (x * x + z * z)))|apply (D _ (4 * (x * x + y * y)))|apply (D _ (- 4 * x * y))|apply (D _ (- 4 * x * z))|apply (D _ (- 4 * y * z))]; ring.
  - unfold det3, dot3, cross3, X, Y, Zc. cbn [fst snd].
    assert (D : forall i j (r : R), i = r + (x * x + y * y + z * z - 1) * j -> i = r) by (intros i j r Q; rewrite Q; rewrite U; ring).
    apply (D _ (4 * (x * x + y * y + z * z))). ring.
  - intros [[a b] c] H. unfold dot3, X, Y, Zc in H. cbn [fst snd] in H. assert (D : forall i j k (r : R), i = r + (x * x + y * y + z * z - 1) * j + (x * a + y * b + z * c) * k -> i = r) by (intros i j k r Q; rewrite Q; rewrite U, H; ring).
    apply vec3_eq; unfold app3, scal3, dot3, X, Y, Zc; cbn [fst snd]; [apply (D _ (-2 * a) (2 * x))|apply (D _ (-2 * b) (2 * y))|apply (D _ (-2 * c) (2 * z))]; ring.
Qed.
Lemma tiny_pos : 0 < tiny. Proof. unfold tiny. lra. Qed.

(** what rot_between does to its first vector *)
Lemma rot_between_spec a b : dot3 a a = 1 -> dot3 b b = 1 ->
  is_rotation3 (rot_between a b) /\ dist (app3 (rot_between a b) a) b <= sqrt 2 * tiny /\ (tiny < norm3 (cross3 a b) -> app3 (rot_between a b) a = b).
Proof.
  intros A B. pose proof (lagrange a b A B) as L. pose proof tiny_pos as TP. unfold rot_between. rewrite (normalized_unit a A), (normalized_unit b B). cbv zeta.
  pose proof (norm_sq (cross3 a b)) as S. pose proof (dot3_nn (cross3 a b)) as NNc. set (s := norm3 (cross3 a b)) in *. assert (0 <= s) as Sp by apply sqrt_pos.
  assert (Z : forall v, dist v v <= sqrt 2 * tiny). { intro v. apply dist_le; [apply Rmult_le_pos; [apply sqrt_pos|lra]|]. replace (dot3 (sub3 v v) (sub3 v v)) with 0 by (clear; ex3; ring). apply Rle_0_sqr. }
  assert (W : s <= tiny -> forall v, dot3 (sub3 v b) (sub3 v b) <= 2 * (s * s) -> dist v b <= sqrt 2 * tiny).
  { intros Hs v Hv. apply dist_le; [apply Rmult_le_pos; [apply sqrt_pos|lra]|]. replace (sqrt 2 * tiny * (sqrt 2 * tiny)) with (sqrt 2 * sqrt 2 * (tiny * tiny)) by ring. rewrite sqrt_sqrt by lra. nra. }
  destruct (Rlt_dec tiny s) as [Hs|Hs].
  - assert (Q : is_rotation3 (rod (cross3 a b) ((1 - dot3 a b) / (s * s))) /\ app3 (rod (cross3 a b) ((1 - dot3 a b) / (s * s))) a = b).
    { set (q := s * s) in *. assert (0 < q) by (unfold q; nra). set (k := (1 - dot3 a b) / q). assert (K : k * q = 1 - dot3 a b) by (unfold k; field; lra). split.
      - apply (rod_rotation _ k (dot3 a b)); rewrite <- S; auto; [|lra]. apply (Rmult_eq_reg_r q); [|lra]. replace ((2 * k - k * k * q) * q) with (2 * (k * q) - (k * q) * (k * q)) by ring. rewrite K. lra.
      - apply rod_maps; auto. rewrite <- S. exact K. }
    change (madd (madd eye3 (kmat (cross3 a b))) (mscal ((1 - dot3 a b) / (s * s)) (mmul (kmat (cross3 a b)) (kmat (cross3 a b))))) with (rod (cross3 a b) ((1 - dot3 a b) / (s * s))).
    destruct Q as [Q1 Q2]. split; [exact Q1|]. rewrite Q2. split; [apply Z|reflexivity].
  - assert (Hs' : s <= tiny) by lra. destruct (Rlt_dec 0 (dot3 a b)) as [C|C].
    + split; [split; [unfold orthogonal3, eye3, dot3, X, Y, Zc; cbn [fst snd]; repeat split; ring|unfold det3, eye3, dot3, cross3, X, Y, Zc; cbn [fst snd]; ring]|]. split; [|lra].
      apply W; [exact Hs'|]. replace (app3 eye3 a) with a by (clear; ex3; apply vec3_eq; unfold X, Y, Zc; cbn [fst snd]; ring).
      replace (dot3 (sub3 a b) (sub3 a b)) with (dot3 a a + dot3 b b - 2 * dot3 a b) by (clear; ex3; ring). rewrite A, B. nra.
    + set (ax := if Rlt_dec (norm3 (cross3 a (1, 0, 0))) tiny then cross3 a (0, 1, 0) else cross3 a (1, 0, 0)).
      assert (NZ : ax <> zero3).
      { unfold ax. destruct (Rlt_dec (norm3 (cross3 a (1, 0, 0))) tiny) as [T|T].
        - intro Q. pose proof (norm_sq (cross3 a (1, 0, 0))) as Nq. pose proof (sqrt_pos (dot3 (cross3 a (1,0,0)) (cross3 a (1,0,0)))) as Np. fold (norm3 (cross3 a (1, 0, 0))) in Np. assert (norm3 (cross3 a (1, 0, 0)) * norm3 (cross3 a (1, 0, 0)) < 1) as Lt by (unfold tiny in *; nra).
          rewrite Nq in Lt. destruct a as [[a0 a1] a2]. unfold cross3, dot3, zero3, X, Y, Zc in *. cbn [fst snd] in *. injection Q as Q1 Q2 Q3. nra.
        - intro Q. apply T. rewrite Q. unfold norm3, zero3, dot3, X, Y, Zc. cbn [fst snd]. replace (0 * 0 + 0 * 0 + 0 * 0) with 0 by ring. rewrite sqrt_0. exact TP. }
      destruct (half_turn (normalized3 ax) (norm3_unit ax NZ)) as [H1 H2]. split; [exact H1|]. split; [|lra]. apply W; [exact Hs'|]. rewrite H2.
      * replace (dot3 (sub3 (scal3 (-1) a) b) (sub3 (scal3 (-1) a) b)) with (dot3 a a + dot3 b b + 2 * dot3 a b) by (clear; ex3; ring). rewrite A, B. nra.
      * assert (dot3 ax a = 0) as O by (unfold ax; destruct Rlt_dec; clear; ex3; ring). unfold normalized3. transitivity (/ norm3 ax * dot3 ax a); [generalize (/ norm3 ax); clear; intro; ex3; ring|]. rewrite O. ring.
Qed.
Lemma dot3_comm' a b : dot3 a b = dot3 b a. Proof. ex3. ring. Qed.
Lemma cs3 a b : dot3 a b * dot3 a b <= dot3 a a * dot3 b b.
Proof.
  assert (E : dot3 a a * dot3 b b = dot3 a b * dot3 a b + dot3 (cross3 a b) (cross3 a b)) by (ex3; ring). rewrite E. pose proof (dot3_nn (cross3 a b)). lra.
Qed.
Lemma dist_tri a b c : dist a c <= dist a b + dist b c.
Proof.
  pose proof (sqrt_pos (dot3 (sub3 a b) (sub3 a b))) as P. pose proof (sqrt_pos (dot3 (sub3 b c) (sub3 b c))) as Q. apply dist_le; [unfold dist, norm3; lra|].
  pose proof (norm_sq (sub3 a b)) as S1. pose proof (norm_sq (sub3 b c)) as S2. unfold dist. fold (norm3 (sub3 a b)) in P. fold (norm3 (sub3 b c)) in Q.
  set (u := norm3 (sub3 a b)) in *. set (w := norm3 (sub3 b c)) in *. pose proof (cs3 (sub3 a b) (sub3 b c)) as K. rewrite <- S1, <- S2 in K.
  assert (E : dot3 (sub3 a c) (sub3 a c) = dot3 (sub3 a b) (sub3 a b) + 2 * dot3 (sub3 a b) (sub3 b c) + dot3 (sub3 b c) (sub3 b c)) by (clear; ex3; ring).
  rewrite E, <- S1, <- S2. assert (dot3 (sub3 a b) (sub3 b c) <= u * w). { clearbody u w. assert (0 <= u * w) by nra. set (d := dot3 (sub3 a b) (sub3 b c)) in *. clearbody d. nra. } lra.
Qed.
Lemma dist_rot M a b : is_rotation3 M -> dist (app3 M a) (app3 M b) = dist a b.
Proof.
  intro H. unfold dist, norm3. replace (sub3 (app3 M a) (app3 M b)) with (app3 M (sub3 a b)) by (clear; ex3; apply vec3_eq; unfold X, Y, Zc; cbn [fst snd]; ring). rewrite rot_iso by exact H. reflexivity.
Qed.
(** the turn about a x b leaves its axis alone *)
Lemma rot_between_axis a b : dot3 a a = 1 -> dot3 b b = 1 -> tiny < norm3 (cross3 a b) -> app3 (rot_between a b) (cross3 a b) = cross3 a b.
Proof.
  intros A B H. unfold rot_between. rewrite (normalized_unit a A), (normalized_unit b B). cbv zeta. destruct (Rlt_dec tiny (norm3 (cross3 a b))); [|contradiction].
  generalize ((1 - dot3 a b) / (norm3 (cross3 a b) * norm3 (cross3 a b))). intro k. generalize (cross3 a b). clear. intro v. ex3. apply vec3_eq; unfold X, Y, Zc; cbn [fst snd]; ring.
Qed.
(** the same rotation carries from one direction to the next, about their common perpendicular *)
Definition transports (Q : mat3) (a b : vec3) : Prop := is_rotation3 Q /\ dist (app3 Q a) b <= sqrt 2 * / 100000000 /\ (/ 100000000 < norm3 (cross3 a b) -> app3 Q a = b /\ app3 Q (cross3 a b) = cross3 a b).
Lemma rot_between_transports a b : dot3 a a = 1 -> dot3 b b = 1 -> transports (rot_between a b) a b.
Proof. intros A B. destruct (rot_between_spec a b A B) as (P & Q & S). split; [exact P|]. split; [exact Q|]. intro H. split; [apply S, H|apply rot_between_axis; auto]. Qed.

Lemma mapM_ok {A B} (f : A -> res B) (g : A -> B) l : (forall x, In x l -> f x = Ok (g x)) -> mapM f l = Ok (map g l).
Proof. induction l as [|x l IH]; intro H; [reflexivity|]. cbn. rewrite (H x) by (left; reflexivity). cbn. rewrite IH by (intros; apply H; right; assumption). reflexivity. Qed.
Lemma norm3_0 v : norm3 v = 0 -> v = zero3. Proof. intro H. apply dot3_z. rewrite <- norm_sq, H. ring. Qed.
Lemma velocity_ok tr i : (2 <= length tr)%nat -> (i < length tr)%nat -> delta tr i <> zero3 -> velocity tr i = Ok (normalized3 (delta tr i)).
Proof.
  intros H2 Hi HD. assert (G : forall k, (k < length tr)%nat -> nth_error tr k = Some (nth k tr zero3)) by (intros; apply nth_error_nth'; assumption).
  assert (HN : norm3 (delta tr i) <> 0) by (intro Q; apply HD, norm3_0, Q). unfold velocity, delta in *.
  destruct (Nat.eqb_spec i 0); [rewrite !G by lia; cbn [lift bind]; destruct Req_EM_T; [contradiction|reflexivity]|].
  destruct (Nat.eqb_spec i (length tr - 1)); rewrite !G by lia; cbn [lift bind]; (destruct Req_EM_T; [contradiction|reflexivity]).
Qed.
Lemma chain_length vs : forall R0 v0, length (chain R0 v0 vs) = S (length vs). Proof. induction vs as [|v vs IH]; intros; [reflexivity|]. cbn [chain length]. rewrite IH. reflexivity. Qed.
Lemma chain_0 vs R0 v0 : nth_error (chain R0 v0 vs) 0 = Some R0. Proof. destruct vs; reflexivity. Qed.
Lemma chain_S vs : forall R0 v0 i M, (S i < S (length vs))%nat -> nth_error (chain R0 v0 vs) i = Some M ->
  nth_error (chain R0 v0 vs) (S i) = Some (mmul (rot_between (nth i (v0 :: vs) zero3) (nth (S i) (v0 :: vs) zero3)) M).
Proof.
  induction vs as [|v vs IH]; intros R0 v0 i M Hi HM; [cbn in Hi; lia|]. destruct i as [|i].
  - cbn [chain nth_error] in HM. injection HM as <-. exact (chain_0 vs (mmul (rot_between v0 v) R0) v).
  - cbn [length] in Hi. apply (IH (mmul (rot_between v0 v) R0) v i M); [lia|exact HM].
Qed.

(** ** C76: every keyframe is turned to face along the path, by parallel transport *)
Theorem C76_alignment : forall tr, (2 <= length tr)%nat -> (forall i, (i < length tr)%nat -> delta tr i <> zero3) ->
  exists rots, velocity_alignment_rotations tr = Ok rots /\ length rots = length tr /\
    (* consecutive frames differ by the turn that carries one direction of travel to the next, without twist *)
    (exists M0, nth_error rots 0 = Some M0 /\ transports M0 (1, 0, 0) (normalized3 (delta tr 0))) /\
    (forall i M M', nth_error rots i = Some M -> nth_error rots (S i) = Some M' ->
       exists Q, transports Q (normalized3 (delta tr i)) (normalized3 (delta tr (S i))) /\ forall x, app3 M' x = app3 Q (app3 M x)) /\
    (* so every frame is a rotation facing the direction of travel, up to the tolerance of the code *)
    (forall i M, nth_error rots i = Some M -> is_rotation3 M /\ dist (app3 M (1, 0, 0)) (normalized3 (delta tr i)) <= INR (S i) * (sqrt 2 * / 100000000) /\
       ((forall j, (j <= i)%nat -> / 100000000 < norm3 (cross3 (match j with O => (1, 0, 0) | S j => normalized3 (delta tr j) end) (normalized3 (delta tr j)))) ->
        app3 M (1, 0, 0) = normalized3 (delta tr i))).
Proof.
  intros tr H2 HD. set (g := fun i => normalized3 (delta tr i)). assert (U : forall i, (i < length tr)%nat -> dot3 (g i) (g i) = 1) by (intros; apply norm3_unit, HD; assumption).
  assert (EX : dot3 (1, 0, 0) (1, 0, 0) = 1) by (unfold dot3, X, Y, Zc; cbn [fst snd]; ring).
  destruct (length tr) as [|m] eqn:Em; [lia|].
  assert (E : velocity_alignment_rotations tr = Ok (chain (rot_between (1, 0, 0) (g 0%nat)) (g 0%nat) (map g (seq 1 m)))).
  { unfold velocity_alignment_rotations. rewrite (mapM_ok _ g); [rewrite Em; reflexivity|]. intros i Hi. apply in_seq in Hi. rewrite Em in Hi. apply velocity_ok; [lia|lia|apply HD; lia]. }
  set (vs := map g (seq 1 m)) in *. assert (Lv : length vs = m) by (unfold vs; rewrite map_length, seq_length; reflexivity).
  assert (NV : forall i, (i < S m)%nat -> nth i (g 0%nat :: vs) zero3 = g i).
  { intros i Hi. change (g 0%nat :: vs) with (map g (seq 0 (S m))). rewrite (nth_indep _ zero3 (g 0%nat)) by (rewrite map_length, seq_length; exact Hi). rewrite map_nth, seq_nth by exact Hi. reflexivity. }
  set (rots := chain (rot_between (1, 0, 0) (g 0%nat)) (g 0%nat) vs) in *. assert (Lr : length rots = S m) by (unfold rots; rewrite chain_length, Lv; reflexivity).
  assert (R0 : nth_error rots 0 = Some (rot_between (1, 0, 0) (g 0%nat))) by apply chain_0.
  assert (T0 : transports (rot_between (1, 0, 0) (g 0%nat)) (1, 0, 0) (g 0%nat)) by (apply rot_between_transports; [exact EX|apply U; lia]).
  assert (RS : forall i M M', nth_error rots i = Some M -> nth_error rots (S i) = Some M' -> (S i < S m)%nat /\ M' = mmul (rot_between (g i) (g (S i))) M).
  { intros i M M' HM HM'. assert (Hi : (S i < S m)%nat) by (rewrite <- Lr; apply nth_error_Some; rewrite HM'; discriminate). split; [exact Hi|].
    pose proof (chain_S vs (rot_between (1, 0, 0) (g 0%nat)) (g 0%nat) i M) as Q. rewrite Lv, !NV in Q by lia. fold rots in Q. rewrite HM' in Q. specialize (Q Hi HM). injection Q as Q. exact Q. }
  exists rots. split; [exact E|]. split; [exact Lr|]. split; [exists (rot_between (1, 0, 0) (g 0%nat)); split; [exact R0|exact T0]|]. split.
  - intros i M M' HM HM'. destruct (RS i M M' HM HM') as [Hi ->]. exists (rot_between (g i) (g (S i))). split; [apply rot_between_transports; apply U; lia|intro; apply app_mmul].
  - induction i as [|i IH]; intros M HM.
    + rewrite R0 in HM. injection HM as <-. destruct T0 as (P & Q & S0). split; [exact P|]. split; [cbn [INR]; rewrite Rmult_1_l; exact Q|]. intro H. apply S0. apply (H 0%nat). lia.
    + assert (Hi : (S i < S m)%nat) by (rewrite <- Lr; apply nth_error_Some; rewrite HM; discriminate).
      destruct (nth_error rots i) as [M'|] eqn:HM'; [|apply nth_error_None in HM'; lia]. destruct (RS i M' M HM' HM) as [_ ->]. destruct (IH M' eq_refl) as (P & Q & S0).
      destruct (rot_between_transports (g i) (g (S i)) (U i ltac:(lia)) (U (S i) Hi)) as (P' & Q' & S'). split; [apply mmul_rot; assumption|]. rewrite app_mmul. split.
      * eapply Rle_trans; [apply (dist_tri _ (app3 (rot_between (g i) (g (S i))) (g i)))|]. rewrite dist_rot by exact P'. rewrite S_INR, Rmult_plus_distr_r, Rmult_1_l. apply Rplus_le_compat; [exact Q|exact Q'].
      * intro H. rewrite S0 by (intros j Hj; apply H; lia). apply S'. apply (H (S i)). lia.
Qed.

Lemma mapM_nth {A B} (f : A -> res B) l : forall ys, mapM f l = Ok ys -> length ys = length l /\ forall k x, nth_error l k = Some x -> exists y, nth_error ys k = Some y /\ f x = Ok y.
Proof.
  induction l as [|x l IH]; intros ys H; cbn in H; [injection H as <-; split; [reflexivity|intros [|k] y Q; discriminate]|].
  destruct (f x) as [y|] eqn:E; [|discriminate]. cbn in H. destruct (mapM f l) as [zs|] eqn:El; [|discriminate]. injection H as <-. destruct (IH zs eq_refl) as [IH1 IH2]. split; [cbn; rewrite IH1; reflexivity|].
  intros [|k] z Q; [injection Q as <-; exists y; split; [reflexivity|exact E]|]. apply IH2. exact Q.
Qed.
Lemma combine_seq_nth_error {A} (l : list A) : forall a k, nth_error (combine (seq a (length l)) l) k = match nth_error l k with Some x => Some ((a + k)%nat, x) | None => None end.
Proof. induction l as [|x l IH]; intros a [|k]; cbn; auto; [rewrite Nat.add_0_r; reflexivity|]. rewrite IH. destruct (nth_error l k); [|reflexivity]. f_equal. f_equal. lia. Qed.
(** what a keyframe should be: the homogeneous matrix of p |-> s M p + t *)
Definition is_similarity (T : list (list R)) (s : R) (M : mat3) (t : vec3) : Prop :=
  length T = 4%nat /\ forall p, hom_apply T p = [s * X (app3 M p) + X t; s * Y (app3 M p) + Y t; s * Zc (app3 M p) + Zc t; 1].
Lemma homogeneous_sim s M t : is_similarity (homogeneous (mscal s M) t) s M t.
Proof. split; [reflexivity|]. intro p. unfold hom_apply, homogeneous, dotl. cbn. ex3. repeat (f_equal; try ring). Qed.
Lemma mscal_1 M : mscal 1 M = M. Proof. ex3. rewrite !Rmult_1_l. reflexivity. Qed.

(** ** C76: the keyframes handed to the sweep *)
(** which rotation and which scale keyframe k should use *)
Definition keyframe_rotation (rotations : option (list mat3)) (align : bool) (tr : list vec3) (k : nat) (M : mat3) : Prop :=
  match rotations with
  | Some rs => nth_error rs k = Some M
  | None => if align then exists vr, velocity_alignment_rotations tr = Ok vr /\ nth_error vr k = Some M else M = eye3
  end.
Definition keyframe_scale (scales : option (list R)) (k : nat) (s : R) : Prop := match scales with Some sc => nth_error sc k = Some s | None => s = 1 end.
Lemma concat_blocks {A} (ls : list (list A)) m : (forall l, In l ls -> length l = m) -> forall k l, nth_error ls k = Some l -> firstn m (skipn (m * k) (concat ls)) = l.
Proof.
  induction ls as [|l0 ls IH]; intros H k l Hk; [destruct k; discriminate|]. assert (L0 : length l0 = m) by (apply H; left; reflexivity). destruct k as [|k].
  - injection Hk as ->. rewrite Nat.mul_0_r. cbn [skipn concat]. rewrite firstn_app, L0, Nat.sub_diag, firstn_O, app_nil_r. rewrite <- L0. apply firstn_all.
  - cbn [concat]. rewrite skipn_app, skipn_all2 by nia. cbn [app]. replace (m * S k - length l0)%nat with (m * k)%nat by nia. apply IH; [intros; apply H; right; assumption|exact Hk].
Qed.
Theorem C76_keyframes : forall (mesh : Type) (cpp : list (list R) -> mesh) decimate transformations rotations tr scales align num_faces m,
  swept_volume cpp decimate transformations rotations (Some tr) scales align num_faces = Ok m ->
  exists stack, m = match num_faces with Some k => decimate (cpp stack) k | None => cpp stack end /\ length stack = (4 * length tr)%nat /\ tr <> [] /\
    forall k t, nth_error tr k = Some t -> exists s M, keyframe_rotation rotations align tr k M /\ keyframe_scale scales k s /\ is_similarity (firstn 4 (skipn (4 * k) stack)) s M t.
Proof.
  intros mesh cpp dec tf rots tr sc al nf m H. unfold swept_volume, sweep_keyframes in H.
  set (vr := match rots with Some _ => Ok None | None => if al then do r <- velocity_alignment_rotations tr; Ok (Some r) else Ok None end) in H.
  destruct vr as [v|] eqn:Ev; [|discriminate]. cbn [bind] in H.
  destruct (mapM (keyframe rots v sc) (combine (seq 0 (length tr)) tr)) as [ts|] eqn:Et; [|discriminate]. cbn [bind] in H.
  destruct (mapM_nth _ _ _ Et) as [L N]. rewrite combine_length, seq_length, Nat.min_id in L.
  assert (HN : tr <> []) by (intros ->; destruct ts; [discriminate|discriminate]).
  assert (Hm : m = match nf with Some k => dec (cpp (concat ts)) k | None => cpp (concat ts) end) by (destruct ts; [destruct tr; [contradiction|discriminate]|injection H as <-; reflexivity]).
  assert (K : forall k t, nth_error tr k = Some t -> exists T s M, nth_error ts k = Some T /\ keyframe_rotation rots al tr k M /\ keyframe_scale sc k s /\ is_similarity T s M t).
  { intros k t Hk. destruct (N k (k, t)) as (T & HT & HK); [rewrite combine_seq_nth_error, Hk; reflexivity|]. unfold keyframe in HK. exists T.
    assert (Q : exists M, keyframe_rotation rots al tr k M /\ (do M <- match sc with Some sc => do s <- lift IndexError (nth_error sc k); Ok (mscal s M) | None => Ok M end; Ok (homogeneous M t)) = Ok T).
    { unfold keyframe_rotation. destruct rots as [rs|].
      - destruct (nth_error rs k) as [M|]; [|discriminate]. exists M. split; [reflexivity|exact HK].
      - destruct al.
        + subst vr. destruct (velocity_alignment_rotations tr) as [w|]; [|discriminate]. cbn in Ev. injection Ev as <-. destruct (nth_error w k) as [M|] eqn:Ew; [|discriminate]. exists M. split; [exists w; split; [reflexivity|exact Ew]|exact HK].
        + subst vr. injection Ev as <-. exists eye3. split; [reflexivity|exact HK]. }
    destruct Q as (M & HM & Q). unfold keyframe_scale. destruct sc as [sc|].
    - destruct (nth_error sc k) as [s|] eqn:Es; [|discriminate]. cbn in Q. injection Q as <-. exists s, M. split; [exact HT|]. split; [exact HM|]. split; [reflexivity|apply homogeneous_sim].
    - cbn in Q. injection Q as <-. exists 1, M. split; [exact HT|]. split; [exact HM|]. split; [reflexivity|]. pose proof (homogeneous_sim 1 M t) as Z. rewrite mscal_1 in Z. exact Z. }
  assert (B : forall l, In l ts -> length l = 4%nat).
  { intros l Hl. apply In_nth_error in Hl as [k Hk]. assert (Hlt : (k < length tr)%nat) by (rewrite <- L; apply nth_error_Some; rewrite Hk; discriminate).
    destruct (K k (nth k tr zero3) (nth_error_nth' _ _ Hlt)) as (T & s & M & HT & _ & _ & [HL _]). rewrite Hk in HT. injection HT as ->. exact HL. }
  exists (concat ts). split; [exact Hm|]. split.
  { rewrite <- L. clear -B. induction ts as [|t ts IH]; [reflexivity|]. cbn [concat length]. rewrite app_length, IH by (intros; apply B; right; assumption). rewrite (B t) by (left; reflexivity). lia. }
  split; [exact HN|]. intros k t Hk. destruct (K k t Hk) as (T & s & M & HT & A1 & A2 & A3). exists s, M. rewrite (concat_blocks ts 4 B k T HT). auto.
Qed.
(** with explicit transformations only, they are stacked unchanged *)
Theorem C76_transformations : forall (mesh : Type) (cpp : list (list R) -> mesh) decimate ts rotations scales align num_faces, ts <> [] ->
  swept_volume cpp decimate (Some ts) rotations None scales align num_faces = Ok (match num_faces with Some k => decimate (cpp (concat ts)) k | None => cpp (concat ts) end).
Proof. intros. destruct ts; [contradiction|reflexivity]. Qed.
(** the documentation lets the transformations supersede rotations, translations and scales; the code never looks at them when translations are given *)
Theorem C76_precedence_refuted : forall (mesh : Type) (cpp : list (list R) -> mesh) decimate ts rotations tr scales align num_faces,
  swept_volume cpp decimate (Some ts) rotations (Some tr) scales align num_faces = swept_volume cpp decimate None rotations (Some tr) scales align num_faces /\
  exists T, is_similarity T 1 eye3 (5, 0, 0) /\ swept_volume (fun s => s) (fun s _ => s) (Some [T]) None (Some [zero3]) None false None <> Ok T.
Proof.
  intros. split; [reflexivity|]. exists (homogeneous eye3 (5, 0, 0)). split; [pose proof (homogeneous_sim 1 eye3 (5, 0, 0)) as Z; rewrite mscal_1 in Z; exact Z|].
  unfold swept_volume. cbn. intro H. unfold homogeneous, X, zero3 in H. cbn in H. injection H as H. lra.
Qed.

(** ** C76: what stops the call *)
Lemma mapM_err {A B} (f : A -> res B) l e : (forall x, In x l -> f x = Err e \/ exists y, f x = Ok y) -> (exists x, In x l /\ f x = Err e) -> mapM f l = Err e.
Proof.
  induction l as [|x l IH]; intros H (z & Hz & Ez); [destruct Hz|]. cbn. destruct (H x (or_introl eq_refl)) as [E|[y E]]; rewrite E; [reflexivity|]. cbn.
  destruct Hz as [->|Hz]; [rewrite E in Ez; discriminate|]. rewrite IH; [reflexivity|intros; apply H; right; assumption|exists z; auto].
Qed.
Lemma norm3_z : norm3 zero3 = 0. Proof. unfold norm3, zero3, dot3, X, Y, Zc. cbn [fst snd]. replace (0 * 0 + 0 * 0 + 0 * 0) with 0 by ring. apply sqrt_0. Qed.
Lemma velocity_err tr i : (2 <= length tr)%nat -> (i < length tr)%nat -> delta tr i = zero3 -> velocity tr i = Err NotANumber.
Proof.
  intros H2 Hi HD. assert (G : forall k, (k < length tr)%nat -> nth_error tr k = Some (nth k tr zero3)) by (intros; apply nth_error_nth'; assumption).
  assert (HN : norm3 (delta tr i) = 0) by (rewrite HD; apply norm3_z). unfold velocity, delta in *.
  destruct (Nat.eqb_spec i 0); [rewrite !G by lia; cbn [lift bind]; destruct Req_EM_T; [reflexivity|contradiction]|].
  destruct (Nat.eqb_spec i (length tr - 1)); rewrite !G by lia; cbn [lift bind]; (destruct Req_EM_T; [reflexivity|contradiction]).
Qed.
Theorem C76_errors : forall (mesh : Type) (cpp : list (list R) -> mesh) decimate transformations scales num_faces,
  (* nothing to sweep *)
  swept_volume cpp decimate None None None scales true num_faces = Err TypeError /\
  (forall rotations align, swept_volume cpp decimate (Some []) rotations None scales align num_faces = Err ValueError) /\
  (forall rotations, swept_volume cpp decimate transformations (Some rotations) (Some []) scales true num_faces = Err ValueError) /\
  (* one keyframe has no direction *)
  (forall t, swept_volume cpp decimate transformations None (Some [t]) scales true num_faces = Err IndexError) /\
  (* the path stands still around some keyframe *)
  (forall tr i, (2 <= length tr)%nat -> (i < length tr)%nat -> delta tr i = zero3 -> swept_volume cpp decimate transformations None (Some tr) scales true num_faces = Err NotANumber) /\
  (* too few rotations or scales *)
  (forall rs tr align, (length rs < length tr)%nat -> swept_volume cpp decimate transformations (Some rs) (Some tr) None align num_faces = Err IndexError) /\
  (forall sc tr, (length sc < length tr)%nat -> swept_volume cpp decimate transformations None (Some tr) (Some sc) false num_faces = Err IndexError).
Proof.
  intros mesh cpp dec tf sc nf. split; [reflexivity|]. split; [reflexivity|]. split; [reflexivity|]. split; [reflexivity|]. split; [|split].
  - intros tr i H2 Hi HD. unfold swept_volume, sweep_keyframes, velocity_alignment_rotations. rewrite (mapM_err _ _ NotANumber); [reflexivity| |].
    + intros j Hj. apply in_seq in Hj. destruct (Req_EM_T (norm3 (delta tr j)) 0) as [Q|Q].
      * left. apply velocity_err; [exact H2|lia|apply norm3_0, Q].
      * right. exists (normalized3 (delta tr j)). apply velocity_ok; [exact H2|lia|]. intro Z. apply Q. rewrite Z. apply norm3_z.
    + exists i. split; [apply in_seq; lia|apply velocity_err; assumption].
  - intros rs tr al Hl. unfold swept_volume, sweep_keyframes. cbn [bind]. rewrite (mapM_err _ _ IndexError); [reflexivity| |].
    + intros [k t] _. unfold keyframe. destruct (nth_error rs k) as [M|]; [right; exists (homogeneous M t)|left]; reflexivity.
    + exists (length rs, nth (length rs) tr zero3). split.
      * apply nth_error_In with (n := length rs). rewrite combine_seq_nth_error, (nth_error_nth' tr zero3) by exact Hl. reflexivity.
      * unfold keyframe. rewrite (proj2 (nth_error_None rs (length rs))) by lia. reflexivity.
  - intros sc' tr Hl. unfold swept_volume, sweep_keyframes. cbn [bind]. rewrite (mapM_err _ _ IndexError); [reflexivity| |].
    + intros [k t] _. unfold keyframe. cbn [bind]. destruct (nth_error sc' k) as [s|]; [right; exists (homogeneous (mscal s eye3) t)|left]; reflexivity.
    + exists (length sc', nth (length sc') tr zero3). split.
      * apply nth_error_In with (n := length sc'). rewrite combine_seq_nth_error, (nth_error_nth' tr zero3) by exact Hl. reflexivity.
      * unfold keyframe. cbn [bind]. rewrite (proj2 (nth_error_None sc' (length sc'))) by lia. reflexivity.
Qed.

(** a path that turns a corner: its hypotheses hold and the exact conclusion applies at the first keyframe's direction *)
Theorem C76_example : let tr := [(0, 0, 0); (0, 1, 0); (0, 1, 2)] in
  (forall i, (i < length tr)%nat -> delta tr i <> zero3) /\ / 100000000 < norm3 (cross3 (1, 0, 0) (normalized3 (delta tr 0))) /\ exists rots, velocity_alignment_rotations tr = Ok rots /\ length rots = 3%nat.
Proof.
  intro tr. assert (H : forall i, (i < length tr)%nat -> delta tr i <> zero3).
  { intros i Hi Q. destruct i as [|[|[|i]]]; [| | |cbn in Hi; lia]; unfold delta, sub3, zero3, X, Y, Zc in Q; cbn in Q; injection Q; intros; lra. }
  split; [exact H|]. split.
  - assert (E : delta tr 0 = (0, 1, 0)) by (unfold delta, tr, sub3, X, Y, Zc; cbn; repeat (f_equal; try ring)). rewrite E, normalized_unit by (unfold dot3, X, Y, Zc; cbn [fst snd]; ring).
    unfold norm3, cross3, dot3, X, Y, Zc. cbn [fst snd]. match goal with |- _ < sqrt ?e => replace e with 1 by ring end. rewrite sqrt_1. lra.
  - destruct (C76_alignment tr ltac:(cbn; lia) H) as (r & A & B & _). exists r. split; [exact A|exact B].
Qed.
Print Assumptions C76_alignment.
