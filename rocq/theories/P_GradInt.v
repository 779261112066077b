(** C74: grad_intrinsic *)
From Coq Require Import Reals Lra Psatz.
From Verif Require Import NumpyModel TopoModel.
From Verif Require Import MatModel MatProofs PyExn Vec GeomModel ElastModel L1Model GradIntModel GeomProofs Geom2Proofs BiharmModel BiharmProofs Biharm2Proofs P_Biharm HemProofs.
Open Scope R_scope.

(** ** Specification *)
(** row i of G applied to a function on the vertices *)
Definition apply_to (G : mat) (x : Z -> R) (i : nat) : R := sumn (nc G) (fun j => at_ G i j * x (Z.of_nat j)).
(** the triangle with squared side lengths l (opposite corners 0,1,2), laid out in the plane: the edge from corner 1 to corner 2 points in the direction of the first axis,
    corner 0 lies to its left *)
Definition laid_out (l : r3) (p0 p1 p2 : vec2) : Prop :=
  fst p1 < fst p2 /\ snd p2 = snd p1 /\ snd p1 < snd p0 /\
  dot2 (sub2 p2 p1) (sub2 p2 p1) = X l /\ dot2 (sub2 p0 p2) (sub2 p0 p2) = Y l /\ dot2 (sub2 p1 p0) (sub2 p1 p0) = Zc l.

(** ** Proofs *)
Lemma tl_heron l : triangle_lengths l -> 0 < heron (X l) (Y l) (Zc l).
Proof.
  intros (A & B & C & H1 & H2 & H3). pose proof (sqrt_sqrt _ A). pose proof (sqrt_sqrt _ B). pose proof (sqrt_sqrt _ C).
  set (a := sqrt (X l)) in *. set (b := sqrt (Y l)) in *. set (c := sqrt (Zc l)) in *.
  replace (heron (X l) (Y l) (Zc l)) with ((a + (b + c)) * (c - (a - b)) * (c + (a - b)) * (a + (b - c))); [|unfold heron; rewrite <- H, <- H0, <- H4; ring].
  assert (0 <= a) by apply sqrt_pos. assert (0 <= b) by apply sqrt_pos. assert (0 <= c) by apply sqrt_pos.
  repeat apply Rmult_lt_0_compat; lra.
Qed.
Lemma gx_eq l : 0 < X l -> gi_gx l = (X l + Zc l - Y l) / (2 * gi_l0 l).
Proof. intro H. unfold gi_gx. assert (gi_l0 l <> 0) by (apply Rgt_not_eq, sqrt_lt_R0, H). field. exact H0. Qed.
Lemma gy_pos l : triangle_lengths l -> 0 < X l /\ 0 < Zc l - gi_gx l ^ 2.
Proof.
  intro T. pose proof (tl_heron l T) as H. destruct T as (A & B & C & _). destruct (heron_pos_sides _ _ _ A B C H) as (A' & _ & _).
  split; [exact A'|]. rewrite (gx_eq l A'). unfold gi_l0. pose proof (sqrt_lt_R0 _ A') as S. pose proof (sqrt_sqrt _ A) as Q. set (s := sqrt (X l)) in *.
  replace (Zc l - ((X l + Zc l - Y l) / (2 * s)) ^ 2) with (heron (X l) (Y l) (Zc l) / (4 * (s * s))); [|unfold heron; rewrite <- Q; field; lra].
  rewrite Q. apply Rdiv_lt_0_compat; lra.
Qed.
Lemma layout_unique l p0 p1 p2 : laid_out l p0 p1 p2 -> sub2 p0 p1 = (gi_gx l, gi_gy l) /\ sub2 p2 p1 = (gi_l0 l, 0) /\ 0 < X l.
Proof.
  destruct p0 as [a b], p1 as [c d], p2 as [e f]. intros (H1 & H2 & H3 & H4 & H5 & H6). unfold dot2, sub2 in *. cbn [fst snd] in *. subst f.
  assert (0 < X l) by nra. assert (gi_l0 l = e - c) as L0. { unfold gi_l0. rewrite <- H4. replace ((e - c) * (e - c) + (d - d) * (d - d)) with ((e - c) * (e - c)) by ring. apply sqrt_square. lra. }
  assert (gi_gx l = a - c) as GX. { rewrite gx_eq by assumption. rewrite L0, <- H4, <- H5, <- H6. field. lra. }
  assert (gi_gy l = b - d) as GY. { unfold gi_gy. rewrite GX, <- H6. replace ((c - a) * (c - a) + (d - b) * (d - b) - (a - c) ^ 2) with ((b - d) * (b - d)) by ring. apply sqrt_square. lra. }
  rewrite GX, GY, L0. repeat split; try assumption. f_equal. ring.
Qed.
Lemma layout_exists l : triangle_lengths l -> laid_out l (gi_gx l, gi_gy l) (0, 0) (gi_l0 l, 0).
Proof.
  intro T. destruct (gy_pos l T) as [A B]. pose proof (sqrt_lt_R0 _ A) as S. pose proof (sqrt_lt_R0 _ B) as S2.
  pose proof (sqrt_sqrt (X l) (Rlt_le _ _ A)) as Q. pose proof (sqrt_sqrt _ (Rlt_le _ _ B)) as Q2.
  unfold laid_out, dot2, sub2. cbn [fst snd]. fold (gi_l0 l) in *. fold (gi_gy l) in *. pose proof (gx_eq l A) as GX.
  assert (2 * gi_gx l * gi_l0 l = X l + Zc l - Y l) as G2. { rewrite GX. field. lra. }
  repeat split; try lra; nra.
Qed.
Lemma nth_V2 L f l m : nth_error L f = Some l -> length L = m -> nth f (gi_V2 L) (0,0) = (gi_gx l, gi_gy l) /\ nth (m + f) (gi_V2 L) (0,0) = (0,0) /\ nth (2 * m + f) (gi_V2 L) (0,0) = (gi_l0 l, 0).
Proof.
  intros E <-. assert (f < length L)%nat by (apply nth_error_Some; congruence). unfold gi_V2. repeat split.
  - rewrite app_nth1 by (rewrite map_length; lia). apply nth_error_nth. apply (map_nth_error (fun l => (gi_gx l, gi_gy l))), E.
  - rewrite app_nth2 by (rewrite map_length; lia). rewrite map_length. rewrite app_nth1 by (rewrite repeat_length; lia). apply nth_repeat.
  - rewrite app_nth2 by (rewrite map_length; lia). rewrite map_length. rewrite app_nth2 by (rewrite repeat_length; lia). rewrite repeat_length.
    replace (2 * length L + f - length L - length L)%nat with f by lia. apply nth_error_nth. apply (map_nth_error (fun l => (gi_l0 l, 0))), E.
Qed.
Lemma nth_F2 m f : (f < m)%nat -> nth_error (gi_F2 m) f = Some (Z.of_nat f, Z.of_nat (m + f), Z.of_nat (2 * m + f)).
Proof. intro H. unfold gi_F2. apply (map_nth_error (fun f => (Z.of_nat f, Z.of_nat (m + f), Z.of_nat (2 * m + f)))). rewrite nth_error_nth' with (d := 0%nat) by (rewrite seq_length; lia). rewrite seq_nth by lia. reflexivity. Qed.
Lemma P_shape n F : valid (Z.of_nat n) F -> forall t, In t (gi_P F) -> in_shape (Z.of_nat (3 * length F)) (Z.of_nat n) t = true.
Proof.
  intros Va t H. unfold gi_P in H. apply in_flat_map in H as ([f u] & Hi & Ht). assert (Iu := in_combine_r _ _ _ _ Hi). apply in_combine_l in Hi. apply in_seq in Hi. destruct (Va u Iu) as (A & B & C).
  unfold in_shape. destruct Ht as [ <- | [ <- | [ <- | [] ] ] ]; unfold trow, tcol; cbn [fst snd]; repeat (apply andb_true_intro; split); try apply Z.leb_le; try apply Z.ltb_lt; lia.
Qed.
Lemma P_rows n F x f t k : valid (Z.of_nat n) F -> nth_error F f = Some t -> (k < 3)%nat ->
  mulv n (gi_P F) x (Z.of_nat (k * length F + f)) = x (match k with 0%nat => c0 t | 1%nat => c1 t | _ => c2 t end).
Proof.
  intros Va E K. assert (Lf : (f < length F)%nat) by (apply nth_error_Some; congruence).
  rewrite mulv_trip. 2:{ intros u Hu. apply (P_shape n F Va) in Hu. unfold in_shape in Hu. repeat (apply andb_prop in Hu as [Hu ?]). lia. }
  unfold gi_P. rewrite sumf_flat_map. set (m := length F) in *.
  transitivity (sumf (fun p : nat * tri => if Nat.eqb (fst p) f then x (match k with 0%nat => c0 (snd p) | 1%nat => c1 (snd p) | _ => c2 (snd p) end) else 0) (combine (seq 0 m) F)).
  - apply sumf_ext. intros [g u] Hg. apply in_combine_l in Hg. apply in_seq in Hg. cbn [sumf fst snd]. unfold trow, tcol, tval. cbn [fst snd].
    destruct k as [|[|[|k]]]; [| | |lia]; destruct (Nat.eqb_spec g f);
      repeat match goal with |- context [Z.eqb ?a ?b] => destruct (Z.eqb_spec a b); try lia end; ring.
  - clear Va K. unfold m in *. clear m. assert (G : forall (F : list tri) s f t, nth_error F f = Some t -> forall h : tri -> R, sumf (fun p : nat * tri => if Nat.eqb (fst p) (s + f) then h (snd p) else 0) (combine (seq s (length F)) F) = h t).
    { clear. induction F as [|u F IH]; intros s f t E h; [destruct f; discriminate|]. cbn [length seq combine sumf fst snd]. destruct f as [|f].
      - injection E as ->. rewrite Nat.add_0_r, Nat.eqb_refl. rewrite sumf_zero; [ring|]. intros [g u] Hg. apply in_combine_l in Hg. apply in_seq in Hg. cbn [fst snd]. destruct (Nat.eqb_spec g s); [lia|reflexivity].
      - destruct (Nat.eqb_spec s (s + S f)); [lia|]. replace (s + S f)%nat with (S s + f)%nat by lia. rewrite (IH (S s) f t E h). ring. }
    exact (G F 0%nat f t E (fun u => x (match k with 0%nat => c0 u | 1%nat => c1 u | _ => c2 u end))).
Qed.
Lemma F2_valid m : valid (Z.of_nat (3 * m)) (gi_F2 m).
Proof. intros t H. unfold gi_F2 in H. apply in_map_iff in H as (f & <- & H). apply in_seq in H. unfold c0, c1, c2. cbn [fst snd]. lia. Qed.
Lemma assert_ok b : b = true -> assert_ b = Ok tt. Proof. intros ->. reflexivity. Qed.
Definition gi_core (L : list r3) (F : list tri) (n : nat) : res mat :=
  let m := length F in
  do G2 <- grad2 (fun i => nth (Z.to_nat i) (gi_V2 L) (0, 0)) (Z.of_nat (3 * m)) (gi_F2 m);
  do P <- csr (Z.of_nat (3 * m)) (Z.of_nat n) (gi_P F);
  mul (of_trips (2 * m) (3 * m) G2) (of_trips (3 * m) n P).
Lemma gi_reduce L F n : length L = length F -> (forall l, In l L -> triangle_lengths l) -> grad_intrinsic L F (Some n) = gi_core L F n.
Proof.
  intros Len T. unfold grad_intrinsic. rewrite assert_ok by (apply Nat.eqb_eq, Len). cbn [bind]. rewrite assert_ok. 2:{ apply forallb_forall. intros l Hl. destruct (T l Hl) as (A & B & C & _). destruct (Rle_dec 0 (X l)), (Rle_dec 0 (Y l)), (Rle_dec 0 (Zc l)); tauto. }
  cbn [bind]. replace (existsb gi_nan L) with false; [reflexivity|]. symmetry. apply not_true_is_false. intro H. apply existsb_exists in H as (l & Hl & H).
  unfold gi_nan in H. destruct (gy_pos l (T l Hl)). destruct (Req_EM_T (X l) 0); [lra|]. destruct (Rlt_dec (Zc l - gi_gx l ^ 2) 0); [lra|discriminate].
Qed.
Lemma gi_ok L F n : length L = length F -> valid (Z.of_nat n) F -> (forall l, In l L -> triangle_lengths l) ->
  exists G, grad_intrinsic L F (Some n) = Ok G /\ nr G = (2 * length F)%nat /\ nc G = n /\
    forall x f t l, nth_error F f = Some t -> nth_error L f = Some l ->
      let g := (apply_to G x f, apply_to G x (length F + f)%nat) in
      dot2 g (gi_l0 l, 0) = x (c2 t) - x (c1 t) /\ dot2 g (gi_gx l, gi_gy l) = x (c0 t) - x (c1 t).
Proof.
  intros Len Va T. rewrite gi_reduce by assumption. unfold gi_core. set (m := length F) in *. set (V2 := fun i => nth (Z.to_nat i) (gi_V2 L) (0, 0)).
  assert (L2 : length (gi_F2 m) = m) by (unfold gi_F2; rewrite map_length, seq_length; reflexivity).
  rewrite (grad2_is V2 (3 * m) (gi_F2 m) (F2_valid m)). cbn [bind].
  rewrite (csr_ok _ _ (gi_P F)); [|intros t Ht; pose proof (P_shape n F Va t Ht) as S; unfold in_shape in S; repeat (apply andb_prop in S as [S ?]); fold m in S; repeat match goal with H : (_ <? _)%Z = true |- _ => apply Z.ltb_lt in H | H : (_ <=? _)%Z = true |- _ => apply Z.leb_le in H end; split; lia]. cbn [bind].
  set (A := of_trips (2 * m) (3 * m) (grad2_blocks V2 (gi_F2 m))). set (B := of_trips (3 * m) n (gi_P F)).
  destruct (mul_ok A B eq_refl) as (G & E & R1 & C1 & M). exists G. split; [exact E|]. split; [exact R1|]. split; [exact C1|].
  intros x f t l Ef El. assert (Lf : (f < m)%nat) by (apply nth_error_Some; unfold m in *; congruence).
  (* the corner values *)
  set (y := fun i : Z => mulv n (gi_P F) x i).
  assert (AP : forall k, (k < 2)%nat -> apply_to G x (k * m + f) = grad_comp k (face_grad (fun i => pad (V2 i)) y (Z.of_nat f, Z.of_nat (m + f), Z.of_nat (2 * m + f)))).
  { intros k Hk. change (apply_to G x (k * m + f)) with (mv G (fun j => x (Z.of_nat j)) (k * m + f)). rewrite M.
    rewrite <- (grad2_rows V2 (3 * m) (gi_F2 m) y k f _ (F2_valid m) (nth_F2 m f Lf) Hk). rewrite L2. reflexivity. }
  pose proof (AP 0%nat ltac:(lia)) as A0. pose proof (AP 1%nat ltac:(lia)) as A1. change (0 * m + f)%nat with f in A0. replace (1 * m + f)%nat with (m + f)%nat in A1 by lia.
  cbn zeta. rewrite A0, A1. clear A0 A1 AP M. set (t2 := (Z.of_nat f, Z.of_nat (m + f), Z.of_nat (2 * m + f))).
  destruct (nth_V2 L f l m El Len) as (W0 & W1 & W2).
  assert (V2 (c0 t2) = (gi_gx l, gi_gy l)) as E0 by (unfold V2, t2, c0; cbn [fst snd]; rewrite Nat2Z.id; exact W0).
  assert (V2 (c1 t2) = (0, 0)) as E1 by (unfold V2, t2, c1; cbn [fst snd]; rewrite Nat2Z.id; exact W1).
  assert (V2 (c2 t2) = (gi_l0 l, 0)) as E2 by (unfold V2, t2, c2; cbn [fst snd]; rewrite Nat2Z.id; exact W2).
  assert (y (c0 t2) = x (c0 t)) as Y0 by (exact (P_rows n F x f t 0 Va Ef ltac:(lia))).
  assert (y (c1 t2) = x (c1 t)) as Y1. { pose proof (P_rows n F x f t 1 Va Ef ltac:(lia)) as Q. replace (1 * length F + f)%nat with (m + f)%nat in Q by (unfold m; lia). exact Q. }
  assert (y (c2 t2) = x (c2 t)) as Y2 by (exact (P_rows n F x f t 2 Va Ef ltac:(lia))).
  destruct (gy_pos l (T l (nth_error_In _ _ El))) as [Xp Gp]. assert (0 < gi_l0 l) as L0p by (apply sqrt_lt_R0, Xp). assert (0 < gi_gy l) as Gyp by (apply sqrt_lt_R0, Gp).
  clearbody t2 y V2. clear W0 W1 W2 Gp. set (l0 := gi_l0 l) in *. set (gy := gi_gy l) in *. set (gx := gi_gx l) in *. clearbody l0 gy gx. pose proof (Rmult_lt_0_compat _ _ L0p Gyp).
  assert (fnormal (fun i => pad (V2 i)) t2 <> zero3) as NZ.
  { intro Z0. unfold fnormal in Z0. rewrite E0, E1, E2 in Z0. unfold pad, cross3, sub3, zero3, X, Y, Zc in Z0; cbn in Z0. injection Z0 as _ _ Z1. nra. }
  destruct (face_grad_spec (fun i => pad (V2 i)) y t2 NZ) as (S1 & S2 & _). rewrite E0, E1 in S1. rewrite E0, E2 in S2. rewrite Y0, Y1 in S1. rewrite Y0, Y2 in S2.
  set (g := face_grad _ y t2) in *. clearbody g. cbn [grad_comp]. unfold dot2, dot3, sub3, pad, X, Y, Zc in *. cbn [fst snd] in *. split; lra.
Qed.

(** ** C74 *)
(** [G] has two rows per face: applied to any function on the vertices they are the gradient of the linear interpolant in the triangle's own plane, in the coordinates in which the edge
    from corner 1 to corner 2 is the first axis and the second axis is that edge turned counter-clockwise *)
Theorem C74_intrinsic : forall L F n, length L = length F -> valid (Z.of_nat n) F -> (forall l, In l L -> triangle_lengths l) ->
  exists G, grad_intrinsic L F (Some n) = Ok G /\ nr G = (2 * length F)%nat /\ nc G = n /\
    forall x f t l, nth_error F f = Some t -> nth_error L f = Some l ->
      (exists p0 p1 p2, laid_out l p0 p1 p2) /\
      forall p0 p1 p2, laid_out l p0 p1 p2 ->
        let g := (apply_to G x f, apply_to G x (length F + f)%nat) in
        dot2 g (sub2 p1 p0) = x (c1 t) - x (c0 t) /\ dot2 g (sub2 p2 p0) = x (c2 t) - x (c0 t).
Proof.
  intros L F n Len Va T. destruct (gi_ok L F n Len Va T) as (G & E & R1 & C1 & H). exists G. split; [exact E|]. split; [exact R1|]. split; [exact C1|].
  intros x f t l Ef El. split. { exists (gi_gx l, gi_gy l), (0, 0), (gi_l0 l, 0). apply layout_exists, T, (nth_error_In _ _ El). }
  intros p0 p1 p2 Lo. destruct (layout_unique l p0 p1 p2 Lo) as (Q0 & Q2 & _). destruct (H x f t l Ef El) as [H1 H2]. cbn zeta in *. rewrite <- Q0 in H2. rewrite <- Q2 in H1.
  set (g := (apply_to G x f, apply_to G x (length F + f)%nat)) in *. clearbody g. destruct g, p0, p1, p2. unfold dot2, sub2 in *. cbn [fst snd] in *. split; lra.
Qed.
Print Assumptions C74_intrinsic.

(** on a mesh in space: the two rows are the components of grad's gradient along the edge from corner 1 to corner 2 and along the normal crossed with that edge; the lengths agree and the
    area weighted sum of squares is the quadratic form of the cotangent Laplacian *)
Lemma embedded_lengths V t : fnormal V t <> zero3 -> triangle_lengths (lsq_face (fun i => row_of3 (V i)) t).
Proof.
  intro N. destruct (nondeg_3d V t N) as (A & B & C & D). set (l := lsq_face _ t) in *. assert (0 < heron (X l) (Y l) (Zc l)) as H by (apply dblA_pos_heron; auto; destruct l as [[? ?] ?]; exact D).
  clearbody l. unfold triangle_lengths. split; [exact A|]. split; [exact B|]. split; [exact C|]. cbn zeta.
  destruct (heron_pos_sides _ _ _ A B C H) as (A' & B' & C').
  pose proof (sqrt_sqrt _ A) as Qa. pose proof (sqrt_sqrt _ B) as Qb. pose proof (sqrt_sqrt _ C) as Qc. pose proof (sqrt_lt_R0 _ A') as Pa. pose proof (sqrt_lt_R0 _ B') as Pb. pose proof (sqrt_lt_R0 _ C') as Pc.
  set (a := sqrt (X l)) in *. set (b := sqrt (Y l)) in *. set (c := sqrt (Zc l)) in *.
  assert (heron (X l) (Y l) (Zc l) = (a + b + c) * ((b + c - a) * ((c + a - b) * (a + b - c)))) as E by (unfold heron; rewrite <- Qa, <- Qb, <- Qc; ring).
  rewrite E in H. assert (0 < (b + c - a) * ((c + a - b) * (a + b - c))) as H' by (apply (Rmult_lt_reg_l (a + b + c)); lra). clearbody a b c. clear - H' Pa Pb Pc.
  assert (S1 : forall p q r, 0 < p -> 0 < q -> 0 < r -> 0 < (q + r - p) * ((r + p - q) * (p + q - r)) -> p < q + r).
  { intros p q r Hp Hq Hr K. destruct (Rlt_dec p (q + r)); [assumption|exfalso]. assert (0 < r + p - q) by lra. assert (0 < p + q - r) by lra. pose proof (Rmult_lt_0_compat _ _ H H0). nra. }
  split; [apply S1; auto|]. split; [apply (S1 b c a); auto; nra|apply (S1 c a b); auto; nra].
Qed.
Lemma gram_id (g e N : vec3) : dot3 e N = 0 -> dot3 g N = 0 ->
  dot3 g (cross3 N e) * dot3 g (cross3 N e) + dot3 g e * dot3 g e * dot3 N N = dot3 g g * (dot3 e e * dot3 N N).
Proof.
  intros H1 H2. transitivity (dot3 g g * (dot3 e e * dot3 N N - dot3 e N * dot3 e N) - dot3 g e * (dot3 g e * dot3 N N - dot3 e N * dot3 g N) + dot3 g N * (dot3 g e * dot3 e N - dot3 g N * dot3 e e) + dot3 g e * dot3 g e * dot3 N N).
  - destruct g as [[? ?] ?], e as [[? ?] ?], N as [[? ?] ?]. unfold dot3, cross3, X, Y, Zc. cbn [fst snd]. ring.
  - rewrite H1, H2. ring.
Qed.
Lemma lsq_dot V t : lsq_face (fun i => row_of3 (V i)) t =
  (let e := sub3 (V (c2 t)) (V (c1 t)) in let d := sub3 (V (c0 t)) (V (c1 t)) in (dot3 e e, dot3 (sub3 d e) (sub3 d e), dot3 d d)).
Proof. unfold lsq_face, sqlen, row_of3, dotl, subl, dot3, sub3, X, Y, Zc. destruct (V (c0 t)) as [[? ?] ?], (V (c1 t)) as [[? ?] ?], (V (c2 t)) as [[? ?] ?]. cbn. f_equal; [f_equal; ring|ring]. Qed.

Theorem C74_embedded : forall V F n, valid (Z.of_nat n) F -> (forall t, In t F -> fnormal V t <> zero3) ->
  exists G Ge Lap, grad_intrinsic (map (lsq_face (fun i => row_of3 (V i))) F) F (Some n) = Ok G /\ grad3 V (Z.of_nat n) F = Ok Ge /\
    cotangent_laplacian (fun i => row_of3 (V i)) (Z.of_nat n) F = Ok Lap /\
    (forall x f t, nth_error F f = Some t ->
      let ge := (mulv n Ge x (Z.of_nat f), mulv n Ge x (Z.of_nat (length F + f)), mulv n Ge x (Z.of_nat (2 * length F + f))) in
      let e := sub3 (V (c2 t)) (V (c1 t)) in let N := fnormal V t in
      apply_to G x f = dot3 ge (scal3 (/ norm3 e) e) /\
      apply_to G x (length F + f) = dot3 ge (cross3 (scal3 (/ norm3 N) N) (scal3 (/ norm3 e) e)) /\
      apply_to G x f ^ 2 + apply_to G x (length F + f) ^ 2 = dot3 ge ge) /\
    (forall x, quadform n Lap x = sumf (fun p => let '(f, t) := p in norm3 (fnormal V t) / 2 * (apply_to G x f ^ 2 + apply_to G x (length F + f) ^ 2)) (combine (seq 0 (length F)) F)).
Proof.
  intros V F n Va N. destruct (cot_lap_3d V F n Va N) as (Lap & Ge & E1 & E2 & _ & _ & _ & QF). destruct (grad3_ok V n F Va) as (Ge' & E2' & SP). rewrite E2 in E2'. injection E2' as <-.
  destruct (gi_ok (map (lsq_face (fun i => row_of3 (V i))) F) F n) as (G & E & _ & _ & SG).
  { rewrite map_length. reflexivity. } { exact Va. } { intros l Hl. apply in_map_iff in Hl as (t & <- & Ht). apply embedded_lengths, N, Ht. }
  exists G, Ge, Lap. split; [exact E|]. split; [exact E2|]. split; [exact E1|].
  match goal with |- ?P /\ _ => assert (M : P); [|split; [exact M|]] end.
  - intros x f t Ef. assert (Nt : fnormal V t <> zero3) by (apply N; eapply nth_error_In; eauto).
    destruct (SP x f t Ef Nt) as (ge & Ege & S1 & S2 & S3). cbn zeta. rewrite <- Ege. clear Ege SP.
    destruct (SG x f t _ Ef (map_nth_error (lsq_face (fun i => row_of3 (V i))) _ _ Ef)) as [T1 T2]. cbn zeta in T1, T2.
    set (g1 := apply_to G x f) in *. set (g2 := apply_to G x (length F + f)%nat) in *. clearbody g1 g2. pose proof (gy_pos _ (embedded_lengths V t Nt)) as [Xp Gp].
    unfold gi_gy in T2. rewrite (gx_eq _ Xp) in T2, Gp. unfold gi_l0 in *. rewrite lsq_dot in *. cbn zeta in *.
    assert (FN : fnormal V t = cross3 (sub3 (V (c2 t)) (V (c1 t))) (sub3 (V (c0 t)) (V (c1 t)))). { unfold fnormal. destruct (V (c0 t)) as [[? ?] ?], (V (c1 t)) as [[? ?] ?], (V (c2 t)) as [[? ?] ?]. unfold cross3, sub3, X, Y, Zc. cbn [fst snd]. apply vec3_eq; unfold X, Y, Zc; cbn [fst snd]; ring. }
    assert (NN : norm3 (fnormal V t) <> 0) by (intros Q; apply Nt, dot_self_zero, norm3_zero; auto).
    assert (S12 : dot3 ge (sub3 (V (c2 t)) (V (c1 t))) = x (c2 t) - x (c1 t)). { destruct ge as [[? ?] ?], (V (c0 t)) as [[? ?] ?], (V (c1 t)) as [[? ?] ?], (V (c2 t)) as [[? ?] ?]. unfold dot3, sub3, X, Y, Zc in *. cbn [fst snd] in *. lra. }
    assert (S10 : dot3 ge (sub3 (V (c0 t)) (V (c1 t))) = x (c0 t) - x (c1 t)). { destruct ge as [[? ?] ?], (V (c0 t)) as [[? ?] ?], (V (c1 t)) as [[? ?] ?], (V (c2 t)) as [[? ?] ?]. unfold dot3, sub3, X, Y, Zc in *. cbn [fst snd] in *. lra. }
    clear S1 S2. set (e := sub3 (V (c2 t)) (V (c1 t))) in *. set (d := sub3 (V (c0 t)) (V (c1 t))) in *. set (Nn := fnormal V t) in *. clearbody e d Nn. subst Nn. set (Nn := cross3 e d) in *.
    unfold X, Y, Zc in T1, T2, Xp, Gp. cbn [fst snd] in T1, T2, Xp, Gp.
    assert (QE : dot3 e e + dot3 d d - dot3 (sub3 d e) (sub3 d e) = 2 * dot3 e d). { destruct e as [[? ?] ?], d as [[? ?] ?]. unfold dot3, sub3, X, Y, Zc. cbn [fst snd]. ring. }
    rewrite QE in T2, Gp. fold (norm3 e) in T1, T2, Gp.
    assert (Ep : 0 < norm3 e) by (apply sqrt_lt_R0, Xp). assert (E2s : norm3 e * norm3 e = dot3 e e) by (apply sqrt_sqrt; lra).
    assert (Np : 0 < norm3 Nn) by (pose proof (sqrt_pos (dot3 Nn Nn)); fold (norm3 Nn) in *; lra).
    assert (Nd : 0 <= dot3 Nn Nn). { destruct Nn as [[? ?] ?]. unfold dot3, X, Y, Zc. cbn [fst snd]. nra. }
    assert (N2s : norm3 Nn * norm3 Nn = dot3 Nn Nn) by (apply sqrt_sqrt; exact Nd).
    assert (Lag : dot3 Nn Nn = dot3 e e * dot3 d d - dot3 e d * dot3 e d). { unfold Nn. destruct e as [[? ?] ?], d as [[? ?] ?]. unfold dot3, cross3, X, Y, Zc. cbn [fst snd]. ring. }
    assert (GY : sqrt (dot3 d d - (2 * dot3 e d / (2 * norm3 e)) ^ 2) = norm3 Nn / norm3 e).
    { replace (dot3 d d - (2 * dot3 e d / (2 * norm3 e)) ^ 2) with ((norm3 Nn / norm3 e) * (norm3 Nn / norm3 e)). { apply sqrt_square. apply Rlt_le, Rdiv_lt_0_compat; assumption. }
      replace (norm3 Nn / norm3 e * (norm3 Nn / norm3 e)) with ((norm3 Nn * norm3 Nn) / (norm3 e * norm3 e)) by (field; lra). rewrite N2s, Lag, <- E2s. field. lra. }
    rewrite GY in T2. unfold dot2 in T1, T2. cbn [fst snd] in T1, T2.
    assert (CR : dot3 ge (cross3 Nn e) = dot3 ge d * dot3 e e - dot3 ge e * dot3 e d). { unfold Nn. destruct ge as [[? ?] ?], e as [[? ?] ?], d as [[? ?] ?]. unfold dot3, cross3, X, Y, Zc. cbn [fst snd]. ring. }
    assert (R1 : g1 = dot3 ge e / norm3 e). { rewrite S12, <- T1. field. lra. }
    assert (R2 : g2 = dot3 ge (cross3 Nn e) / (norm3 Nn * norm3 e)).
    { rewrite CR, S12, S10, <- T1, <- T2, <- E2s. field. lra. }
    assert (D1 : dot3 e Nn = 0). { unfold Nn. destruct e as [[? ?] ?], d as [[? ?] ?]. unfold dot3, cross3, X, Y, Zc. cbn [fst snd]. ring. }
    pose proof (gram_id ge e Nn D1 S3) as GI. split; [|split].
    + rewrite R1. destruct ge as [[? ?] ?], e as [[? ?] ?]. unfold dot3 at 1 2. unfold scal3, X, Y, Zc. cbn [fst snd]. field. lra.
    + rewrite R2. clear - Ep Np. set (ne := norm3 e) in *. set (nn := norm3 Nn) in *. clearbody ne nn Nn. destruct ge as [[? ?] ?], e as [[? ?] ?], Nn as [[? ?] ?]. unfold dot3, cross3, scal3, X, Y, Zc. cbn [fst snd]. field. lra.
    + rewrite R1, R2. apply (Rmult_eq_reg_r (dot3 e e * dot3 Nn Nn)); [|apply Rgt_not_eq, Rmult_lt_0_compat; [exact Xp|rewrite <- N2s; apply Rmult_lt_0_compat; assumption]]. rewrite <- GI. rewrite <- E2s, <- N2s. field. lra.
  - intro x. rewrite QF. apply sumf_ext. intros [f t] Hp. assert (Ef : nth_error F f = Some t).
    { apply In_combine_seq, Hp. }
    destruct (M x f t Ef) as (_ & _ & Q). rewrite Q. f_equal. unfold dot3, X, Y, Zc. cbn [fst snd]. ring.
Qed.
Print Assumptions C74_embedded.

(** without n the matrix has as many columns as the largest vertex index plus one *)
Lemma Zmax_spec l : forall x, l <> [] -> (forall y, In y l -> (y <= x)%Z) -> In x l -> Zmax_list l = Some x.
Proof.
  destruct l as [|a l]; [congruence|]. intros x _ U I. cbn [Zmax_list]. f_equal.
  assert (G : forall l a, (forall y, In y (a :: l) -> (y <= x)%Z) -> In x (a :: l) -> fold_left Z.max l a = x).
  { clear. induction l as [|b l IH]; intros a U I; cbn [fold_left]; [destruct I as [ -> | [] ]; reflexivity|]. apply IH.
    - intros y [ <- | Hy ]; [|apply U; right; right; exact Hy]. assert (a <= x)%Z by (apply U; left; reflexivity). assert (b <= x)%Z by (apply U; right; left; reflexivity). lia.
    - assert (a <= x)%Z by (apply U; left; reflexivity). assert (b <= x)%Z by (apply U; right; left; reflexivity). destruct I as [ -> | [ -> | I ] ]; [left; lia|left; lia|right; exact I]. }
  apply G; assumption.
Qed.
Theorem C74_default_n : forall L F mx, (forall t, In t F -> (0 <= c0 t <= mx)%Z /\ (0 <= c1 t <= mx)%Z /\ (0 <= c2 t <= mx)%Z) ->
  (exists t, In t F /\ (c0 t = mx \/ c1 t = mx \/ c2 t = mx)) ->
  grad_intrinsic L F None = grad_intrinsic L F (Some (Z.to_nat (mx + 1))).
Proof.
  intros L F mx B (t & Ht & A). unfold grad_intrinsic. rewrite (Zmax_spec _ mx); [reflexivity|..].
  - intro Q. destruct F as [|u F]; [destruct Ht|discriminate].
  - intros y Hy. apply in_flat_map in Hy as (u & Hu & Hy). destruct (B u Hu) as (? & ? & ?). destruct Hy as [ <- | [ <- | [ <- | [] ] ] ]; lia.
  - apply in_flat_map. exists t. split; [exact Ht|]. destruct A as [ -> | [ -> | -> ] ]; cbn; tauto.
Qed.
Print Assumptions C74_default_n.

(** refusals: lengths and faces that do not match, a negative squared length, a vertex index outside 0..n-1; lengths that violate a triangle inequality, and an edge (1,2) of length zero, are
    not refused but give NaN *)
Theorem C74_errors : forall L F n,
  (length L <> length F -> grad_intrinsic L F n = Err AssertionError) /\
  (length L = length F -> (exists l, In l L /\ (X l < 0 \/ Y l < 0 \/ Zc l < 0)) -> grad_intrinsic L F n = Err AssertionError) /\
  (forall k, n = Some k -> length L = length F -> (forall l, In l L -> triangle_lengths l) -> ~ valid (Z.of_nat k) F -> grad_intrinsic L F n = Err ValueError) /\
  (forall k, n = Some k -> length L = length F -> (forall l, In l L -> 0 <= X l /\ 0 <= Y l /\ 0 <= Zc l) ->
    (exists l, In l L /\ (X l = 0 \/ let a := sqrt (X l) in let b := sqrt (Y l) in let c := sqrt (Zc l) in b + c < a \/ c + a < b \/ a + b < c)) ->
    grad_intrinsic L F n = Err NotANumber).
Proof.
  intros L F n. split; [|split; [|split]].
  - intro H. unfold grad_intrinsic. apply Nat.eqb_neq in H. rewrite H. reflexivity.
  - intros Len (l & Hl & H). unfold grad_intrinsic. rewrite assert_ok by (apply Nat.eqb_eq, Len). cbn [bind].
    match goal with |- context [assert_ ?b] => replace b with false; [reflexivity|] end. symmetry. apply not_true_is_false. intro Q. rewrite forallb_forall in Q. specialize (Q l Hl). cbn beta in Q.
    destruct (Rle_dec 0 (X l)); [|discriminate]. destruct (Rle_dec 0 (Y l)); [|discriminate]. destruct (Rle_dec 0 (Zc l)); [|discriminate]. lra.
  - intros k -> Len T NV. rewrite gi_reduce by assumption. unfold gi_core. rewrite (grad2_is _ (3 * length F) (gi_F2 (length F)) (F2_valid _)). cbn [bind].
    unfold csr at 1. replace (forallb (in_shape (Z.of_nat (3 * length F)) (Z.of_nat k)) (gi_P F)) with false; [reflexivity|]. symmetry. apply not_true_is_false. intro Q. apply NV. rewrite forallb_forall in Q.
    intros t Ht. apply In_nth_error in Ht as (f & Ef). assert (K : In (f, t) (combine (seq 0 (length F)) F)) by (apply In_combine_seq, Ef).
    assert (G : forall u, In u [(Z.of_nat f, c0 t, 1); (Z.of_nat (length F + f), c1 t, 1); (Z.of_nat (2 * length F + f), c2 t, 1)] -> (0 <= tcol u < Z.of_nat k)%Z).
    { intros u Hu. assert (I : In u (gi_P F)) by (unfold gi_P; apply in_flat_map; exists (f, t); split; [exact K|exact Hu]). apply Q in I. unfold in_shape in I. repeat (apply andb_prop in I as [I ?]). apply Z.leb_le in H0. apply Z.ltb_lt in H. lia. }
    pose proof (G _ (or_introl eq_refl)). pose proof (G _ (or_intror (or_introl eq_refl))). pose proof (G _ (or_intror (or_intror (or_introl eq_refl)))). unfold tcol in *. cbn [fst snd] in *. auto.
  - intros k -> Len NN (l & Hl & H). unfold grad_intrinsic. rewrite assert_ok by (apply Nat.eqb_eq, Len). cbn [bind]. rewrite assert_ok. 2:{ apply forallb_forall. intros u Hu. destruct (NN u Hu) as (A & B & C). destruct (Rle_dec 0 (X u)), (Rle_dec 0 (Y u)), (Rle_dec 0 (Zc u)); tauto. }
    cbn [bind]. replace (existsb gi_nan L) with true; [reflexivity|]. symmetry. apply existsb_exists. exists l. split; [exact Hl|]. unfold gi_nan. destruct (Req_EM_T (X l) 0); [reflexivity|].
    destruct (NN l Hl) as (A & B & C). assert (A' : 0 < X l) by lra. destruct H as [H|H]; [lra|]. destruct (Rlt_dec (Zc l - gi_gx l ^ 2) 0) as [_|Q]; [reflexivity|exfalso]. apply Q. clear Q.
    rewrite (gx_eq l A'). unfold gi_l0. pose proof (sqrt_lt_R0 _ A') as Pa. pose proof (sqrt_sqrt _ A) as Qa. pose proof (sqrt_sqrt _ B) as Qb. pose proof (sqrt_sqrt _ C) as Qc. pose proof (sqrt_pos (Y l)) as Pb. pose proof (sqrt_pos (Zc l)) as Pc.
    cbn zeta in H. set (a := sqrt (X l)) in *. set (b := sqrt (Y l)) in *. set (c := sqrt (Zc l)) in *.
    replace (Zc l - ((X l + Zc l - Y l) / (2 * a)) ^ 2) with ((a + b + c) * ((b + c - a) * ((c + a - b) * (a + b - c))) / (4 * (a * a))); [|rewrite <- Qa, <- Qb, <- Qc; field; lra].
    apply Rmult_lt_reg_r with (4 * (a * a)); [nra|]. replace ((a + b + c) * ((b + c - a) * ((c + a - b) * (a + b - c))) / (4 * (a * a)) * (4 * (a * a))) with ((a + b + c) * ((b + c - a) * ((c + a - b) * (a + b - c)))) by (field; lra). rewrite Rmult_0_l.
    assert ((b + c - a) * ((c + a - b) * (a + b - c)) < 0) as K; [|nra]. clearbody a b c. clear - H Pa Pb Pc.
    destruct H as [H|[H|H]].
    + assert (0 < (c + a - b) * (a + b - c)) by (apply Rmult_lt_0_compat; lra). nra.
    + assert (0 < (b + c - a) * (a + b - c)) by (apply Rmult_lt_0_compat; lra). nra.
    + assert (0 < (b + c - a) * (c + a - b)) by (apply Rmult_lt_0_compat; lra). nra.
Qed.
Print Assumptions C74_errors.

(** a right triangle with legs 3 (corner 1 to 2) and 4 (corner 1 to 0): the function with values 8, 0, 3 at the corners has gradient (1, 2) *)
Example C74_example : exists G, grad_intrinsic [(9, 25, 16)] [(0, 1, 2)%Z] (Some 3%nat) = Ok G /\
  let x := fun i => match i with 0%Z => 8 | 1%Z => 0 | _ => 3 end in apply_to G x 0 = 1 /\ apply_to G x 1 = 2.
Proof.
  assert (S3 : sqrt 9 = 3) by (replace 9 with (3 * 3) by ring; apply sqrt_square; lra). assert (S5 : sqrt 25 = 5) by (replace 25 with (5 * 5) by ring; apply sqrt_square; lra). assert (S4 : sqrt 16 = 4) by (replace 16 with (4 * 4) by ring; apply sqrt_square; lra).
  destruct (C74_intrinsic [(9, 25, 16)] [(0, 1, 2)%Z] 3) as (G & E & _ & _ & H).
  - reflexivity.
  - intros t [ <- | [] ]. unfold c0, c1, c2. cbn. lia.
  - intros l [ <- | [] ]. unfold triangle_lengths, X, Y, Zc. cbn [fst snd]. rewrite S3, S4, S5. lra.
  - exists G. split; [exact E|]. cbn zeta. destruct (H (fun i => match i with 0%Z => 8 | 1%Z => 0 | _ => 3 end) 0%nat _ _ eq_refl eq_refl) as [_ K]. destruct (K (0, 4) (0, 0) (3, 0)) as [K1 K2].
    { unfold laid_out, dot2, sub2, X, Y, Zc. cbn [fst snd]. lra. }
    unfold dot2, sub2, c0, c1, c2 in K1, K2. cbn [fst snd length Nat.add] in K1, K2. lra.
Qed.
