(** C90: bad_quad_mesh_from_quadtree *)
From Coq Require Import Reals Lra List Arith ZArith Bool Lia.
From Verif Require Import PyExn NumpyModel LoopsModel RelabelModel RelabelSpec RelabelProofs QuadModel QuadSpec QuadProofs Quad2Proofs Quad5Proofs GridMeshProofs BadQuadModel P_Relabel P_Quad.
Import ListNotations.
Open Scope nat_scope.

(** -- specification (leaf, low, high, history: QuadSpec) -- *)
(** a corner of a cell, with [true] for the high side of an axis *)
Definition corner (T : qtree) (i : nat) (b : list bool) : list R := map (fun p : nat * bool => if snd p then high T i (fst p) else low T i (fst p)) (combine (seq 0 (length b)) b).
(** all corners of a square, one after the other around it; all corners of a cube, around its bottom and then around its top *)
Definition square : list (list bool) := [[false; false]; [false; true]; [true; true]; [true; false]].
Definition cube : list (list bool) := map (fun b => b ++ [false]) square ++ map (fun b => b ++ [true]) square.
(** four corners of a cube on the same side of an axis, going around that side: neighbours in the list differ in one axis only *)
Definition one_apart (b c : list bool) : Prop := exists k, forall l, l < 3 -> (nth l b false <> nth l c false <-> l = k).
Definition around (axis : nat) (s : bool) (l : list (list bool)) : Prop :=
  exists a b c d, l = [a; b; c; d] /\ NoDup l /\ (forall x, In x l -> length x = 3 /\ nth axis x false = s) /\ one_apart a b /\ one_apart b c /\ one_apart c d /\ one_apart d a.
Definition sides : list (nat * bool) := [(2, false); (2, true); (1, true); (1, false); (0, false); (0, true)].

(** -- proofs -- *)
Definition sg (b : bool) : R := if b then 1%R else (-1)%R.
Definition bits (dim : nat) : list (list bool) := if Nat.eqb dim 2 then square else cube.
Lemma signs_bits dim : dim = 2 \/ dim = 3 -> signs dim = map (map sg) (bits dim).
Proof. intros [-> | ->]; reflexivity. Qed.
Lemma bits_len dim b : dim = 2 \/ dim = 3 -> In b (bits dim) -> length b = dim.
Proof. intros [-> | ->]; cbn; intros H; repeat destruct H as [<-|H]; auto; contradiction. Qed.
Lemma min_ok l : l <> [] -> exists w, minR l = Ok w /\ In w l /\ forall x, In x l -> (w <= x)%R.
Proof.
  destruct l as [|x l]; [congruence|]. intros _. cbn [minR]. eexists. split; [reflexivity|]. revert x. induction l as [|z l IH]; intros x; cbn [fold_left]; [split; [left; auto|intros y [<-|[]]; lra]|]. destruct (IH (Rmin x z)) as (A & B). split.
  - destruct A as [A|A]; [|right; right; auto]. rewrite <- A. unfold Rmin. destruct (Rle_dec x z); [left|right; left]; auto.
  - pose proof (B (Rmin x z) (or_introl eq_refl)). pose proof (Rmin_l x z). pose proof (Rmin_r x z). intros y [<-|[<-|I]]; [lra|lra|apply B; right; auto].
Qed.
Lemma gather_some {A} (l : list A) idx : (forall i, In i idx -> i < length l) -> exists g, gather l idx = Some g /\ Forall2 (fun i x => nth_error l i = Some x) idx g.
Proof.
  induction idx as [|i r IH]; intros H; [exists []; split; [reflexivity|constructor]|]. destruct IH as (g & E & F); [intros; apply H; right; auto|]. cbn [gather]. destruct (nth_error l i) as [x|] eqn:N; [|apply nth_error_None in N; pose proof (H i (or_introl eq_refl)); lia]. rewrite E. eexists. split; [reflexivity|]. constructor; auto.
Qed.
Lemma gather2_some idx fs : (forall f i, In f fs -> In i f -> i < length idx) -> exists G, gather2 idx fs = Some G /\ Forall2 (Forall2 (fun i j => nth_error idx i = Some j)) fs G.
Proof.
  induction fs as [|f r IH]; intros H; [exists []; split; [reflexivity|constructor]|]. destruct IH as (G & E & F); [intros f0 i I J; apply (H f0 i); [right; auto|auto]|]. destruct (gather_some idx f) as (g & Eg & Fg); [intros i J; apply (H f i); [left; auto|auto]|].
  cbn [gather2]. rewrite Eg, E. eexists. split; [reflexivity|]. constructor; auto.
Qed.
Lemma F2_nth {A B} (P : A -> B -> Prop) l l' : Forall2 P l l' -> forall k x, nth_error l k = Some x -> exists y, nth_error l' k = Some y /\ P x y.
Proof. induction 1 as [|a b l l' H F IH]; intros k x N; [destruct k; discriminate|]. destruct k as [|k]; cbn in *; [injection N as <-; eauto|eauto]. Qed.
Lemma F2_len {A B} (P : A -> B -> Prop) l l' : Forall2 P l l' -> length l = length l'.
Proof. induction 1; cbn; auto. Qed.
Section Tree.
  Variables (dim : nat) (c0 : list R) (w0 : R) (T : qtree) (Xc : nat -> nat -> Z).
  Hypothesis HD : dim = 2 \/ dim = 3. Hypothesis HW : (0 < w0)%R.
  Hypothesis I : inv dim (fun k => nth k c0 0%R - w0 / 2)%R w0 T Xc.
  Lemma leaves_ok i : In i (leaves T) <-> leaf dim T i.
  Proof.
    unfold leaves. rewrite filter_In, in_seq, (i_lCH _ _ _ _ _ I). unfold is_child. fold (rowof T i). split.
    - intros ((_ & L) & E). apply Z.eqb_eq in E. assert (L' : i < qn T) by lia. apply (leaf_iff _ _ _ _ _ I i L'). destruct (i_row _ _ _ _ _ I i L') as [Q|(n0 & K)]; [auto|]. exfalso. rewrite (k_row _ _ _ _ _ K), krow_nth in E by (destruct HD as [-> | ->]; cbn; lia). lia.
    - intros L. pose proof (proj1 L) as Li. apply (leaf_iff _ _ _ _ _ I i Li) in L. split; [lia|]. rewrite L. destruct HD as [-> | ->]; reflexivity.
  Qed.
  Lemma leaves_children : leaves T = quadtree_children T.
  Proof.
    unfold leaves, quadtree_children. apply filter_ext_in. intros i Hi. apply in_seq in Hi. rewrite (i_lCH _ _ _ _ _ I) in Hi. unfold is_child. fold (rowof T i). destruct (i_row _ _ _ _ _ I i) as [Q|(n0 & K)]; [lia| |].
    - rewrite Q. destruct HD as [-> | ->]; reflexivity.
    - rewrite (k_row _ _ _ _ _ K), !krow_nth by (destruct HD as [-> | ->]; cbn; lia). destruct (Z.eqb_spec (Z.of_nat (n0 + 1)) (-1)); [lia|]. destruct (Z.ltb_spec (Z.of_nat (n0 + 0)) 0); [lia|auto].
  Qed.
  Lemma width_pos i : i < qn T -> (0 < width T i)%R.
  Proof. intros L. pose proof (i_w _ _ _ _ _ I i L) as E. pose proof (pw_pos (depth T i)) as P. apply IZR_lt in P. nra. Qed.
  Lemma offset_corner i b : i < qn T -> length b = dim -> offset_row (nth i (qC T) []) (nth i (qW T) 0%R) (map sg b) = corner T i b.
  Proof.
    intros L Lb. pose proof (i_lc _ _ _ _ _ I i L) as Lc. unfold offset_row, corner, low, high, centre, width. fold (width T i). set (w := nth i (qW T) 0%R). set (c := nth i (qC T) []) in *. clearbody c w. rewrite Lb. clear I.
    destruct HD as [-> | ->].
    - destruct b as [|b1 [|b2 [|]]]; try discriminate. destruct c as [|x [|y [|]]]; try discriminate. cbn. f_equal; [|f_equal]; destruct b1, b2; cbn; lra.
    - destruct b as [|b1 [|b2 [|b3 [|]]]]; try discriminate. destruct c as [|x [|y [|z [|]]]]; try discriminate. cbn. f_equal; [|f_equal; [|f_equal]]; destruct b1, b2, b3; cbn; lra.
  Qed.
  Lemma corner_nth i b k : k < length b -> nth k (corner T i b) 0%R = if nth k b false then high T i k else low T i k.
  Proof.
    intros L. unfold corner. set (f := fun p : nat * bool => if snd p then high T i (fst p) else low T i (fst p)). rewrite (nth_indep _ 0%R (f (0, false))) by (rewrite map_length, combine_length, seq_length; lia).
    rewrite map_nth, (combine_nth (seq 0 (length b)) b k 0 false) by (rewrite seq_length; auto). unfold f. cbn [fst snd]. rewrite seq_nth by auto. reflexivity.
  Qed.
  Lemma corner_len i b : length (corner T i b) = length b.
  Proof. unfold corner. rewrite map_length, combine_length, seq_length. lia. Qed.
  Lemma end_at i k (s : bool) : i < qn T -> k < dim -> exists z : Z, (if s then high T i k else low T i k) = (nth k c0 0 - w0 / 2 + IZR z * width T i)%R.
  Proof. intros L K. pose proof (i_c _ _ _ _ _ I i k L K) as E. destruct s; [exists (Xc i k + 1)%Z; unfold high; rewrite plus_IZR|exists (Xc i k); unfold low]; rewrite E; lra. Qed.
  Lemma spaced0 i j k s t w : i < qn T -> j < qn T -> k < dim -> (w <= width T j)%R -> depth T i <= depth T j ->
    let x := if s : bool then high T i k else low T i k in let y := if t : bool then high T j k else low T j k in x = y \/ (w <= Rabs (x - y))%R.
  Proof.
    intros Li Lj K W D. cbv zeta. destruct (end_at i k s Li K) as (a & ->), (end_at j k t Lj K) as (b & ->). pose proof (i_w _ _ _ _ _ I i Li) as Ei. pose proof (i_w _ _ _ _ _ I j Lj) as Ej. pose proof (width_pos i Li) as Pi. pose proof (width_pos j Lj) as Pj.
    set (e := depth T j - depth T i). assert (De : depth T j = depth T i + e) by (unfold e; lia). rewrite De, pw_add, mult_IZR in Ej. pose proof (pw_pos (depth T i)) as P1. apply IZR_lt in P1.
    assert (EW : width T i = (width T j * IZR (pw e))%R). { apply (Rmult_eq_reg_r (IZR (pw (depth T i)))); [|lra]. rewrite Ei, <- Ej. ring. }
    rewrite EW. replace (nth k c0 0 - w0 / 2 + IZR a * (width T j * IZR (pw e)) - (nth k c0 0 - w0 / 2 + IZR b * width T j))%R with (IZR (a * pw e - b) * width T j)%R by (rewrite minus_IZR, mult_IZR; ring).
    destruct (Z.eq_dec (a * pw e - b) 0) as [Z|NZ]; [left|right].
    - replace b with (a * pw e)%Z by lia. rewrite mult_IZR. ring.
    - rewrite Rabs_mult, (Rabs_pos_eq (width T j)) by lra. assert (1 <= Rabs (IZR (a * pw e - b)))%R by (rewrite <- abs_IZR; apply IZR_le; lia). nra.
  Qed.
  Lemma spaced i j k s t w : i < qn T -> j < qn T -> k < dim -> (w <= width T i)%R -> (w <= width T j)%R ->
    let x := if s : bool then high T i k else low T i k in let y := if t : bool then high T j k else low T j k in x = y \/ (w <= Rabs (x - y))%R.
  Proof.
    intros Li Lj K W1 W2. cbv zeta. destruct (Nat.le_ge_cases (depth T i) (depth T j)) as [D|D]; [apply (spaced0 i j k s t w); auto|]. rewrite Rabs_minus_sym. destruct (spaced0 j i k t s w) as [E|E]; auto.
  Qed.
  Lemma close_corners i j b c w : leaf dim T i -> leaf dim T j -> length b = dim -> length c = dim -> (0 < w)%R -> (w <= width T i)%R -> (w <= width T j)%R -> rows_close (w / 100) (corner T i b) (corner T j c) -> corner T i b = corner T j c.
  Proof.
    intros (Li & _) (Lj & _) Lb Lc WP W1 W2 RC. apply (nth_ext _ _ 0%R 0%R); [rewrite !corner_len; lia|]. intros k Lk. rewrite corner_len in Lk.
    assert (Q : (Rabs (nth k (corner T i b) 0 - nth k (corner T j c) 0) <= w / 100)%R).
    { assert (G : forall l l', rows_close (w / 100) l l' -> forall k, k < length l -> (Rabs (nth k l 0 - nth k l' 0) <= w / 100)%R).
      { clear. intros l l' F. induction F as [|x y l l' H F IH]; intros k L; [cbn in L; lia|]. destruct k as [|k]; cbn in *; [auto|apply IH; lia]. }
      apply G; [auto|rewrite corner_len; auto]. }
    rewrite !corner_nth in * by lia. destruct (spaced i j k (nth k b false) (nth k c false) w) as [E|E]; auto; [lia|lra].
  Qed.
  Lemma leaves_nonempty : leaves T <> [].
  Proof.
    assert (G : forall k i, i < qn T -> qn T - i <= k -> exists j, leaf dim T j).
    { induction k as [|k IH]; intros i L B; [lia|]. destruct (i_row _ _ _ _ _ I i L) as [Q|(n0 & K)]; [exists i; apply (leaf_iff _ _ _ _ _ I i L); auto|]. apply (IH n0); [pose proof (k_in _ _ _ _ _ K); pose proof (pow2_pos dim); lia|pose proof (k_lt _ _ _ _ _ K); lia]. }
    destruct (G (qn T) 0) as (j & Lj); [pose proof (i_n _ _ _ _ _ I); lia|lia|]. apply leaves_ok in Lj. intros E. rewrite E in Lj. destruct Lj.
  Qed.
  (** the arrays *)
  Let ls := leaves T.
  Let n := length ls.
  Let V0 := flat_map (fun s => map (fun i => offset_row (nth i (qC T) []) (nth i (qW T) 0%R) s) ls) (signs dim).
  Lemma row_at k r b i : nth_error (bits dim) k = Some b -> nth_error ls r = Some i -> nth_error V0 (r + k * n) = Some (corner T i b).
  Proof.
    intros NB NL. replace (r + k * n) with (k * n + r) by lia. unfold V0. rewrite (signs_bits dim HD). assert (Li : i < qn T) by (apply nth_error_In in NL; apply leaves_ok in NL; apply (proj1 NL)).
    apply (nth_error_flat_map_const _ n) with (x := map sg b); [intros; apply map_length|rewrite nth_error_map, NB; reflexivity|]. rewrite nth_error_map, NL. cbn [option_map]. f_equal. apply offset_corner; auto. apply (bits_len dim b HD). apply nth_error_In in NB. auto.
  Qed.
  Lemma row_in x : In x V0 -> exists i b, leaf dim T i /\ In b (bits dim) /\ x = corner T i b.
  Proof.
    unfold V0. rewrite (signs_bits dim HD), in_flat_map. intros (s & Is & Ix). apply in_map_iff in Is. destruct Is as (b & <- & Ib). apply in_map_iff in Ix. destruct Ix as (i & <- & Ii). apply leaves_ok in Ii. exists i, b. split; [auto|]. split; [auto|]. apply offset_corner; [apply (proj1 Ii)|apply (bits_len dim b HD Ib)].
  Qed.
  Lemma V0_len : length V0 = length (bits dim) * n.
  Proof. unfold V0. rewrite (flat_map_const_length _ _ n) by (intros; apply map_length). rewrite (signs_bits dim HD), map_length. auto. Qed.
  (** what remove_duplicate_vertices makes of them *)
  Lemma merged Q : (forall f i, In f Q -> In i f -> i < length V0) -> exists w SV SVI SVJ G, minR (map (fun i => nth i (qW T) 0%R) ls) = Ok w /\ remove_duplicate_vertices_eps V0 (w / 100) Q = Some (SV, SVI, SVJ, G) /\ length SVJ = length V0 /\ NoDup SV /\ (forall x, In x SV -> In x V0)
    /\ (forall a x, nth_error V0 a = Some x -> exists j, nth_error SVJ a = Some j /\ nth_error SV j = Some x) /\ Forall2 (Forall2 (fun i j => nth_error SVJ i = Some j)) Q G.
  Proof.
    intros RG. destruct (min_ok (map (fun i => nth i (qW T) 0%R) ls)) as (w & E & IW & MW); [unfold ls; pose proof leaves_nonempty; destruct (leaves T); [congruence|discriminate]|].
    assert (ML : forall i, leaf dim T i -> (w <= width T i)%R) by (intros i Li; apply MW; apply in_map_iff; exists i; split; [reflexivity|apply leaves_ok; auto]).
    assert (WP : (0 < w)%R) by (apply in_map_iff in IW; destruct IW as (i & <- & Ii); apply width_pos; apply leaves_ok in Ii; apply (proj1 Ii)).
    destruct (C14_eps V0 (w / 100)%R Q) as (SV & SVI & SVJ & G & ER & LJ & F2 & _ & _ & REP & DIS & _ & FG); [lra|apply Forall_forall; intros f If; apply Forall_forall; intros i Ii; apply (RG f i); auto|].
    assert (SUB : forall x, In x SV -> In x V0). { clear -F2. induction F2 as [|x i l l' H F2 IH]; [intros ? []|]. intros y [<-|J]; [apply nth_error_In in H; auto|auto]. }
    exists w, SV, SVI, SVJ, G. split; [auto|]. split; [auto|]. split; [auto|]. split; [|split; [auto|split; [|auto]]].
    - apply NoDup_nth_error. intros a b La EQ. destruct (nth_error SV a) as [x|] eqn:Na; [|apply nth_error_None in Na; lia]. apply (DIS a b x x); auto.
    - intros a x N. destruct (REP a x N) as (j & y & Nj & Ny & RC). exists j. split; [auto|]. rewrite Ny. f_equal. destruct (row_in x) as (i1 & b1 & L1 & B1 & ->); [apply nth_error_In in N; auto|]. destruct (row_in y) as (i2 & b2 & L2 & B2 & ->); [apply nth_error_In in Ny; auto|].
      symmetry. apply (close_corners i1 i2 b1 b2 w); auto; apply (bits_len dim _ HD); auto.
  Qed.
End Tree.

(** Quadtrees: one quad per leaf, in the order of quadtree_children, going once around the corners of the cell; vertices are exactly the corners of leaves, each listed once, so cells that share a corner share a vertex. *)
Theorem C90_quadtree c0 w0 T : length c0 = 2 -> (0 < w0)%R -> history 2 c0 w0 T ->
  exists V Q H, bad_quad_mesh_from_quadtree 2 T = Ok (V, Q, H) /\ NoDup V /\ (forall v, In v V <-> exists i b, leaf 2 T i /\ In b square /\ v = corner T i b)
    /\ (forall i, In i (quadtree_children T) <-> leaf 2 T i) /\ length Q = length (quadtree_children T)
    /\ forall r i, nth_error (quadtree_children T) r = Some i -> exists q, nth_error Q r = Some q /\ Forall2 (fun j b => nth_error V j = Some (corner T i b)) q square.
Proof.
  intros HC HW HH. assert (HD : 2 = 2 \/ 2 = 3) by auto. destruct (history_inv _ _ _ _ HD HC HH) as (Xc & I). set (ls := leaves T). set (n := length ls).
  set (Q := map (fun q => [q; q + n; q + 2 * n; q + 3 * n]) (seq 0 n)).
  destruct (merged 2 c0 w0 T Xc HD HW I Q) as (w & SV & SVI & SVJ & G & EM & ER & LJ & ND & SUB & EX & FG).
  { intros f i If Ii. rewrite (V0_len 2 T HD). fold ls n. apply in_map_iff in If. destruct If as (q & <- & Iq). apply in_seq in Iq. cbn [length bits Nat.eqb square]. cbn [In] in Ii. destruct Ii as [<-|[<-|[<-|[<-|[]]]]]; lia. }
  exists SV, G, [SVJ]. rewrite <- (leaves_children 2 c0 w0 T Xc HD I). fold ls.
  assert (AT : forall r i k b, nth_error ls r = Some i -> nth_error square k = Some b -> exists j, nth_error SVJ (r + k * n) = Some j /\ nth_error SV j = Some (corner T i b)) by (intros r i k b Nr Nk; apply EX; apply (row_at 2 c0 w0 T Xc HD I); auto).
  split; [|split; [|split; [|split; [|split]]]].
  - unfold bad_quad_mesh_from_quadtree. cbv zeta. rewrite EM. cbn [bind Nat.eqb]. fold ls n Q. cbn [Nat.eqb] in ER. fold ls in ER. rewrite ER. reflexivity.
  - auto.
  - intros v. split; [intros Iv; apply (row_in 2 c0 w0 T Xc HD I); auto|]. intros (i & b & Li & Ib & ->). apply (leaves_ok 2 c0 w0 T Xc HD I) in Li. apply In_nth_error in Li, Ib. destruct Li as (r & Nr), Ib as (k & Nk). destruct (AT r i k b Nr Nk) as (j & _ & Nj). apply nth_error_In in Nj. auto.
  - apply (leaves_ok 2 c0 w0 T Xc HD I).
  - rewrite <- (F2_len _ _ _ FG). unfold Q. rewrite map_length, seq_length. reflexivity.
  - intros r i Nr. assert (Lr : r < n) by (unfold n; apply nth_error_Some; congruence). destruct (F2_nth _ _ _ FG r [r; r + n; r + 2 * n; r + 3 * n]) as (q & Nq & Fq); [unfold Q; rewrite nth_error_map, (nth_error_nth' _ 0) by (rewrite seq_length; auto); rewrite seq_nth by auto; reflexivity|].
    exists q. split; [auto|]. change square with (map (fun k => nth k square []) (seq 0 4)).
    assert (RE : [r; r + n; r + 2 * n; r + 3 * n] = map (fun k => r + k * n) (seq 0 4)) by (change (seq 0 4) with [0; 1; 2; 3]; cbn [map]; f_equal; [lia|f_equal; lia]). rewrite RE in Fq.
    assert (K : forall k, In k (seq 0 4) -> k < 4) by (intros k Ik; apply in_seq in Ik; lia). clear -AT Nr Fq K. revert q K Fq. generalize (seq 0 4). induction l as [|k cols IH]; intros q K F; cbn [map] in *; inversion F as [|? x ? l E0 F0]; subst; constructor; [|apply IH; auto; intros; apply K; right; auto].
    destruct (AT r i k (nth k square []) Nr) as (j & A & B); [apply nth_error_nth'; change (length square) with 4; apply K; left; auto|]. congruence.
Qed.
(** Octrees: one hexahedron per leaf (bottom corners around, then top corners), and for each of the six sides a block of quads, one per leaf, going around that side of the cell. *)
Theorem C90_octree c0 w0 T : length c0 = 3 -> (0 < w0)%R -> history 3 c0 w0 T ->
  exists V Q H, bad_quad_mesh_from_quadtree 3 T = Ok (V, Q, H) /\ NoDup V /\ (forall v, In v V <-> exists i b, leaf 3 T i /\ In b cube /\ v = corner T i b)
    /\ (forall i, In i (quadtree_children T) <-> leaf 3 T i) /\ length H = length (quadtree_children T) /\ length Q = 6 * length (quadtree_children T)
    /\ (forall r i, nth_error (quadtree_children T) r = Some i -> exists h, nth_error H r = Some h /\ Forall2 (fun j b => nth_error V j = Some (corner T i b)) h cube)
    /\ (forall r i f axis s, nth_error (quadtree_children T) r = Some i -> nth_error sides f = Some (axis, s) -> exists q l, nth_error Q (f * length (quadtree_children T) + r) = Some q /\ around axis s l /\ Forall2 (fun j b => nth_error V j = Some (corner T i b)) q l).
Proof.
  intros HC HW HH. assert (HD : 3 = 2 \/ 3 = 3) by auto. destruct (history_inv _ _ _ _ HD HC HH) as (Xc & I). set (ls := leaves T). set (n := length ls).
  set (Q := flat_map (fun cols => map (fun q => map (fun k => q + k * n) cols) (seq 0 n)) quad_cols). set (hx := map (fun q => map (fun k => q + k * n) (seq 0 8)) (seq 0 n)).
  assert (RK : forall q k, q < n -> k < 8 -> q + k * n < 8 * n) by (intros q k Lq Lk; nia).
  destruct (merged 3 c0 w0 T Xc HD HW I Q) as (w & SV & SVI & SVJ & G & EM & ER & LJ & ND & SUB & EX & FG).
  { intros f i If Ii. rewrite (V0_len 3 T HD). fold ls n. change (length (bits 3)) with 8. unfold Q in If. apply in_flat_map in If. destruct If as (cols & Ic & If). apply in_map_iff in If. destruct If as (q & <- & Iq). apply in_seq in Iq. apply in_map_iff in Ii. destruct Ii as (k & <- & Ik). apply RK; [lia|].
    cbn [quad_cols In] in Ic. repeat destruct Ic as [<-|Ic]; try contradiction; cbn [In] in Ik; lia. }
  destruct (gather2_some SVJ hx) as (H & EH & FH).
  { intros f i If Ii. rewrite LJ, (V0_len 3 T HD). fold ls n. change (length (bits 3)) with 8. unfold hx in If. apply in_map_iff in If. destruct If as (q & <- & Iq). apply in_seq in Iq. apply in_map_iff in Ii. destruct Ii as (k & <- & Ik). apply in_seq in Ik. apply RK; lia. }
  exists SV, G, H. rewrite <- (leaves_children 3 c0 w0 T Xc HD I). fold ls n.
  assert (AT : forall r i k b, nth_error ls r = Some i -> nth_error cube k = Some b -> exists j, nth_error SVJ (r + k * n) = Some j /\ nth_error SV j = Some (corner T i b)) by (intros r i k b Nr Nk; apply EX; apply (row_at 3 c0 w0 T Xc HD I); auto).
  assert (ROW : forall r i cols q, nth_error ls r = Some i -> (forall k, In k cols -> k < 8) -> Forall2 (fun i j => nth_error SVJ i = Some j) (map (fun k => r + k * n) cols) q -> Forall2 (fun j b => nth_error SV j = Some (corner T i b)) q (map (fun k => nth k cube []) cols)).
  { intros r i cols q Nr. revert q. induction cols as [|k cols IH]; intros q K F; cbn [map] in *; inversion F as [|? x ? l E0 F0]; subst; constructor; [|apply IH; auto; intros; apply K; right; auto]. destruct (AT r i k (nth k cube []) Nr) as (j & A & B); [apply nth_error_nth'; change (length cube) with 8; apply K; left; auto|]. congruence. }
  split; [|split; [|split; [|split; [|split; [|split; [|split]]]]]].
  - unfold bad_quad_mesh_from_quadtree. cbv zeta. rewrite EM. cbn [bind Nat.eqb]. fold ls n Q hx. cbn [Nat.eqb] in ER. fold ls in ER. rewrite ER, EH. reflexivity.
  - auto.
  - intros v. split; [intros Iv; apply (row_in 3 c0 w0 T Xc HD I); auto|]. intros (i & b & Li & Ib & ->). apply (leaves_ok 3 c0 w0 T Xc HD I) in Li. apply In_nth_error in Li, Ib. destruct Li as (r & Nr), Ib as (k & Nk). destruct (AT r i k b Nr Nk) as (j & _ & Nj). apply nth_error_In in Nj. auto.
  - apply (leaves_ok 3 c0 w0 T Xc HD I).
  - rewrite <- (F2_len _ _ _ FH). unfold hx. rewrite map_length, seq_length. reflexivity.
  - rewrite <- (F2_len _ _ _ FG). unfold Q. rewrite (flat_map_const_length _ _ n) by (intros; rewrite map_length, seq_length; auto). reflexivity.
  - intros r i Nr. assert (Lr : r < n) by (unfold n; apply nth_error_Some; congruence). destruct (F2_nth _ _ _ FH r (map (fun k => r + k * n) (seq 0 8))) as (h & Nh & Fh); [unfold hx; rewrite nth_error_map, (nth_error_nth' _ 0) by (rewrite seq_length; auto); rewrite seq_nth by auto; reflexivity|].
    exists h. split; [auto|]. change cube with (map (fun k => nth k cube []) (seq 0 8)). apply (ROW r); auto. intros k Ik. apply in_seq in Ik. lia.
  - intros r i f axis s Nr Nf. assert (Lr : r < n) by (unfold n; apply nth_error_Some; congruence).
    assert (Lf : f < 6) by (change 6 with (length sides); apply nth_error_Some; congruence). set (cols := nth f quad_cols []).
    assert (NQ : nth_error Q (f * n + r) = Some (map (fun k => r + k * n) cols)).
    { apply (nth_error_flat_map_const _ n) with (x := cols); [intros; rewrite map_length, seq_length; auto|apply nth_error_nth'; auto|]. rewrite nth_error_map, (nth_error_nth' _ 0) by (rewrite seq_length; auto). rewrite seq_nth by auto. reflexivity. }
    destruct (F2_nth _ _ _ FG _ _ NQ) as (q & Nq & Fq). exists q, (map (fun k => nth k cube []) cols). split; [auto|]. split; [|apply (ROW r); auto; intros k Ik; unfold cols in Ik; clear -Ik Lf; do 6 (destruct f as [|f]; [cbn in Ik; lia|]); lia].
    clear -Nf Lf. unfold cols.
    assert (OA : forall b c k, (forall l, l < 3 -> (nth l b false <> nth l c false <-> l = k)) -> one_apart b c) by (intros b c k Hk; exists k; auto).
    do 6 (destruct f as [|f]; [cbn in Nf; injection Nf as <- <-; do 4 eexists; split; [reflexivity|]; cbn [map nth quad_cols cube square app]; split; [repeat (apply NoDup_cons; [cbn; intuition discriminate|]); apply NoDup_nil|]; split; [intros x Ix; cbn in Ix; repeat destruct Ix as [<-|Ix]; try contradiction; split; reflexivity|];
      split; [first [solve [apply (OA _ _ 0); (intros l Ll; do 3 (destruct l as [|l]; [cbn; split; intros; (lia || congruence)|]); lia)]|solve [apply (OA _ _ 1); (intros l Ll; do 3 (destruct l as [|l]; [cbn; split; intros; (lia || congruence)|]); lia)]|solve [apply (OA _ _ 2); (intros l Ll; do 3 (destruct l as [|l]; [cbn; split; intros; (lia || congruence)|]); lia)]]|split; [first [solve [apply (OA _ _ 0); (intros l Ll; do 3 (destruct l as [|l]; [cbn; split; intros; (lia || congruence)|]); lia)]|solve [apply (OA _ _ 1); (intros l Ll; do 3 (destruct l as [|l]; [cbn; split; intros; (lia || congruence)|]); lia)]|solve [apply (OA _ _ 2); (intros l Ll; do 3 (destruct l as [|l]; [cbn; split; intros; (lia || congruence)|]); lia)]]|split; [first [solve [apply (OA _ _ 0); (intros l Ll; do 3 (destruct l as [|l]; [cbn; split; intros; (lia || congruence)|]); lia)]|solve [apply (OA _ _ 1); (intros l Ll; do 3 (destruct l as [|l]; [cbn; split; intros; (lia || congruence)|]); lia)]|solve [apply (OA _ _ 2); (intros l Ll; do 3 (destruct l as [|l]; [cbn; split; intros; (lia || congruence)|]); lia)]]|first [solve [apply (OA _ _ 0); (intros l Ll; do 3 (destruct l as [|l]; [cbn; split; intros; (lia || congruence)|]); lia)]|solve [apply (OA _ _ 1); (intros l Ll; do 3 (destruct l as [|l]; [cbn; split; intros; (lia || congruence)|]); lia)]|solve [apply (OA _ _ 2); (intros l Ll; do 3 (destruct l as [|l]; [cbn; split; intros; (lia || congruence)|]); lia)]]]]]|]). lia.
Qed.
(** "H : Matrix of hexahedral mesh indices if input is octree (empty if quadtree)": for quadtrees H is not empty but one row with an entry for every corner of every leaf. *)
Theorem C90_empty_H_refuted c0 w0 T : length c0 = 2 -> (0 < w0)%R -> history 2 c0 w0 T -> exists V Q row, bad_quad_mesh_from_quadtree 2 T = Ok (V, Q, [row]) /\ length row = 4 * length (quadtree_children T) /\ row <> [].
Proof.
  intros HC HW HH. assert (HD : 2 = 2 \/ 2 = 3) by auto. destruct (history_inv _ _ _ _ HD HC HH) as (Xc & I). set (ls := leaves T). set (n := length ls).
  set (Q := map (fun q => [q; q + n; q + 2 * n; q + 3 * n]) (seq 0 n)).
  destruct (merged 2 c0 w0 T Xc HD HW I Q) as (w & SV & SVI & SVJ & G & EM & ER & LJ & ND & SUB & EX & FG).
  { intros f i If Ii. rewrite (V0_len 2 T HD). fold ls n. apply in_map_iff in If. destruct If as (q & <- & Iq). apply in_seq in Iq. cbn [length bits Nat.eqb square]. cbn [In] in Ii. destruct Ii as [<-|[<-|[<-|[<-|[]]]]]; lia. }
  exists SV, G, SVJ. rewrite (V0_len 2 T HD) in LJ. fold ls n in LJ. change (length (bits 2)) with 4 in LJ. rewrite <- (leaves_children 2 c0 w0 T Xc HD I). fold ls n. split; [|split; [auto|]].
  - unfold bad_quad_mesh_from_quadtree. cbv zeta. rewrite EM. cbn [bind Nat.eqb]. fold ls n Q. cbn [Nat.eqb] in ER. fold ls in ER. rewrite ER. reflexivity.
  - intros E. rewrite E in LJ. cbn in LJ. pose proof (leaves_nonempty 2 c0 w0 T Xc HD I) as NE. fold ls in NE. unfold n in LJ. destruct ls; [congruence|cbn in LJ; lia].
Qed.
(** such trees exist: the root split, then one of its children *)
Theorem C90_example : history 2 [0%R; 0%R] 2 tree2b /\ length (quadtree_children tree2b) = 7.
Proof. split; [exact history2b|reflexivity]. Qed.
