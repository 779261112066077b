(** C66: angle defect.  Code: DefectModel.v; vocabulary: TopoSpec.v, GeomSpec.v *)
From Coq Require Import Reals Ratan Psatz.
From Verif Require Import NumpyModel TopoSpec TopoModel TopoProofs HemProofs Subdiv2Proofs LoopSubProofs.
From Verif Require Import PyExn Vec MatModel MatProofs GeomSpec GeomModel GeomProofs AngleModel AngleProofs P_Angle DefectModel P_Topo.
Open Scope R_scope.

(** v lies on a boundary edge of F *)
Definition on_boundary (F : list tri) (v : Z) : Prop :=
  exists e, In e (all_sides F) /\ incidence F e = 1%nat /\ (v = fst e \/ v = snd e).
(** sum of the angles of one face at its corners that are vertex v *)
Definition angles_at (v : Z) (t : tri) (g : r3) : R :=
  sumf (fun i => if (corner t i =? v)%Z then row3 g i else 0) [0; 1; 2]%nat.
Definition total_defect (k : list R) : R := sumf (fun x => x) k.

Lemma ravel_at v t g : sumf (fun p => if (fst p =? v)%Z then snd p else 0) (ravel3 (t, g)) = angles_at v t g.
Proof. destruct t as [[a b] c], g as [[x y] z]. unfold angles_at, corner, row3, X, Y, Zc. cbn. ring. Qed.
Lemma len_max (l : list (Z * R)) n : (forall p, In p l -> (fst p < n)%Z) -> fold_right (fun p m => Z.max (fst p + 1) m) n l = n.
Proof. induction l as [|p l IH]; intro H; cbn; [reflexivity|]. rewrite IH by (intros; apply H; now right). pose proof (H p (or_introl eq_refl)). lia. Qed.
Lemma ravel_valid n L (g : tri * r3 -> r3) : valid n (map fst L) -> forall p, In p (flat_map (fun p => ravel3 (fst p, g p)) L) -> (0 <= fst p < n)%Z.
Proof.
  intros H p Hp. apply in_flat_map in Hp as ([t l] & Hq & Hp). specialize (H t (in_map fst _ _ Hq)). destruct t as [[a b] c]. unfold c0, c1, c2 in H. cbn in *. destruct Hp as [ <- | [ <- | [ <- | [] ] ] ]; cbn; tauto.
Qed.
Lemma bincount_ok l n : (forall p, In p l -> (0 <= fst p < n)%Z) ->
  bincount l n = Ok (map (fun k => sumf (fun p => if (fst p =? Z.of_nat k)%Z then snd p else 0) l) (seq 0 (Z.to_nat n))).
Proof.
  intro H. unfold bincount. replace (existsb _ l) with false. 2:{ symmetry. apply Bool.not_true_is_false. intro E. apply existsb_exists in E as (p & Hp & E). apply Z.ltb_lt in E. specialize (H p Hp). lia. }
  rewrite len_max by (intros p Hp; apply H, Hp). reflexivity.
Qed.
Lemma combine_seq_nth {A} (l : list A) : forall s i x, nth_error l i = Some x -> nth_error (combine (seq s (length l)) l) i = Some ((s + i)%nat, x).
Proof.
  induction l as [|y l IH]; intros s [|i] x H; cbn in *; try discriminate. { rewrite Nat.add_0_r. congruence. } rewrite (IH _ _ _ H). do 2 f_equal. lia.
Qed.

Theorem C66_values : forall approx small L n, L <> [] -> valid (Z.of_nat n) (map fst L) ->
  exists k, angle_defect_intrinsic approx small L (Some (Z.of_nat n)) = Ok k /\ length k = n /\
  forall v, (v < n)%nat ->
    (on_boundary (map fst L) (Z.of_nat v) -> nth v k 1 = 0) /\
    (~ on_boundary (map fst L) (Z.of_nat v) ->
       nth v k 1 = 2 * PI - sumf (fun p => angles_at (Z.of_nat v) (fst p) (tip_angles_intrinsic approx small (snd p))) L).
Proof.
  intros approx small L n NE Va. unfold angle_defect_intrinsic.
  rewrite bincount_ok by (apply ravel_valid, Va). cbn [bind].
  destruct (boundary_vertices_ok (map fst L)) as (B & -> & _ & HB). { destruct L; [congruence|discriminate]. }
  cbn [lift bind]. rewrite Nat2Z.id, map_map. eexists. split; [reflexivity|].
  assert (forall l b, length (zero_at l b) = length l) as ZL. { intros l b. unfold zero_at. rewrite map_length, combine_length, seq_length. lia. }
  split; [rewrite ZL, map_length, seq_length; reflexivity|]. intros v Hv.
  set (val := fun j : nat => 2 * PI - sumf (fun p => angles_at (Z.of_nat j) (fst p) (tip_angles_intrinsic approx small (snd p))) L).
  set (l := map _ (seq 0 n)).
  assert (nth_error l v = Some (val v)) as E.
  { unfold l. rewrite nth_error_map. rewrite (nth_error_nth' _ 0%nat) by (rewrite seq_length; lia). rewrite seq_nth by lia. cbn [option_map Nat.add]. f_equal. unfold val. f_equal. rewrite sumf_flat_map. apply sumf_ext. intros p _. apply ravel_at. }
  assert (nth_error (zero_at l B) v = Some (if existsb (fun j => (j =? Z.of_nat v)%Z) B then 0 else val v)) as E2.
  { unfold zero_at. rewrite nth_error_map, (combine_seq_nth _ _ _ _ E). reflexivity. }
  rewrite (nth_error_nth _ _ _ E2). split; intro H.
  - replace (existsb _ B) with true; [reflexivity|]. symmetry. apply existsb_exists. exists (Z.of_nat v). split; [|apply Z.eqb_refl]. apply HB. exact H.
  - replace (existsb _ B) with false; [reflexivity|]. symmetry. apply Bool.not_true_is_false. intro Q. apply existsb_exists in Q as (j & Hj & Q). apply Z.eqb_eq in Q. subst. apply H. apply HB. exact Hj.
Qed.
Print Assumptions C66_values.

(** every undirected edge is shared by exactly two faces *)
Definition closed_mesh (F : list tri) : Prop := forall e, In e (all_sides F) -> incidence F e = 2%nat.

Lemma count_sides F E : (forall e, (exists e', In e' E /\ same_edge e e') <-> (0 < incidence F e)%nat) ->
  (forall k l e f, nth_error E k = Some e -> nth_error E l = Some f -> same_edge e f -> k = l) ->
  sumf (fun e => INR (incidence F e)) E = 3 * INR (length F).
Proof.
  intros H1 H2. transitivity (sumf (fun e => sumf (fun s => if same_edgeb e s then 1 else 0) (all_sides F)) E).
  { apply sumf_ext. intros e _. unfold incidence. rewrite filter_length_sum. reflexivity. }
  rewrite sumf_swap.
  assert (length (all_sides F) = 3 * length F)%nat as LS. { unfold all_sides. clear. induction F as [|[[a b] c] F IH]; cbn; [reflexivity|]. cbn in IH. lia. }
  transitivity (sumf (fun _ : Z * Z => 1) (all_sides F)). 2:{ rewrite sumf_const, LS, mult_INR. cbn [INR]. ring. }
  apply sumf_ext. intros s Hs. destruct (proj2 (H1 s) (incidence_side F s Hs)) as (e & He & Se).
  assert (NoDup E) as ND. { apply NoDup_nth_error. intros i j Hi Eq. destruct (nth_error E i) as [x|] eqn:Ex; [|apply nth_error_None in Ex; lia]. eapply H2; [exact Ex|symmetry; exact Eq|]. left; auto. }
  assert (forall x y, same_edgeb x y = true <-> same_edge x y) as SB. { intros [a b] [c d]. unfold same_edgeb, same_edge. cbn. rewrite orb_true_iff, !andb_true_iff, !Z.eqb_eq. reflexivity. }
  rewrite (sumf_unique (fun x => same_edgeb x s) (fun _ => 1) E e); [reflexivity|exact ND|exact He| |].
  - apply SB. destruct Se as [ [A B] | [A B] ]; [left|right]; auto.
  - intros x Hx Sx. apply SB in Sx.
    apply In_nth_error in He as (i & Hi). apply In_nth_error in Hx as (j & Hj). assert (j = i) by (eapply H2; [exact Hj|exact Hi|]; destruct Se as [ [A B] | [A B] ], Sx as [ [C D] | [C D] ]; unfold same_edge; intuition congruence). subst. congruence.
Qed.

(** Gauss-Bonnet: on a closed mesh the defects add up to 2 pi (V - E + F) *)
Theorem C66_gauss_bonnet : forall approx small L n E bi ii nm, L <> [] -> valid (Z.of_nat n) (map fst L) ->
  Forall (fun p => side_lengths (snd p) /\ (approx = true -> not_small small (snd p))) L ->
  closed_mesh (map fst L) -> edges (map fst L) = Some (E, bi, ii, nm) ->
  exists k, angle_defect_intrinsic approx small L (Some (Z.of_nat n)) = Ok k /\
    total_defect k = 2 * PI * INR n - PI * INR (length L) /\
    total_defect k = 2 * PI * (INR n - INR (length E) + INR (length L)).
Proof.
  intros approx small L n E bi ii nm NE Va SL CM EE.
  destruct (C66_values approx small L n NE Va) as (k & Ek & Lk & Hk). exists k. split; [exact Ek|].
  assert (total_defect k = 2 * PI * INR n - PI * INR (length L)) as T.
  { unfold total_defect. rewrite (Subdiv3Proofs.sumf_nth (fun x => x) 1 k), Lk.
    transitivity (sumn n (fun v => 2 * PI - sumf (fun p => angles_at (Z.of_nat v) (fst p) (tip_angles_intrinsic approx small (snd p))) L)).
    { unfold sumn. apply sumf_ext. intros v Hv. apply in_seq in Hv. apply Hk; [lia|]. intros (e & He & Hi & _). rewrite (CM e He) in Hi. discriminate. }
    unfold sumn. rewrite sumf_minus, sumf_const, seq_length. f_equal; [ring|]. rewrite sumf_swap.
    transitivity (sumf (fun _ : tri * r3 => PI) L). 2:{ rewrite sumf_const. ring. }
    apply sumf_ext. intros [t l] Hp. rewrite Forall_forall in SL. destruct (SL _ Hp) as [S1 S2]. cbn [fst snd] in *.
    destruct (C59_cosine_rule approx small l S1 S2) as (_ & _ & _ & _ & _ & _ & SUM). cbv zeta in SUM. rewrite <- SUM. set (g := tip_angles_intrinsic approx small l). clearbody g.
    pose proof (Va t (in_map fst _ _ Hp)) as (V0 & V1 & V2). destruct t as [[a b] c]. unfold c0, c1, c2 in V0, V1, V2. cbn [fst snd] in *. unfold angles_at. cbn [sumf].
    rewrite !sumf_plus. 
    pose proof (sumn_pick n a (fun _ => X g) V0) as P0. pose proof (sumn_pick n b (fun _ => Y g) V1) as P1. pose proof (sumn_pick n c (fun _ => Zc g) V2) as P2. unfold sumn in *.
    unfold corner, row3. cbn. rewrite sumf_zero with (f := fun _ => 0) by reflexivity.
    unfold X, Y, Zc in *. rewrite Rplus_0_r, Rplus_assoc. f_equal; [|f_equal]. all: (etransitivity; [|eassumption]); apply sumf_ext; intros v _; rewrite Z.eqb_sym; reflexivity. }
  split; [exact T|]. rewrite T.
  destruct (C02_edges (map fst L)) as [_ C2]. destruct (C2 _ _ _ _ EE) as (A & B & _).
  pose proof (count_sides _ _ A B) as CS. rewrite map_length in CS.
  assert (sumf (fun e => INR (incidence (map fst L) e)) E = 2 * INR (length E)) as CE.
  { rewrite (sumf_ext _ (fun _ => 2)); [rewrite sumf_const; ring|]. intros e He.
    assert (0 < incidence (map fst L) e)%nat as P by (apply A; exists e; split; [exact He|left; auto]).
    assert (exists s, In s (all_sides (map fst L)) /\ same_edge e s) as (s & Hs & Se).
    { unfold incidence in P. destruct (filter _ _) as [|s r] eqn:Ef; [cbn in P; lia|]. exists s. assert (In s (filter (same_edgeb e) (all_sides (map fst L)))) as Q by (rewrite Ef; now left). apply filter_In in Q as [Q1 Q2]. split; [exact Q1|]. destruct e as [a b], s as [c d]. unfold same_edgeb in Q2. unfold same_edge. cbn in *. rewrite orb_true_iff, !andb_true_iff, !Z.eqb_eq in Q2. exact Q2. }
    rewrite (same_edge_incidence _ e s Se), (CM s Hs). cbn. ring. }
  rewrite CS in CE. replace (INR (length E)) with (3 / 2 * INR (length L)) by lra. field.
Qed.
Print Assumptions C66_gauss_bonnet.

(** ** planar meshes *)
(** the sides opposite the corners that are vertex v, oriented as their faces *)
Definition link (F : list tri) (v : Z) : list (Z * Z) :=
  flat_map (fun t => map (side_opp t) (filter (fun i => (corner t i =? v)%Z) [0; 1; 2]%nat)) F.

From Coq Require Import Permutation.
From Verif Require Import LoopsModel SqDistModel AabbModel WindModel WindProofs P_Wind.

Lemma link_In F v a b : In (a, b) (link F v) <-> exists t i, In t F /\ (i < 3)%nat /\ corner t i = v /\ a = corner t (i + 1) /\ b = corner t (i + 2).
Proof.
  unfold link. rewrite in_flat_map. split.
  - intros (t & Ht & H). apply in_map_iff in H as (i & E & Hi). apply filter_In in Hi as [Hi Q]. apply Z.eqb_eq in Q. exists t, i. unfold side_opp in E. injection E. intros. repeat split; auto. cbn in Hi. lia.
  - intros (t & i & Ht & Hi & Q & -> & ->). exists t. split; [exact Ht|]. apply in_map_iff. exists i. split; [reflexivity|]. apply filter_In. split; [cbn; lia|]. apply Z.eqb_eq. exact Q.
Qed.
Lemma side_in F v b : In (v, b) (all_sides F) <-> exists t i, In t F /\ (i < 3)%nat /\ corner t i = v /\ b = corner t (i + 1).
Proof.
  unfold all_sides. rewrite in_flat_map. split.
  - intros ([[x y] z] & Ht & H). cbn in H. destruct H as [ E | [ E | [ E | [] ] ] ]; injection E; intros <- <-; [exists (x,y,z), 0%nat|exists (x,y,z), 1%nat|exists (x,y,z), 2%nat]; repeat split; auto; lia.
  - intros ([[x y] z] & i & Ht & Hi & Q & ->). exists (x,y,z). split; [exact Ht|]. destruct i as [|[|[|i]]]; [| | |lia]; cbn in *; subst; auto.
Qed.
Lemma side_in2 F v b : In (b, v) (all_sides F) <-> exists t i, In t F /\ (i < 3)%nat /\ corner t i = v /\ b = corner t (i + 2).
Proof.
  unfold all_sides. rewrite in_flat_map. split.
  - intros ([[x y] z] & Ht & H). cbn in H. destruct H as [ E | [ E | [ E | [] ] ] ]; injection E; intros <- <-; [exists (x,y,z), 1%nat|exists (x,y,z), 2%nat|exists (x,y,z), 0%nat]; repeat split; auto; lia.
  - intros ([[x y] z] & i & Ht & Hi & Q & ->). exists (x,y,z). split; [exact Ht|]. destruct i as [|[|[|i]]]; [| | |lia]; cbn in *; subst; auto.
Qed.
(** one directed side into and out of v per entry of the link *)
Lemma link_fst F v : map fst (link F v) = flat_map (fun t => map (fun i => corner t (i + 1)) (filter (fun i => (corner t i =? v)%Z) [0; 1; 2]%nat)) F.
Proof. unfold link. rewrite !flat_map_concat_map, concat_map, map_map. f_equal. apply map_ext. intro t. rewrite map_map. reflexivity. Qed.
Lemma link_snd F v : map snd (link F v) = flat_map (fun t => map (fun i => corner t (i + 2)) (filter (fun i => (corner t i =? v)%Z) [0; 1; 2]%nat)) F.
Proof. unfold link. rewrite !flat_map_concat_map, concat_map, map_map. f_equal. apply map_ext. intro t. rewrite map_map. reflexivity. Qed.
Lemma out_sides F v : map (fun b => (v, b)) (map fst (link F v)) = filter (fun s => (fst s =? v)%Z) (all_sides F).
Proof.
  rewrite link_fst. induction F as [|[[a b] c] F IH]; [reflexivity|]. cbn [flat_map all_sides]. rewrite map_app, filter_app, IH. f_equal. cbn.
  destruct (Z.eqb_spec a v), (Z.eqb_spec b v), (Z.eqb_spec c v); subst; reflexivity.
Qed.
Lemma in_sides F v : Permutation (map (fun b => (b, v)) (map snd (link F v))) (filter (fun s => (snd s =? v)%Z) (all_sides F)).
Proof.
  rewrite link_snd. induction F as [|[[a b] c] F IH]; [constructor|]. cbn [flat_map all_sides]. rewrite map_app, filter_app. apply Permutation_app; [|exact IH]. cbn.
  destruct (Z.eqb_spec a v), (Z.eqb_spec b v), (Z.eqb_spec c v); subst; cbn; try apply Permutation_refl.
  all: repeat (apply perm_swap || (eapply perm_trans; [apply perm_swap|]; apply perm_skip)).
Qed.
Lemma twin F a b : oriented_manifold F -> In (a, b) (all_sides F) -> incidence F (a, b) <> 1%nat -> In (b, a) (all_sides F).
Proof.
  intros OM H N. pose proof (incidence_side F _ H) as P. pose proof (incidence_le_2 F (a, b) OM) as U. assert (incidence F (a, b) = 2%nat) as Q by lia.
  destruct (incidence_two F (a, b) OM Q) as [ _ [ T _ ] ]. exact T.
Qed.
Lemma link_closed F v : oriented_manifold F -> ~ on_boundary F v -> closed_curve (link F v).
Proof.
  intros OM NB. unfold closed_curve. apply NoDup_Permutation.
  - apply (NoDup_map_inv (fun b => (v, b))). rewrite out_sides. apply NoDup_filter, OM.
  - apply (NoDup_map_inv (fun b => (b, v))). eapply Permutation_NoDup; [apply Permutation_sym, in_sides|]. apply NoDup_filter, OM.
  - assert (forall b, In b (map fst (link F v)) <-> In (v, b) (all_sides F)) as I1.
    { intro b. rewrite side_in, in_map_iff. split. - intros ([x y] & <- & H). apply link_In in H as (t & i & ? & ? & ? & ? & ?). exists t, i. auto.
      - intros (t & i & ? & ? & ? & ->). exists (corner t (i+1), corner t (i+2)). split; [reflexivity|]. apply link_In. exists t, i. auto 6. }
    assert (forall b, In b (map snd (link F v)) <-> In (b, v) (all_sides F)) as I2.
    { intro b. rewrite side_in2, in_map_iff. split. - intros ([x y] & <- & H). apply link_In in H as (t & i & ? & ? & ? & ? & ?). exists t, i. auto.
      - intros (t & i & ? & ? & ? & ->). exists (corner t (i+1), corner t (i+2)). split; [reflexivity|]. apply link_In. exists t, i. auto 6. }
    intro b. rewrite I1, I2. split; intro H; (apply twin; [exact OM|exact H|]); intro Q; apply NB; [exists (v, b)|exists (b, v)]; cbn; auto.
Qed.

(** the tip angle of a positively oriented planar triangle is the turning angle of the opposite side *)
Lemma planar_tip V t small i : 0 < left_of (vtx V (c0 t)) (vtx V (c1 t)) (vtx V (c2 t)) -> (i < 3)%nat ->
  row3 (tip_angles (fun j => row2 (vtx V j)) false small t) i = edge_angle (vtx V (corner t i)) (vtx V (corner t (i + 1))) (vtx V (corner t (i + 2))) /\
  ~ on_segment (vtx V (corner t (i + 1))) (vtx V (corner t (i + 2))) (vtx V (corner t i)) /\
  0 < row3 (tip_angles (fun j => row2 (vtx V j)) false small t) i.
Proof.
  intros P Hi.
  assert (forall a b : vec2, 0 < left_of a b (0,0) -> True) as _ by trivial.
  set (p0 := vtx V (c0 t)) in *. set (p1 := vtx V (c1 t)) in *. set (p2 := vtx V (c2 t)) in *.
  assert (forall a b c : vec2, 0 < left_of a b c -> 0 < sqlen (row2 a) (row2 b) /\ 0 < left_of b c a /\ ~ on_segment a b c) as PP.
  { intros [a0 a1] [b0 b1] [d0 d1] Q. unfold left_of, sqlen in *. cbn in *. split; [|split].
    - destruct (Req_dec a0 b0) as [Z|N]; [|pose proof (Rsqr_pos_lt (a0 - b0) ltac:(lra)) as Q1; pose proof (Rle_0_sqr (a1 - b1)) as Q2; unfold Rsqr in *; lra].
      destruct (Req_dec a1 b1) as [Z2|N]; [subst; exfalso; lra|]. pose proof (Rsqr_pos_lt (a1 - b1) ltac:(lra)) as Q1; pose proof (Rle_0_sqr (a0 - b0)) as Q2; unfold Rsqr in *; lra.
    - lra.
    - intros (s & Hs & E). unfold add2, scal2, sub2 in E. cbn in E. injection E. intros -> ->. ring_simplify in Q. lra. }
  destruct (PP p0 p1 p2 P) as (L01 & P1 & N2). destruct (PP p1 p2 p0 P1) as (L12 & P2 & N0). destruct (PP p2 p0 p1 P2) as (L20 & _ & N1).
  destruct (C59_positions (fun j => row2 (vtx V j)) t small false 2%nat eq_refl eq_refl eq_refl L01 L12 L20 ltac:(discriminate)) as (A0 & A1 & A2 & _).
  cbv zeta in A0, A1, A2. set (g := tip_angles _ false small t) in *. clearbody g.
  assert (forall (o s d : vec2) x, 0 < left_of s d o -> 0 < sqlen (row2 s) (row2 o) -> 0 < sqlen (row2 d) (row2 o) -> ~ on_segment s d o ->
    (0 <= x <= PI /\ dotl (subl (row2 s) (row2 o)) (subl (row2 d) (row2 o)) = sqrt (dotl (subl (row2 s) (row2 o)) (subl (row2 s) (row2 o))) * sqrt (dotl (subl (row2 d) (row2 o)) (subl (row2 d) (row2 o))) * cos x) ->
    x = edge_angle o s d /\ 0 < x) as K.
  { clear. intros [o0 o1] [s0 s1] [d0 d1] x Q Ls Ld N [B E]. assert (edge_angle (o0, o1) (s0, s1) (d0, d1) = x) as EA.
    2:{ split; [symmetry; exact EA|]. destruct (Req_dec x 0) as [Z|]; [exfalso|lra]. rewrite Z in EA. revert EA. rewrite edge_angle_pos by exact N. intro EA. destruct (atan2_ok (dot2 (sub2 (s0,s1) (o0,o1)) (sub2 (d0,d1) (o0,o1))) (det (sub2 (s0,s1) (o0,o1)) (sub2 (d0,d1) (o0,o1)))) as (_ & _ & S). { right. change (det (sub2 (s0,s1) (o0,o1)) (sub2 (d0,d1) (o0,o1))) with (left_of (s0,s1) (d0,d1) (o0,o1)). lra. }
      rewrite EA, sin_0 in S. change (det (sub2 (s0,s1) (o0,o1)) (sub2 (d0,d1) (o0,o1))) with (left_of (s0,s1) (d0,d1) (o0,o1)) in S. lra. }
    unfold sqlen, row2 in *. rewrite edge_angle_pos by exact N. cbn [fst snd subl dotl] in *.
    set (A := (s0 - o0) * (s0 - o0) + ((s1 - o1) * (s1 - o1) + 0)) in *. set (C := (d0 - o0) * (d0 - o0) + ((d1 - o1) * (d1 - o1) + 0)) in *.
    pose proof (sqrt_lt_R0 A Ls) as SA. pose proof (sqrt_lt_R0 C Ld) as SC. pose proof (sqrt_sqrt A ltac:(lra)) as QA. pose proof (sqrt_sqrt C ltac:(lra)) as QC.
    assert (sin x >= 0) as SX by (apply Rle_ge, sin_ge_0; lra). pose proof (sin2_cos2 x) as SC2. unfold Rsqr in SC2.
    unfold left_of in Q. cbn [fst snd] in Q. set (D := (s0 - o0) * (d1 - o1) - (s1 - o1) * (d0 - o0)) in *.
    assert (D * D = (sqrt A * sqrt C * sin x) * (sqrt A * sqrt C * sin x)) as DD.
    { set (dt := (s0 - o0) * (d0 - o0) + ((s1 - o1) * (d1 - o1) + 0)) in *. assert (D * D + dt * dt = A * C) as La by (unfold D, dt, A, C; ring).
      assert (dt * dt = A * C * (cos x * cos x)) as E2. { rewrite E. transitivity ((sqrt A * sqrt A) * (sqrt C * sqrt C) * (cos x * cos x)); [ring|]. rewrite QA, QC. reflexivity. }
      transitivity ((sqrt A * sqrt A) * (sqrt C * sqrt C) * (sin x * sin x)); [|ring]. rewrite QA, QC. replace (sin x * sin x) with (1 - cos x * cos x) by lra. lra. }
    assert (D = sqrt A * sqrt C * sin x) as DE.
    { assert (0 <= sqrt A * sqrt C * sin x) by (apply Rmult_le_pos; [apply Rmult_le_pos; lra|lra]). apply Rsqr_inj; [lra|assumption|exact DD]. }
    apply (atan2_unique _ _ (sqrt A * sqrt C)); [apply Rmult_lt_0_compat; assumption| | |pose proof PI_RGT_0; lra].
    - rewrite <- E. unfold dot2, sub2. cbn [fst snd]. ring.
    - rewrite <- DE. reflexivity. }
  assert (forall a b : vec2, sqlen (row2 a) (row2 b) = sqlen (row2 b) (row2 a)) as SY by (intros; unfold sqlen; cbn; ring).
  unfold p0, p1, p2 in *. clear p0 p1 p2. destruct t as [[a b] c]. unfold c0, c1, c2, X, Y, Zc in *. cbn [fst snd] in *.
  destruct i as [|[|[|i]]]; [| | |lia]; cbn [corner row3 Nat.add Nat.modulo Nat.divmod Nat.sub fst snd].
  - destruct (K (vtx V a) (vtx V b) (vtx V c) (fst (fst g))) as [K1 K2]; [lra|rewrite SY; assumption|assumption|exact N0|exact A0|]. split; [exact K1|]. split; [exact N0|exact K2].
  - destruct (K (vtx V b) (vtx V c) (vtx V a) (snd (fst g))) as [K1 K2]; [lra|rewrite SY; assumption|assumption|exact N1|exact A1|]. split; [exact K1|]. split; [exact N1|exact K2].
  - destruct (K (vtx V c) (vtx V a) (vtx V b) (snd g)) as [K1 K2]; [lra|rewrite SY; assumption|assumption|exact N2|exact A2|]. split; [exact K1|]. split; [exact N2|exact K2].
Qed.

Lemma suml_app l l' : suml (l ++ l') = suml l + suml l'.
Proof. induction l; cbn; [ring|]. rewrite IHl. ring. Qed.
(** In a planar mesh with positively oriented faces the defect of an interior vertex is 2 pi (1 - w), where w is
    the number of times the ring of opposite sides winds around it: zero exactly when it winds once. *)
Theorem C66_planar : forall V F small v, F <> [] -> valid (Z.of_nat (length V)) F -> oriented_manifold F ->
  (forall t, In t F -> 0 < left_of (vtx V (c0 t)) (vtx V (c1 t)) (vtx V (c2 t))) ->
  (v < length V)%nat -> ~ on_boundary F (Z.of_nat v) ->
  exists k w, angle_defect (fun j => row2 (vtx V j)) (Z.of_nat (length V)) F false small = Ok k /\
    winding_number [vtx V (Z.of_nat v)] V (link F (Z.of_nat v)) = Ok [IZR w] /\ w = crossings V (link F (Z.of_nat v)) (vtx V (Z.of_nat v)) /\
    nth v k 1 = 2 * PI * (1 - IZR w) /\ ((exists t, In t F /\ exists i, corner t i = Z.of_nat v) -> (1 <= w)%Z).
Proof.
  intros V F small v NE Va OM PO Hv NB. set (z := Z.of_nat v) in *.
  destruct (C66_values false small (with_lsq (fun j => row2 (vtx V j)) F) (length V)) as (k & Ek & Lk & Hk).
  { destruct F; [congruence|discriminate]. }
  { unfold with_lsq. rewrite map_map, map_id. exact Va. }
  assert (map fst (with_lsq (fun j => row2 (vtx V j)) F) = F) as MF by (unfold with_lsq; rewrite map_map; apply map_id).
  rewrite MF in Hk. specialize (proj2 (Hk v Hv) NB). intro Kv. clear Hk. fold z in Kv.
  unfold with_lsq in Kv. rewrite sumf_map in Kv. cbn [fst snd] in Kv.
  set (o := vtx V z) in *.
  assert (sumf (fun t => angles_at z t (tip_angles (fun j => row2 (vtx V j)) false small t)) F = suml (map (fun e => edge_angle o (vtx V (fst e)) (vtx V (snd e))) (link F z))) as S1.
  { unfold link. clear - PO. induction F as [|t F IH]; [reflexivity|]. cbn [sumf flat_map]. rewrite map_app, suml_app, IH by (intros; apply PO; now right). f_equal. clear IH.
    assert (forall i, (i < 3)%nat -> corner t i = z -> row3 (tip_angles (fun j => row2 (vtx V j)) false small t) i = edge_angle o (vtx V (fst (side_opp t i))) (vtx V (snd (side_opp t i)))) as Q.
    { intros i Hi C. unfold side_opp, o. cbn [fst snd]. rewrite <- C. apply planar_tip; [apply PO; now left|exact Hi]. }
    unfold angles_at. cbn [sumf filter]. destruct (Z.eqb_spec (corner t 0) z), (Z.eqb_spec (corner t 1) z), (Z.eqb_spec (corner t 2) z); cbn [map suml]; rewrite ?Q by (lia || assumption); ring. }
  assert (good_edges V (link F z)) as GE.
  { unfold good_edges. apply Forall_forall. intros [a b] H. apply link_In in H as (t & i & Ht & Hi & _ & -> & ->). destruct (Va t Ht) as (B0 & B1 & B2). destruct t as [[x y] w]. unfold c0, c1, c2 in *. cbn [fst snd] in *. destruct i as [|[|[|i]]]; [| | |lia]; cbn; tauto. }
  assert (off_curve V (link F z) o) as OC.
  { intros [a b] H. apply link_In in H as (t & i & Ht & Hi & C & -> & ->). cbn [fst snd]. unfold o. rewrite <- C. apply (planar_tip V t small i); [apply PO, Ht|exact Hi]. }
  pose proof (C64_crossings [o] V (link F z) GE (link_closed F z OM NB)) as CR. specialize (CR ltac:(intros o' [ <- | [] ]; exact OC)). cbn [map] in CR.
  pose proof CR as CR2. rewrite wind_eq in CR2 by exact GE. cbn [map] in CR2. injection CR2. intro W. clear CR2.
  exists k, (crossings V (link F z) o). split; [exact Ek|]. split; [exact CR|]. split; [reflexivity|].
  assert (suml (map (fun e => edge_angle o (vtx V (fst e)) (vtx V (snd e))) (link F z)) = 2 * PI * IZR (crossings V (link F z) o)) as W2.
  { rewrite <- W. pose proof PI_RGT_0. field. lra. }
  split.
  - rewrite Kv. change (fun t => angles_at z t (tip_angles_intrinsic false small (lsq_face (fun j => row2 (vtx V j)) t))) with (fun t => angles_at z t (tip_angles (fun j => row2 (vtx V j)) false small t)). rewrite S1, W2. ring.
  - intros (t & Ht & i & C).
    assert (0 < suml (map (fun e => edge_angle o (vtx V (fst e)) (vtx V (snd e))) (link F z))) as POS.
    { assert (forall e, In e (link F z) -> 0 < edge_angle o (vtx V (fst e)) (vtx V (snd e))) as EP.
      { intros [a b] H. apply link_In in H as (t' & i' & Ht' & Hi' & C' & -> & ->). cbn [fst snd]. unfold o. rewrite <- C'. destruct (planar_tip V t' small i') as (Q & _ & P); [apply PO, Ht'|exact Hi'|]. rewrite <- Q. exact P. }
      assert (link F z <> []) as LN.
      { assert (exists j, (j < 3)%nat /\ corner t j = z) as (j & Hj & Cj). { exists (i mod 3)%nat. split; [apply Nat.mod_upper_bound; lia|]. rewrite <- C. unfold corner. destruct t as [[x y] w]. rewrite Nat.mod_mod by lia. reflexivity. }
        intro Q. assert (In (corner t (j + 1), corner t (j + 2)) (link F z)) as I by (apply link_In; exists t, j; auto 6). rewrite Q in I. destruct I. }
      destruct (link F z) as [|e l]; [congruence|]. cbn [map suml]. pose proof (EP e (or_introl eq_refl)).
      assert (0 <= suml (map (fun e => edge_angle o (vtx V (fst e)) (vtx V (snd e))) l)); [|lra].
      assert (forall e, In e l -> 0 < edge_angle o (vtx V (fst e)) (vtx V (snd e))) as EP2 by (intros; apply EP; now right). clear - EP2. induction l as [|e l IH]; cbn; [lra|]. pose proof (EP2 e (or_introl eq_refl)). specialize (IH (fun e H => EP2 e (or_intror H))). lra. }
    rewrite W2 in POS. pose proof PI_RGT_0. assert (0 < IZR (crossings V (link F z) o)) as P2 by nra. apply lt_IZR in P2. lia.
Qed.
Print Assumptions C66_planar.

(** with the default small-angle series, Gauss-Bonnet fails for small meshes: a small regular tetrahedron *)
Definition tetra (s : R) : faces_lsq := map (fun t => (t, (s, s, s))) [(0,1,2); (0,2,3); (0,3,1); (1,3,2)]%Z.
Lemma tetra_closed s : closed_mesh (map fst (tetra s)) /\ valid 4 (map fst (tetra s)).
Proof.
  split.
  - intros e He. cbn in He. repeat (destruct He as [ <- | He ]; [reflexivity|]). destruct He.
  - intros t Ht. cbn in Ht. unfold c0, c1, c2. repeat (destruct Ht as [ <- | Ht ]; [cbn; lia|]). destruct Ht.
Qed.
Theorem C66_small_refuted : forall small s, 0 < s < small -> small < 4 ->
  exists E bi ii nm k, valid 4 (map fst (tetra s)) /\ closed_mesh (map fst (tetra s)) /\ Forall (fun p => side_lengths (snd p)) (tetra s) /\
    edges (map fst (tetra s)) = Some (E, bi, ii, nm) /\ INR 4 - INR (length E) + INR (length (tetra s)) = 2 /\
    angle_defect_intrinsic true small (tetra s) (Some 4%Z) = Ok k /\ total_defect k = 8 * PI - 12 /\ total_defect k <> 4 * PI.
Proof.
  intros small s Hs H4. destruct (tetra_closed s) as [CM VA].
  destruct (C59_scale_refuted small ltac:(lra) H4 s Hs) as (E1 & _ & P3 & a & b & c & SL & _).
  destruct (C66_values true small (tetra s) 4 ltac:(discriminate) VA) as (k & Ek & Lk & Hk).
  do 4 eexists. exists k. split; [exact VA|]. split; [exact CM|]. split.
  { unfold tetra. apply Forall_forall. intros p Hp. apply in_map_iff in Hp as (t & <- & _). exact SL. }
  split; [vm_compute; reflexivity|]. split; [cbn; ring|]. split; [exact Ek|].
  assert (total_defect k = 8 * PI - 12) as T; [|split; [exact T|lra]].
  destruct k as [|k0 [|k1 [|k2 [|k3 [|]]]]]; try discriminate Lk.
  assert (forall v, (v < 4)%nat -> nth v [k0; k1; k2; k3] 1 = 2 * PI - 3) as K.
  { intros v Hv. rewrite (proj2 (Hk v Hv)). 2:{ intros (e & He & Q & _). rewrite (CM e He) in Q. discriminate. }
    f_equal. unfold tetra. rewrite sumf_map. cbn [fst snd sumf]. rewrite E1. unfold angles_at.
    destruct v as [|[|[|[|v]]]]; [| | | |lia]; cbn; ring. }
  pose proof (K 0%nat ltac:(lia)) as K0. pose proof (K 1%nat ltac:(lia)) as K1. pose proof (K 2%nat ltac:(lia)) as K2. pose proof (K 3%nat ltac:(lia)) as K3. cbn in K0, K1, K2, K3. unfold total_defect. cbn. lra.
Qed.
Print Assumptions C66_small_refuted.

Example C66_nonvacuous : closed_mesh (map fst (tetra 4)) /\ Forall (fun p => side_lengths (snd p) /\ (true = true -> not_small 1 (snd p))) (tetra 4).
Proof.
  split; [apply tetra_closed|]. apply Forall_forall. intros p Hp. unfold tetra in Hp. apply in_map_iff in Hp as (t & <- & _). cbn [snd]. unfold side_lengths, not_small, X, Y, Zc. cbn [fst snd]. cbv zeta. pose proof (sqrt_pos 4). split; intros; lra.
Qed.
(** a triangle fan around an interior vertex *)
Example C66_planar_nonvacuous : exists k, 
  let V := [(0,0); (1,0); (0,1); (-1,-1)] in let F := [(0,1,2); (0,2,3); (0,3,1)]%Z in
  angle_defect (fun j => row2 (vtx V j)) 4 F false 0 = Ok k /\ nth 0 k 1 = 0.
Proof.
  cbv zeta. set (V := [(0,0); (1,0); (0,1); (-1,-1)]). set (F := [(0,1,2); (0,2,3); (0,3,1)]%Z).
  assert (~ on_boundary F 0) as NB. { intros (e & He & Q & D). cbn in He. repeat (destruct He as [ <- | He ]; [vm_compute in Q; cbn in D; first [discriminate|destruct D; discriminate]|]). destruct He. }
  assert (vtx V 0 = (0,0) /\ vtx V 1 = (1,0) /\ vtx V 2 = (0,1) /\ vtx V 3 = (-1,-1)) as (V0 & V1 & V2 & V3) by (repeat split; reflexivity).
  destruct (C66_planar V F 0 0) as (k & w & Ek & _ & Ew & Kv & _).
  - discriminate.
  - intros t Ht. cbn in Ht. unfold c0, c1, c2. repeat (destruct Ht as [ <- | Ht ]; [cbn; lia|]). destruct Ht.
  - unfold oriented_manifold. cbn. repeat constructor; cbn; intuition congruence.
  - intros t Ht. cbn in Ht. unfold c0, c1, c2, left_of. repeat (destruct Ht as [ <- | Ht ]; [cbn [fst snd]; rewrite ?V0, ?V1, ?V2, ?V3; cbn; lra|]). destruct Ht.
  - cbn. lia.
  - exact NB.
  - exists k. split; [exact Ek|]. rewrite Kv.
    assert (w = 1)%Z as ->; [|ring]. rewrite Ew. unfold crossings, link. cbn [Z.of_nat flat_map F map filter corner side_opp Nat.add Nat.modulo Nat.divmod Nat.sub fst snd Z.eqb app Pos.eqb]. rewrite V0, V1, V2, V3. unfold crossing, left_of. cbn [fst snd fold_right].
    repeat match goal with |- context [Rle_dec ?a ?b] => destruct (Rle_dec a b); try lra | |- context [Rlt_dec ?a ?b] => destruct (Rlt_dec a b); try lra end. reflexivity.
Qed.
