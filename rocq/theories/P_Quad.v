(** C25-C28: quadtrees and octrees. *)
From Coq Require Import List Arith ZArith Reals Bool Lia Lra.
From Verif Require Import PyExn LoopsModel LoopsProofs QuadModel QuadSpec QuadProofs Quad2Proofs Quad3Proofs Quad4Proofs Quad5Proofs Quad6Proofs Quad7Proofs Quad8Proofs.
Import ListNotations.

(** ** C25 *)
(** The arrays describe a tree rooted at cell 0: CH and PAR are mutually inverse, depths increase by one and widths halve along every edge. *)
Theorem C25_tree dim c0 w0 T : (dim = 2 \/ dim = 3)%nat -> length c0 = dim -> history dim c0 w0 T ->
  (length (qC T) = qn T /\ length (qW T) = qn T /\ length (qCH T) = qn T /\ length (qPAR T) = qn T /\ length (qD T) = qn T) /\
  ((0 < qn T)%nat /\ depth T 0 = 1%nat /\ parent T 0 = (-1)%Z /\ width T 0 = w0 /\ forall k, (k < dim)%nat -> centre T 0 k = nth k c0 0%R) /\
  (forall i, (i < qn T)%nat -> leaf dim T i \/
     forall q, (q < 2 ^ dim)%nat -> exists c, (i < c < qn T)%nat /\ child T i q = Z.of_nat c /\ parent T c = Z.of_nat i /\ depth T c = S (depth T i) /\ width T c = (width T i / 2)%R) /\
  (forall i, (0 < i < qn T)%nat -> exists p q, (p < i)%nat /\ (q < 2 ^ dim)%nat /\ parent T i = Z.of_nat p /\ child T p q = Z.of_nat i /\
     forall p' q', (p' < qn T)%nat -> (q' < 2 ^ dim)%nat -> child T p' q' = Z.of_nat i -> p' = p /\ q' = q).
Proof.
  intros Hd Hc H. destruct (history_inv _ _ _ _ Hd Hc H) as [X I]. pose proof (i_n _ _ _ _ _ I) as N1.
  split; [|split; [|split]].
  - repeat split; [apply (i_lW _ _ _ _ _ I)|apply (i_lCH _ _ _ _ _ I)|apply (i_lP _ _ _ _ _ I)|apply (i_lD _ _ _ _ _ I)].
  - pose proof (i_d0 _ _ _ _ _ I) as D0. pose proof (i_w _ _ _ _ _ I 0%nat ltac:(lia)) as W0. rewrite D0 in W0. change (pw 1) with 2%Z in W0.
    split; [lia|]. split; [exact D0|]. split; [apply (i_p0 _ _ _ _ _ I)|]. split; [lra|]. intros k Hk. rewrite (i_c _ _ _ _ _ I 0%nat k ltac:(lia) Hk).
    destruct (i_rng _ _ _ _ _ I 0%nat ltac:(lia)) as [_ R0]. specialize (R0 k Hk). rewrite D0 in R0. change (pw 1) with 2%Z in R0. replace (X 0%nat k) with 0%Z by lia. lra.
  - intros i Hi. destruct (i_row _ _ _ _ _ I i Hi) as [E|[n0 K]]; [left; apply (leaf_iff _ _ _ _ _ I); auto|right]. intros q Hq.
    exists (n0 + q)%nat. pose proof (k_lt _ _ _ _ _ K). pose proof (k_in _ _ _ _ _ K). split; [lia|]. split; [|split; [|split]].
    + unfold child. fold (rowof T i). rewrite (k_row _ _ _ _ _ K). apply krow_nth, Hq.
    + apply (k_par _ _ _ _ _ K q Hq).
    + apply (k_dep _ _ _ _ _ K q Hq).
    + rewrite (kids_width _ _ _ _ _ I i n0 q K Hq). field.
  - intros i Hi. destruct (i_par _ _ _ _ _ I i Hi) as (p & n0 & q & K & Hq & E). pose proof (k_lt _ _ _ _ _ K). exists p, q. split; [lia|]. split; [exact Hq|].
    split; [rewrite E; apply (k_par _ _ _ _ _ K q Hq)|]. split; [unfold child; fold (rowof T p); rewrite (k_row _ _ _ _ _ K), E; apply krow_nth, Hq|].
    intros p' q' Hp' Hq' C. destruct (i_row _ _ _ _ _ I p' Hp') as [R|[n1 K']]; unfold child in C; fold (rowof T p') in C.
    + rewrite R, lrow_nth in C by auto. lia.
    + rewrite (k_row _ _ _ _ _ K'), krow_nth in C by auto. destruct (kids_of_par _ _ _ p' n1 q' p n0 q K' K Hq' Hq) as (A & _ & B); [lia|auto].
Qed.
(** The children of an internal cell tile it, and the leaves tile the root box. *)
Theorem C25_tiling dim c0 w0 T : (dim = 2 \/ dim = 3)%nat -> length c0 = dim -> (0 < w0)%R -> history dim c0 w0 T ->
  (forall i x, (i < qn T)%nat -> ~ leaf dim T i -> in_closed dim T i x <-> exists q c, (q < 2 ^ dim)%nat /\ child T i q = Z.of_nat c /\ in_closed dim T c x) /\
  (forall i q q' c c' x, (i < qn T)%nat -> (q < 2 ^ dim)%nat -> (q' < 2 ^ dim)%nat -> child T i q = Z.of_nat c -> child T i q' = Z.of_nat c' ->
     in_open dim T c x -> in_open dim T c' x -> q = q') /\
  (forall x, in_closed dim T 0 x <-> exists i, leaf dim T i /\ in_closed dim T i x) /\
  (forall i j x, leaf dim T i -> leaf dim T j -> in_open dim T i x -> in_open dim T j x -> i = j).
Proof.
  intros Hd Hc Hw H. destruct (history_inv _ _ _ _ Hd Hc H) as [X I]. pose proof (i_n _ _ _ _ _ I) as N1.
  split; [|split; [|split]].
  - intros i x Hi NL. destruct (i_row _ _ _ _ _ I i Hi) as [E|[n0 K]]; [destruct NL; apply (leaf_iff _ _ _ _ _ I); auto|].
    assert (forall q, (q < 2 ^ dim)%nat -> child T i q = Z.of_nat (n0 + q)) as Ch. { intros q Hq. unfold child. fold (rowof T i). rewrite (k_row _ _ _ _ _ K). apply krow_nth, Hq. }
    split.
    + intro C. destruct (kids_cover _ _ _ _ _ I i n0 x K C) as (q & Hq & Cq). exists q, (n0 + q)%nat. auto.
    + intros (q & c & Hq & E & C). rewrite (Ch q Hq) in E. apply Nat2Z.inj in E. subst c. eapply (kids_sub _ _ _ _ _ I i n0 q); eauto. lra.
  - intros i q q' c c' x Hi Hq Hq' E E' O O'. destruct (i_row _ _ _ _ _ I i Hi) as [R|[n0 K]]; unfold child in E, E'; fold (rowof T i) in E, E'.
    + rewrite R, lrow_nth in E by auto. lia.
    + rewrite (k_row _ _ _ _ _ K), krow_nth in E, E' by auto. apply Nat2Z.inj in E, E'. subst c c'. eapply (kids_disjoint _ _ _ _ _ I i n0); eauto.
  - intro x. split.
    + intro C. destruct (leaf_cover _ _ _ _ _ I (qn T) 0%nat x) as (j & Hj & L & Cj); [lia|lia|exact C|]. exists j. split; [apply (leaf_iff _ _ _ _ _ I); auto; lia|exact Cj].
    + intros (i & [Hi _] & C). apply (in_root _ _ _ _ _ I i x); auto. lra.
  - intros i j x Li Lj Oi Oj. pose proof (proj1 Li) as Hi. pose proof (proj1 Lj) as Hj. apply (leaf_iff _ _ _ _ _ I) in Li, Lj; auto.
    destruct (le_lt_dec (depth T i) (depth T j)); [apply (leaf_disjoint _ _ _ _ _ I i j x); auto|symmetry; apply (leaf_disjoint _ _ _ _ _ I j i x); auto; lia].
Qed.
(** No assertion and no index error can stop a subdivision: every leaf of every reachable tree can be subdivided, graded or not;
    the cells that were there keep their data, and the subdivided one is no longer a leaf.  Nothing but a leaf can be subdivided. *)
Theorem C25_progress dim c0 w0 T : (dim = 2 \/ dim = 3)%nat -> length c0 = dim -> history dim c0 w0 T ->
  forall graded ind, (leaf dim T ind <-> exists T', subdivide_quad dim graded ind T = Ok T') /\
  forall T', subdivide_quad dim graded ind T = Ok T' -> (qn T < qn T')%nat /\ ~ leaf dim T' ind /\
    forall i, (i < qn T)%nat -> depth T' i = depth T i /\ width T' i = width T i /\ parent T' i = parent T i /\ (forall k, centre T' i k = centre T i k) /\
      (~ leaf dim T i -> forall q, child T' i q = child T i q) /\ forall j, (j < qn T)%nat -> qA T' i j = qA T i j.
Proof.
  intros Hd Hc H graded ind. destruct (history_inv _ _ _ _ Hd Hc H) as [X I]. split; [split|].
  - intro L. destruct (subdivide_ok _ _ _ _ _ graded ind I L) as (T' & E & _). eauto.
  - intros (T' & E). destruct (sub_err _ _ _ _ _ _ _ _ _ I E) as [Hi L]. apply (leaf_iff _ _ _ _ _ I); auto.
  - intros T' E. destruct (sub_err _ _ _ _ _ _ _ _ _ I E) as [Hi L]. pose proof (proj2 (leaf_iff _ _ _ _ _ I ind Hi) L) as Lf.
    destruct (subdivide_ok _ _ _ _ _ graded ind I Lf) as (T2 & E2 & Sp & _). rewrite E2 in E. injection E as <-.
    pose proof (split_inv _ _ _ _ _ _ I Hi L) as I1. pose proof (s_n _ _ _ _ _ _ I Hi L) as En. pose proof (pow2_pos dim) as P2.
    destruct (splits_inv _ _ _ _ _ _ _ Sp I1) as (X2 & I2 & E1 & _). pose proof (ext_trans _ _ _ _ (split_ext _ _ _ _ _ _ I Hi L) E1) as E.
    pose proof (e_n _ _ _ E1). split; [lia|]. split.
    + intro W. apply (leaf_iff _ _ _ _ _ I2) in W; [|lia]. revert W. apply (ext_internal _ _ _ _ E1); [lia|]. rewrite (s_row _ _ _ _ _ _ I Hi L), Nat.eqb_refl by lia. apply krow_not_leaf.
    + intros i Hi'. split; [apply (e_d _ _ _ E i Hi')|]. split; [apply (e_w _ _ _ E i Hi')|]. split; [apply (e_p _ _ _ E i Hi')|]. split; [intro k; unfold centre; rewrite (e_c _ _ _ E i Hi'); reflexivity|].
      split; [|intros j Hj; apply (e_a _ _ _ E); auto]. intros NL q. unfold child. fold (rowof T2 i). fold (rowof T i). destruct (e_row _ _ _ E i Hi') as [F|F]; [rewrite F; reflexivity|destruct NL; apply (leaf_iff _ _ _ _ _ I); auto].
Qed.

(** ** C26 *)
(** Between any two cells (leaves or not) the adjacency entry is a direction code exactly when the second cell lies on that side of the first. *)
Theorem C26_adjacency dim c0 w0 T : (dim = 2 \/ dim = 3)%nat -> length c0 = dim -> (0 < w0)%R -> history dim c0 w0 T ->
  forall i j, (i < qn T)%nat -> (j < qn T)%nat ->
  (forall a, a <> 0%Z -> qA T i j = a <-> in_direction dim T i j a) /\ (qA T i j = 0%Z <-> ~ exists a, in_direction dim T i j a).
Proof.
  intros Hd Hc Hw H i j Hi Hj. destruct (history_inv _ _ _ _ Hd Hc H) as [X I].
  assert (forall a, a <> 0%Z -> qA T i j = a <-> in_direction dim T i j a) as A by (intros; apply (adj_iff _ _ _ _ _ I); auto).
  split; [exact A|]. split.
  - intros E (a & D). assert (a <> 0)%Z as N. { destruct D as (k & _ & [[-> _]|[-> _]]); lia. } apply A in D; auto. congruence.
  - intro N. destruct (Z.eq_dec (qA T i j) 0) as [E|E]; [exact E|]. destruct N. exists (qA T i j). apply A; auto.
Qed.
(** Hence quadtree_boundary returns, for a quadtree, exactly the cells (leaves) that touch the boundary of the root box. *)
Lemma no_neighbor_iff dim lo w0 T X i : inv dim lo w0 T X -> (i < qn T)%nat ->
  no_neighbor T i = true <-> exists k, (k < 2)%nat /\ (X i k <= 0 \/ pw (depth T i) <= 2 * (X i k + 1))%Z.
Proof.
  intros I Hi. assert (2 <= dim)%nat as D2 by (destruct (i_dim _ _ _ _ _ I); lia).
  assert (forall k s, (k < 2)%nat -> forallb (fun j => negb (qA T i j =? code k s)%Z) (seq 0 (qn T)) = true <-> if s : bool then (pw (depth T i) <= 2 * (X i k + 1))%Z else (X i k <= 0)%Z) as F.
  { intros k s Hk. rewrite forallb_forall. split.
    - intro N. assert (~ (if s then 2 * (X i k + 1) < pw (depth T i) else 0 < X i k)%Z) as W; [|destruct s; lia]. intro W.
      destruct (neighbour_exists _ _ _ _ _ I i k s Hi ltac:(lia) W) as (j & Hj & _ & _ & C). specialize (N j ltac:(apply in_seq; lia)). rewrite C, Z.eqb_refl in N. discriminate.
    - intros W j Hj. apply in_seq in Hj. apply negb_true_iff, Z.eqb_neq. intro C. pose proof (no_neighbour _ _ _ _ _ I i j k s Hi ltac:(lia) ltac:(lia) C). destruct s; lia. }
  unfold no_neighbor. cbn [existsb]. rewrite !orb_true_iff.
  change 1%Z with (code 0 false) at 1. change 2%Z with (code 0 true) at 1. change 3%Z with (code 1 false) at 1. change 4%Z with (code 1 true) at 1.
  rewrite (F 0%nat false), (F 0%nat true), (F 1%nat false), (F 1%nat true) by lia. split.
  - intros [C|[C|[C|[C|C]]]]; [exists 0%nat|exists 0%nat|exists 1%nat|exists 1%nat|discriminate]; split; auto; lia.
  - intros (k & Hk & C). destruct k as [|[|]]; [| |lia]; destruct C; tauto.
Qed.
Lemma at_end dim lo w0 T X i k : inv dim lo w0 T X -> (0 < w0)%R -> (i < qn T)%nat -> (k < dim)%nat ->
  ((X i k <= 0)%Z <-> low T i k = low T 0 k) /\ ((pw (depth T i) <= 2 * (X i k + 1))%Z <-> high T i k = high T 0 k).
Proof.
  intros I Hw Hi Hk. pose proof (i_n _ _ _ _ _ I). pose proof (i_d0 _ _ _ _ _ I) as D0.
  destruct (i_rng _ _ _ _ _ I i Hi) as [D1 R1]. specialize (R1 k Hk). destruct (i_rng _ _ _ _ _ I 0%nat ltac:(lia)) as [_ R0]. specialize (R0 k Hk). rewrite D0 in R0. change (pw 1) with 2%Z in R0.
  rewrite !(low_eq _ _ _ _ _ I), !(high_eq _ _ _ _ _ I) by (auto; lia). replace (X 0%nat k) with 0%Z by lia.
  pose proof (scale_eq _ _ _ _ _ I i 0%nat (X i k) 0 Hw Hi ltac:(lia)) as S1. pose proof (scale_eq _ _ _ _ _ I i 0%nat (X i k + 1) 1 Hw Hi ltac:(lia)) as S2.
  rewrite D0 in S1, S2. change (pw 1) with 2%Z in S1, S2. rewrite plus_IZR in S2. pose proof (pw_pos (depth T i)).
  assert (exists h, pw (depth T i) = 2 * h)%Z as [h Hh] by (exists (pw (depth T i - 1)); rewrite <- pw_S; f_equal; lia).
  split; split; intro C.
  - assert (IZR (X i k) * width T i = 0 * width T 0)%R by (apply S1; lia). lra.
  - assert (IZR (X i k) * width T i = 0 * width T 0)%R as E by lra. apply S1 in E. lia.
  - assert ((IZR (X i k) + 1) * width T i = 1 * width T 0)%R by (apply S2; lia). lra.
  - assert ((IZR (X i k) + 1) * width T i = 1 * width T 0)%R as E by lra. apply S2 in E. lia.
Qed.
Theorem C26_boundary c0 w0 T : length c0 = 2%nat -> (0 < w0)%R -> history 2 c0 w0 T ->
  forall i, (In i (snd (quadtree_boundary T)) <-> (i < qn T)%nat /\ exists k, (k < 2)%nat /\ (low T i k = low T 0 k \/ high T i k = high T 0 k)) /\
    (In i (fst (quadtree_boundary T)) <-> leaf 2 T i /\ exists k, (k < 2)%nat /\ (low T i k = low T 0 k \/ high T i k = high T 0 k)).
Proof.
  intros Hc Hw H i. destruct (history_inv _ _ _ _ (or_introl eq_refl) Hc H) as [X I].
  assert (In i (snd (quadtree_boundary T)) <-> (i < qn T)%nat /\ exists k, (k < 2)%nat /\ (low T i k = low T 0 k \/ high T i k = high T 0 k)) as A.
  { unfold quadtree_boundary. cbn [snd]. rewrite filter_In, in_seq. split.
    - intros [Hi N]. split; [lia|]. apply (no_neighbor_iff _ _ _ _ _ _ I) in N; [|lia]. destruct N as (k & Hk & N). exists k. split; [auto|].
      destruct (at_end _ _ _ _ _ i k I Hw ltac:(lia) Hk) as [E1 E2]. rewrite <- E1, <- E2. exact N.
    - intros [Hi (k & Hk & N)]. split; [lia|]. apply (no_neighbor_iff _ _ _ _ _ _ I); [lia|]. exists k. split; [auto|].
      destruct (at_end _ _ _ _ _ i k I Hw ltac:(lia) Hk) as [E1 E2]. rewrite E1, E2. exact N. }
  split; [exact A|]. unfold quadtree_boundary in *. cbn [fst snd] in *. rewrite filter_In, A. rewrite Z.eqb_eq. fold (rowof T i).
  assert ((i < qn T)%nat -> nth 0 (rowof T i) 0%Z = (-1)%Z <-> leaf 2 T i) as L.
  { intro Hi. rewrite (leaf_iff _ _ _ _ _ I) by auto. destruct (i_row _ _ _ _ _ I i Hi) as [E|[n0 K]].
    - rewrite E. split; auto.
    - rewrite (k_row _ _ _ _ _ K). split; intro W; [cbn in W; lia|destruct (krow_not_leaf _ _ W)]. }
  split; [intros [[Hi B] C]; apply L in C; auto|]. intros [B C]. pose proof (proj1 B) as Hi. apply L in B; auto.
Qed.

(** ** C27 *)
Definition unique_leaf (dim : nat) (T : qtree) (x : nat -> R) : Prop := forall i j, leaf dim T i -> leaf dim T j -> in_closed dim T i x -> in_closed dim T j x -> i = j.
(** in_quadtree terminates; it returns a leaf that contains the point if the root box does, and -1 otherwise;
    [others] is the list of cells visited on the way: they all contain the point, none but the last is a leaf, the last is the answer,
    and with a cell it lists the ancestors; if only one leaf contains the point, it lists all the cells that contain it. *)
Theorem C27_in_quadtree dim c0 w0 T p : (dim = 2 \/ dim = 3)%nat -> length c0 = dim -> (0 <= w0)%R -> history dim c0 w0 T -> length p = dim ->
  exists N, forall fuel, (N <= fuel)%nat -> exists i others, in_quadtree fuel dim p T = Ok (i, others) /\
    (in_closed dim T 0 (coords p) -> exists q before, i = Z.of_nat q /\ leaf dim T q /\ others = before ++ [q] /\ forall o, In o before -> ~ leaf dim T o) /\
    (~ in_closed dim T 0 (coords p) -> i = (-1)%Z /\ others = []) /\
    (forall o, In o others -> (o < qn T)%nat /\ in_closed dim T o (coords p) /\ (o = 0%nat \/ exists a, parent T o = Z.of_nat a /\ In a others)) /\
    (unique_leaf dim T (coords p) -> forall o, (o < qn T)%nat -> in_closed dim T o (coords p) -> In o others).
Proof.
  intros Hd Hc Hw H Hp. destruct (history_inv _ _ _ _ Hd Hc H) as [X I]. pose proof (i_n _ _ _ _ _ I) as N1.
  exists (S (fuel_of T [0%nat])). intros fuel Hf.
  destruct (in_loop_ok _ _ _ _ _ I p Hp fuel [0%nat] []) as (i & vis & E & V & R).
  - lia.
  - intros q [<-|[]]. split; [lia|left; auto].
  - intros o [].
  - exists i, vis. split; [exact E|].
    assert (in_closed dim T 0 (coords p) -> exists q before, i = Z.of_nat q /\ leaf dim T q /\ vis = before ++ [q] /\ forall o, In o before -> ~ leaf dim T o) as A.
    { intro C. destruct R as [(_ & R & _)|(q & Ei & L & before & Ev & B)]; [destruct (R 0%nat ltac:(left; auto) C)|]. exists q, before. auto. }
    split; [exact A|]. split; [|split; [exact V|]].
    + intro NC. destruct R as [(Ei & _ & _ & ->)|(q & Ei & L & before & -> & B)]; [auto|exfalso]. destruct (V q) as (Hq & Cq & _); [apply in_or_app; right; left; auto|].
      apply NC. eapply (in_root _ _ _ _ _ I); eauto.
    + intros U o Ho Co. destruct A as (q & before & _ & Lq & Ev & _); [eapply (in_root _ _ _ _ _ I); eauto|].
      assert (In q vis) as Iq by (rewrite Ev; apply in_or_app; right; left; auto). destruct (V q Iq) as (Hq & Cq & _).
      (* descending from o one reaches the only leaf; climb back *)
      assert (forall m o, (qn T - o <= m)%nat -> (o < qn T)%nat -> in_closed dim T o (coords p) -> In o vis) as D; [|apply (D (qn T) o); auto; lia].
      { induction m as [|m IH]; intros o' Hm Ho' Co'; [lia|]. destruct (i_row _ _ _ _ _ I o' Ho') as [R'|[n0 K]].
        - rewrite (U o' q); auto. apply (leaf_iff _ _ _ _ _ I); auto.
        - destruct (kids_cover _ _ _ _ _ I o' n0 _ K Co') as (c & Hc' & Cc). pose proof (k_lt _ _ _ _ _ K). pose proof (k_in _ _ _ _ _ K).
          specialize (IH (n0 + c)%nat ltac:(lia) ltac:(lia) Cc). destruct (V _ IH) as (_ & _ & [Z0|(a & Pa & Ia)]); [lia|].
          rewrite (k_par _ _ _ _ _ K c Hc') in Pa. apply Nat2Z.inj in Pa. subst a. exact Ia. }
Qed.

(** ** C28 *)
Theorem C28_build dim P max_depth min_depth graded vmin vmax : (dim = 2 \/ dim = 3)%nat -> (forall p, In p P -> length p = dim) ->
  (vmin = None \/ vmax = None -> P <> []) -> (forall v, vmin = Some v -> length v = dim) -> (forall v, vmax = Some v -> length v = dim) ->
  exists N T c0 w0, (forall fuel, (N <= fuel)%nat -> initialize_quadtree fuel dim P max_depth min_depth graded vmin vmax = Ok T) /\
    length c0 = dim /\ history dim c0 w0 T /\
    (forall i, (i < qn T)%nat -> (Z.of_nat (depth T i) <= Z.max max_depth 1)%Z) /\
    (forall i, leaf dim T i -> (Z.min max_depth min_depth <= Z.of_nat (depth T i))%Z) /\
    (forall i p, leaf dim T i -> (Z.of_nat (depth T i) < max_depth)%Z -> In p P -> ~ in_closed dim T i (coords p)) /\
    (graded = true -> graded_tree dim T).
Proof.
  intros Hd HP HN Hmin Hmax.
  assert (exists v, match vmin with Some v => Ok v | None => col_fold Rmin P end = Ok v /\ length v = dim) as (v & Ev & Lv).
  { destruct vmin as [v|]; [exists v; auto|]. destruct (col_fold_total Rmin P) as [v E]; [auto|]. exists v. split; [exact E|].
    apply (col_fold_ok Rmin Rle dim P v) in E; auto; [tauto|apply Rle_refl|intros x y z; apply Rle_trans|intros x y; split; [apply Rmin_l|apply Rmin_r]]. }
  assert (exists v, match vmax with Some v => Ok v | None => col_fold Rmax P end = Ok v /\ length v = dim) as (v' & Ev' & Lv').
  { destruct vmax as [u|]; [exists u; auto|]. destruct (col_fold_total Rmax P) as [u E]; [auto|]. exists u. split; [exact E|].
    apply (col_fold_ok Rmax Rge dim P u) in E; auto; [tauto|apply Rge_refl|intros x y z; apply Rge_trans|intros x y; split; apply Rle_ge; [apply Rmax_l|apply Rmax_r]]. }
  set (c0 := map (fun p => ((fst p + snd p) / 2.0)%R) (combine v v')). set (w0 := maxR (map (fun p => (snd p - fst p)%R) (combine v v'))).
  assert (length c0 = dim) as Lc by (apply combine_map_length; auto).
  assert (root_tree dim v v' = fresh_root dim c0 w0) as ER by reflexivity.
  assert (forall i, (i < qn (fresh_root dim c0 w0))%nat -> i = 0%nat) as Z0 by (unfold qn, fresh_root; cbn; lia).
  set (M := Z.to_nat (Z.max max_depth 1)).
  set (N := S (qn (fresh_root dim c0 w0) + 2 ^ dim * todo dim M (fresh_root dim c0 w0))).
  assert (forall fuel, (N <= fuel)%nat -> exists T, init_loop fuel dim P max_depth min_depth graded 0 (fresh_root dim c0 w0) = Ok T /\ history dim c0 w0 T /\ (forall i, (i < qn T)%nat -> (depth T i <= M)%nat) /\
    (forall i, leaf dim T i -> settled dim P max_depth min_depth T i) /\ (graded = true -> graded_tree dim T)) as G.
  { intros fuel Hf. apply init_loop_ok; auto.
    - constructor.
    - intros i Hi. rewrite (Z0 i Hi). unfold depth. cbn. lia.
    - intros; lia.
    - intros _ i j Li Lj A. destruct A. reflexivity.
    - lia.
    - unfold N in Hf. fold M. lia. }
  assert (forall f1 f2 T q U, (f1 <= f2)%nat -> init_loop f1 dim P max_depth min_depth graded q T = Ok U -> init_loop f2 dim P max_depth min_depth graded q T = Ok U) as Mono.
  { induction f1 as [|f1 IH]; intros f2 T q U Hf E; [discriminate|]. destruct f2 as [|f2]; [lia|]. cbn [init_loop] in *. destruct (Nat.leb (qn T) q); [exact E|].
    destruct (_ && is_leaf T q); [|apply IH; auto; lia]. destruct (subdivide_quad dim graded q T); cbn [bind] in *; [|exact E]. apply IH; auto; lia. }
  destruct (G N (le_n _)) as (T & ET & Hh & HD & HS & HG). exists N, T, c0, w0. split; [|split; [exact Lc|split; [exact Hh|split; [|split; [|split; [|exact HG]]]]]].
  - intros fuel Hf. unfold initialize_quadtree. rewrite Ev, Ev'. cbn [bind]. rewrite ER. eapply Mono; eauto.
  - intros i Hi. specialize (HD i Hi). unfold M in HD. lia.
  - intros i L. destruct (HS i L) as [C|[C _]]; lia.
  - intros i p L Lt Hp. destruct (HS i L) as [C|[_ C]]; [lia|auto].
Qed.
(** the initial box, when not given, contains the points (with given corners it is theirs to choose) *)
Theorem C28_box dim P v v' : (forall p, In p P -> length p = dim) -> col_fold Rmin P = Ok v -> col_fold Rmax P = Ok v' ->
  forall p, In p P -> in_closed dim (root_tree dim v v') 0 (coords p).
Proof.
  intros HP E E' p Hp k Hk.
  destruct (col_fold_ok Rmin Rle dim P v) as [L A]; auto; [apply Rle_refl|intros x y z; apply Rle_trans|intros x y; split; [apply Rmin_l|apply Rmin_r]|].
  destruct (col_fold_ok Rmax Rge dim P v') as [L' A']; auto; [apply Rge_refl|intros x y z; apply Rge_trans|intros x y; split; apply Rle_ge; [apply Rmax_l|apply Rmax_r]|].
  specialize (A p k Hp Hk). specialize (A' p k Hp Hk). unfold low, high, centre, width, root_tree. cbn [qC qW nth].
  rewrite combine_map_nth by lia. cbn [fst snd]. unfold coords.
  assert (nth k v' 0 - nth k v 0 <= maxR (map (fun p => snd p - fst p) (combine v v')))%R as Mx.
  { apply maxR_ge. apply in_map_iff. exists (nth k v 0%R, nth k v' 0%R). split; [reflexivity|]. rewrite <- combine_nth by lia. apply nth_In. rewrite combine_length. lia. }
  replace 2.0%R with 2%R by lra. lra.
Qed.
(** graded subdivisions keep a graded tree graded *)
Theorem C28_graded_step dim c0 w0 T ind T' : (dim = 2 \/ dim = 3)%nat -> length c0 = dim -> history dim c0 w0 T -> graded_tree dim T ->
  subdivide_quad dim true ind T = Ok T' -> graded_tree dim T'.
Proof.
  intros Hd Hc H G E. destruct (history_inv _ _ _ _ Hd Hc H) as [X I]. destruct (sub_err _ _ _ _ _ _ _ _ _ I E) as [Hi L]. pose proof (proj2 (leaf_iff _ _ _ _ _ I ind Hi) L) as Lf.
  destruct (subdivide_ok _ _ _ _ _ true ind I Lf) as (T2 & E2 & _ & G2). rewrite E2 in E. injection E as <-. auto.
Qed.

(** ** concrete trees *)
Definition root2 : qtree := fresh_root 2 [0%R; 0%R] 2.
(** the root split, then its child number 3 (cell 4) *)
Definition tree2a : qtree := splitT 2 root2 0.
Definition tree2b : qtree := splitT 2 tree2a 4.
Definition X2a := X' root2 (fun _ _ => 0%Z) 0.
Definition X2b := X' tree2a X2a 4.
Notation lo2 := (fun k => nth k [0%R; 0%R] 0%R - 2 / 2)%R.
Lemma inv2a : inv 2 lo2 2 tree2a X2a.
Proof. apply split_inv; [apply root_inv; auto|cbn; lia|reflexivity]. Qed.
Lemma inv2b : inv 2 lo2 2 tree2b X2b.
Proof. apply split_inv; [apply inv2a|cbn; lia|reflexivity]. Qed.
Lemma subdivide_split dim lo w0 T X ind : inv dim lo w0 T X -> (ind < qn T)%nat -> rowof T ind = lrow dim -> subdivide_quad dim false ind T = Ok (splitT dim T ind).
Proof. intros I Hi L. unfold subdivide_quad. cbn [subdivide_fuel]. rewrite (split_eq _ _ _ _ _ _ I Hi L). reflexivity. Qed.
Lemma history2b : history 2 [0%R; 0%R] 2 tree2b.
Proof.
  apply h_step with (T := tree2a) (graded := false) (ind := 4%nat).
  - apply h_step with (T := root2) (graded := false) (ind := 0%nat); [constructor|]. eapply subdivide_split; [apply root_inv; auto|cbn; lia|reflexivity].
  - eapply subdivide_split; [apply inv2a|cbn; lia|reflexivity].
Qed.
(** a tree of nine cells with two internal ones; cell 2 (bottom right) has below the split cell 4 its neighbours 4, 5 and 6 *)
Example C25_nonvacuous : history 2 [0%R; 0%R] 2 tree2b /\ qn tree2b = 9%nat /\ ~ leaf 2 tree2b 0 /\ ~ leaf 2 tree2b 4 /\ leaf 2 tree2b 8 /\
  map (qA tree2b 2) (seq 0 9) = [0; 1; 0; 0; 4; 4; 4; 0; 0]%Z.
Proof.
  split; [apply history2b|]. split; [reflexivity|]. split; [|split; [|split; [|vm_compute; reflexivity]]].
  - intros [_ L]. specialize (L 0%nat ltac:(cbn; lia)). vm_compute in L. discriminate.
  - intros [_ L]. specialize (L 0%nat ltac:(cbn; lia)). vm_compute in L. discriminate.
  - apply (leaf_iff _ _ _ _ _ inv2b); [cbn; lia|reflexivity].
Qed.
Lemma closed2b i p x0 x1 d : (i < qn tree2b)%nat -> depth tree2b i = d -> X2b i 0%nat = x0 -> X2b i 1%nat = x1 ->
  (-1 + IZR x0 * (4 / IZR (pw d)) <= nth 0 p 0 <= -1 + (IZR x0 + 1) * (4 / IZR (pw d)) /\ -1 + IZR x1 * (4 / IZR (pw d)) <= nth 1 p 0 <= -1 + (IZR x1 + 1) * (4 / IZR (pw d)))%R ->
  in_closed 2 tree2b i (coords p).
Proof.
  intros Hi Ed E0 E1 [A B] k Hk. rewrite (low_eq _ _ _ _ _ inv2b), (high_eq _ _ _ _ _ inv2b), (width_eq _ _ _ _ _ inv2b) by auto. rewrite Ed. unfold coords.
  destruct k as [|[|]]; [rewrite E0|rewrite E1|lia]; cbn [nth]; lra.
Qed.
(** On the boundary between cells in_quadtree does not return "the smallest cell containing P", nor are [others] "all other (non-leaf) cells containing P":
    at the origin of [tree2b] it returns the big cell 1, though the smaller leaf 5 contains the point too; [others] holds the leaf 1 itself and
    misses the internal cell 4, which contains the point. *)
Theorem C27_smallest_refuted : history 2 [0%R; 0%R] 2 tree2b /\ in_quadtree 3 2 [0%R; 0%R] tree2b = Ok (1%Z, [0; 1]%nat) /\
  leaf 2 tree2b 5 /\ in_closed 2 tree2b 5 (coords [0%R; 0%R]) /\ (depth tree2b 1 < depth tree2b 5)%nat /\
  leaf 2 tree2b 1 /\ ~ leaf 2 tree2b 4 /\ in_closed 2 tree2b 4 (coords [0%R; 0%R]).
Proof.
  assert (in_closed 2 tree2b 0 (coords [0%R; 0%R])) as C0 by (apply (closed2b 0 _ 0%Z 0%Z 1%nat); [cbn; lia|reflexivity|reflexivity|reflexivity|]; change (pw 1) with 2%Z; cbn [nth]; lra).
  assert (in_closed 2 tree2b 1 (coords [0%R; 0%R])) as C1 by (apply (closed2b 1 _ 0%Z 0%Z 2%nat); [cbn; lia|reflexivity|reflexivity|reflexivity|]; change (pw 2) with 4%Z; cbn [nth]; lra).
  split; [apply history2b|]. split; [|split; [|split; [|split; [|split; [|split]]]]].
  - unfold in_quadtree. cbn [in_loop].
    rewrite (proj2 (in_cell_iff _ _ _ _ _ inv2b [0%R; 0%R] 0 eq_refl ltac:(cbn; lia)) C0). replace (is_leaf tree2b 0) with false by (vm_compute; reflexivity).
    fold (rowof tree2b 0). replace (rowof tree2b 0) with [1; 2; 3; 4]%Z by (vm_compute; reflexivity). cbn [firstn Nat.pow Nat.mul Nat.add map app].
    change (Z.to_nat 1) with 1%nat.
    rewrite (proj2 (in_cell_iff _ _ _ _ _ inv2b [0%R; 0%R] 1 eq_refl ltac:(cbn; lia)) C1). replace (is_leaf tree2b 1) with true by (vm_compute; reflexivity). reflexivity.
  - apply (leaf_iff _ _ _ _ _ inv2b); [cbn; lia|reflexivity].
  - apply (closed2b 5 _ 2%Z 2%Z 3%nat); [cbn; lia|reflexivity|reflexivity|reflexivity|]. change (pw 3) with 8%Z. cbn [nth]. lra.
  - vm_compute. lia.
  - apply (leaf_iff _ _ _ _ _ inv2b); [cbn; lia|reflexivity].
  - intros [_ L]. specialize (L 0%nat ltac:(cbn; lia)). vm_compute in L. discriminate.
  - apply (closed2b 4 _ 1%Z 1%Z 2%nat); [cbn; lia|reflexivity|reflexivity|reflexivity|]. change (pw 2) with 4%Z. cbn [nth]. lra.
Qed.

(** In an octree quadtree_boundary looks at four of the six directions: it misses cells that touch the box only at the back or at the front. *)
Definition root3 : qtree := fresh_root 3 [0%R; 0%R; 0%R] 2.
Definition tree3a : qtree := splitT 3 root3 0.
Definition tree3b : qtree := splitT 3 tree3a 1.
Definition X3a := X' root3 (fun _ _ => 0%Z) 0.
Definition X3b := X' tree3a X3a 1.
Theorem C26_boundary_octree_refuted : exists T, history 3 [0%R; 0%R; 0%R] 2 T /\ exists i, leaf 3 T i /\ low T i 2 = low T 0 2 /\ ~ In i (snd (quadtree_boundary T)).
Proof.
  assert (inv 3 (fun k => nth k [0%R; 0%R; 0%R] 0%R - 2 / 2)%R 2 tree3a X3a) as I3a by (apply split_inv; [apply root_inv; auto|cbn; lia|reflexivity]).
  assert (inv 3 (fun k => nth k [0%R; 0%R; 0%R] 0%R - 2 / 2)%R 2 tree3b X3b) as I3b by (apply split_inv; [exact I3a|cbn; lia|reflexivity]).
  exists tree3b. split.
  - apply h_step with (T := tree3a) (graded := false) (ind := 1%nat).
    + apply h_step with (T := root3) (graded := false) (ind := 0%nat); [constructor|]. eapply subdivide_split; [apply root_inv; auto|cbn; lia|reflexivity].
    + eapply subdivide_split; [exact I3a|cbn; lia|reflexivity].
  - exists 12%nat. split; [apply (leaf_iff _ _ _ _ _ I3b); [cbn; lia|reflexivity]|]. split.
    + apply (at_end _ _ _ _ _ 12%nat 2%nat I3b ltac:(lra) ltac:(cbn; lia) ltac:(lia)). vm_compute. discriminate.
    + intro H. unfold quadtree_boundary in H. cbn [snd] in H. apply filter_In in H as [_ H]. apply (no_neighbor_iff _ _ _ _ _ _ I3b) in H; [|cbn; lia].
      destruct H as (k & Hk & H). destruct k as [|[|]]; [| |lia]; vm_compute in H; destruct H as [H|H]; apply H; reflexivity.
Qed.
(** [tree2b] is graded; splitting its cell 5 without grading leaves cell 2 next to cells two levels deeper, with grading it does not. *)
Example C28_nonvacuous : graded_tree 2 tree2b /\ ~ graded_tree 2 (splitT 2 tree2b 5) /\
  exists T', subdivide_quad 2 true 5 tree2b = Ok T' /\ graded_tree 2 T' /\ ~ leaf 2 T' 2.
Proof.
  assert (graded_tree 2 tree2b) as G.
  { intros i j [Hi _] [Hj Lj] _. change (qn tree2b) with 9%nat in Hi, Hj.
    assert (depth tree2b i <= 3)%nat by (do 9 (destruct i as [|i]; [vm_compute; lia|]); lia).
    assert (2 <= depth tree2b j)%nat; [|lia]. destruct j as [|j]; [specialize (Lj 0%nat ltac:(cbn; lia)); vm_compute in Lj; discriminate|].
    do 8 (destruct j as [|j]; [vm_compute; lia|]). lia. }
  split; [exact G|]. split.
  - intro W. assert (inv 2 lo2 2 (splitT 2 tree2b 5) (X' tree2b X2b 5)) as I2 by (apply split_inv; [apply inv2b|cbn; lia|reflexivity]).
    specialize (W 9%nat 2%nat). assert (depth (splitT 2 tree2b 5) 9 <= depth (splitT 2 tree2b 5) 2 + 1)%nat as E; [|vm_compute in E; lia].
    apply W; [apply (leaf_iff _ _ _ _ _ I2); [cbn; lia|reflexivity]|apply (leaf_iff _ _ _ _ _ I2); [cbn; lia|reflexivity]|]. vm_compute. discriminate.
  - assert (leaf 2 tree2b 5) as L5 by (apply (leaf_iff _ _ _ _ _ inv2b); [cbn; lia|reflexivity]).
    destruct (subdivide_ok _ _ _ _ _ true 5 inv2b L5) as (T' & E & _ & G'). exists T'. split; [exact E|]. split; [auto|].
    assert (history 2 [0%R; 0%R] 2 T') as Hh by (eapply h_step; [apply history2b|exact E]).
    destruct (history_inv 2 [0%R; 0%R] 2 T' (or_introl eq_refl) eq_refl Hh) as [X' I']. rewrite <- (is_leaf_iff _ _ _ _ _ I').
    assert (match subdivide_quad 2 true 5 tree2b with Ok T => is_leaf T 2 | Err _ => true end = false) as Q by (vm_compute; reflexivity).
    rewrite E in Q. congruence.
Qed.
