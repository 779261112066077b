(** C54 *)
From Coq Require Import Reals Lra Lia ZArith List Bool Psatz.
From Verif Require Import NumpyModel PyExn Vec MatModel MatProofs GeomModel SubdivModel Subdiv2Proofs AabbModel AabbProofs AabbTreeProofs AabbQueryProofs PointsModel.
Import ListNotations.
Open Scope R_scope.

(** rng.choice: n indices of positive probability; it succeeds on every probability vector *)
Definition is_choice (choice : list R -> nat -> option (list nat)) : Prop :=
  (forall p n I, choice p n = Some I -> length I = n /\ forall i, In i I -> (i < length p)%nat /\ 0 < nth i p 0) /\
  (forall p n, (forall x, In x p -> 0 <= x) -> fold_right Rplus 0 p = 1 -> exists I, choice p n = Some I).
(** every sample (x,i,u): u are convex weights and x is that combination of the corners of element i *)
Definition good_sample (dim : nat) (V : list vec) (F : list (list Z)) (s : vec * nat * list R) : Prop :=
  (snd (fst s) < length F)%nat /\ combo dim (snd s) (vert_of V F (snd (fst s))) (fst (fst s)).
Definition size_of_edge (el : list vec) : R := match el with [a; b] => sqrt (sqlen b a) | _ => 0 end.
Definition size_of_tri (el : list vec) : R := match el with [a; b; c] => dblA (sqlen c b, sqlen a c, sqlen b a) | _ => 0 end.

(** the elements are drawn by rng.choice with probabilities proportional to [wt] *)
Definition drawn_with (choice : list R -> nat -> option (list nat)) (n : nat) (wt : nat -> R) (m : nat) (l : list (vec * nat * list R)) : Prop :=
  n <> 0%nat -> exists p, length p = m /\ (forall e, (e < m)%nat -> nth e p 0 = wt e / sumn m wt) /\ choice p n = Some (map (fun s => snd (fst s)) l).

(** two coordinates of the point of the reference triangle that a point of the unit square is sent to *)
Definition square_to_triangle (r2 r : R) : R * R := (sqrt r * (1 - r2), r2 * sqrt r).
Lemma bary_square r2 r : bary_triangle r2 r = let (u, v) := square_to_triangle r2 r in [1 - u - v; u; v].
Proof. unfold bary_triangle, square_to_triangle. f_equal. ring. Qed.
(** that map is a bijection of the open square onto the open triangle u, v > 0, u + v < 1, and its Jacobian determinant is 1/2 (the area of
    the triangle) everywhere: uniform draws on the square become uniform draws on the triangle *)
Theorem C54_uniform :
  (forall r2 r, 0 < r2 < 1 -> 0 < r < 1 -> let (u, v) := square_to_triangle r2 r in 0 < u /\ 0 < v /\ u + v < 1) /\
  (forall u v, 0 < u -> 0 < v -> u + v < 1 -> exists r2 r, 0 < r2 < 1 /\ 0 < r < 1 /\ square_to_triangle r2 r = (u, v) /\
     forall s2 s, 0 < s2 < 1 -> 0 < s < 1 -> square_to_triangle s2 s = (u, v) -> s2 = r2 /\ s = r) /\
  (forall r2 r, 0 < r2 < 1 -> 0 < r < 1 -> exists u2 u1 v2 v1,
     derivable_pt_lim (fun x => fst (square_to_triangle x r)) r2 u2 /\ derivable_pt_lim (fun x => fst (square_to_triangle r2 x)) r u1 /\
     derivable_pt_lim (fun x => snd (square_to_triangle x r)) r2 v2 /\ derivable_pt_lim (fun x => snd (square_to_triangle r2 x)) r v1 /\
     Rabs (u2 * v1 - u1 * v2) = 1/2).
Proof.
  assert (SQ : forall r, 0 < r < 1 -> 0 < sqrt r < 1) by (intros r H; split; [apply sqrt_lt_R0; lra|]; rewrite <- sqrt_1; apply sqrt_lt_1_alt; lra).
  assert (SS : forall r, 0 < r < 1 -> sqrt r * sqrt r = r) by (intros r H; apply sqrt_sqrt; lra).
  split; [|split].
  - intros r2 r H2 H. cbn. specialize (SQ r H). repeat split; nra.
  - intros u v Hu Hv Huv. assert (B : 0 < v / (u + v) < 1).
    { split; [apply Rdiv_lt_0_compat; lra|]. apply (Rmult_lt_reg_r (u + v)); [lra|]. unfold Rdiv. rewrite Rmult_assoc, Rinv_l by lra. lra. }
    assert (Q : sqrt ((u + v) * (u + v)) = u + v) by (apply sqrt_square; lra).
    exists (v / (u + v)), ((u + v) * (u + v)). split; [exact B|]. split; [nra|]. split; [unfold square_to_triangle; rewrite Q; f_equal; field; lra|].
    intros s2 s H2 H E. injection E as E1 E2. assert (K : sqrt s = u + v) by lra. split.
    + rewrite <- K. rewrite <- E2. specialize (SQ s H). field. lra.
    + rewrite <- (SS s H), K. auto.
  - intros r2 r H2 H. pose proof (SQ r H) as S. pose proof (derivable_pt_lim_sqrt r ltac:(lra)) as D. 
    exists (- sqrt r), (/ (2 * sqrt r) * (1 - r2)), (sqrt r), (r2 * / (2 * sqrt r)). cbn [fst snd square_to_triangle].
    split; [|split; [|split; [|split]]].
    + replace (- sqrt r) with (0 * (1 - r2) + sqrt r * (0 - 1)) by ring. apply (derivable_pt_lim_mult (fun _ => sqrt r) (fun x => 1 - x)); [apply derivable_pt_lim_const|]. apply (derivable_pt_lim_minus (fun _ => 1) id); [apply derivable_pt_lim_const|apply derivable_pt_lim_id].
    + replace (/ (2 * sqrt r) * (1 - r2)) with (/ (2 * sqrt r) * (1 - r2) + sqrt r * 0) by ring. apply (derivable_pt_lim_mult sqrt (fun _ => 1 - r2)); [exact D|apply derivable_pt_lim_const].
    + assert (K : derivable_pt_lim (fun x => x * sqrt r) r2 (1 * sqrt r + r2 * 0)) by (apply (derivable_pt_lim_mult id (fun _ => sqrt r)); [apply derivable_pt_lim_id|apply derivable_pt_lim_const]).
      replace (1 * sqrt r + r2 * 0) with (sqrt r) in K by ring. exact K.
    + replace (r2 * / (2 * sqrt r)) with (0 * sqrt r + r2 * / (2 * sqrt r)) by ring. apply (derivable_pt_lim_mult (fun _ => r2) sqrt); [apply derivable_pt_lim_const|exact D].
    + replace (- sqrt r * (r2 * / (2 * sqrt r)) - / (2 * sqrt r) * (1 - r2) * sqrt r) with (- (1/2)) by (field; lra). rewrite Rabs_Ropp. apply Rabs_pos_eq. lra.
Qed.
Print Assumptions C54_uniform.

Lemma bary_tri_ok r2 r : 0 <= r2 < 1 -> 0 <= r < 1 -> Forall (fun w => 0 <= w) (bary_triangle r2 r) /\ fold_right Rplus 0 (bary_triangle r2 r) = 1.
Proof.
  intros H1 H2. unfold bary_triangle. assert (S : 0 <= sqrt r <= 1). { split; [apply sqrt_pos|]. rewrite <- sqrt_1. apply sqrt_le_1_alt. lra. }
  split; [apply Forall_cons; [lra|]; apply Forall_cons; [apply Rmult_le_pos; lra|]; apply Forall_cons; [apply Rmult_le_pos; lra|]; apply Forall_nil|]. cbn. ring.
Qed.
Lemma bary_line_ok r : 0 <= r < 1 -> Forall (fun w => 0 <= w) (bary_polyline r) /\ fold_right Rplus 0 (bary_polyline r) = 1.
Proof. intros H. split; [apply Forall_cons; [lra|]; apply Forall_cons; [lra|]; apply Forall_nil|]. cbn. ring. Qed.

Lemma nth_scal a (x : vec) j : (j < length x)%nat -> nth j (map (Rmult a) x) 0 = a * nth j x 0.
Proof. intros J. rewrite (nth_indep _ 0 (a * 0)) by (rewrite map_length; lia). apply map_nth. Qed.
Lemma combine_rows_ok dim u rows : (length u = 2%nat \/ length u = 3%nat) -> length rows = length u -> Forall (fun v => length v = dim) rows -> Forall (fun w => 0 <= w) u -> fold_right Rplus 0 u = 1 ->
  exists x, combine_rows u rows = Some x /\ combo dim u rows x.
Proof.
  intros [L|L] LR FD FW SU.
  - destruct u as [|a [|b [|? ?]]]; try discriminate. destruct rows as [|x [|y [|? ?]]]; try discriminate. inversion FD as [|? ? Lx FD']; subst. inversion FD' as [|? ? Ly _]; subst.
    eexists. split; [reflexivity|]. assert (LL : length (map (Rmult a) x) = length (map (Rmult b) y)) by (rewrite !map_length; lia).
    split; [rewrite map2_length, map_length; auto|]. split; [reflexivity|]. split; [exact FW|]. split; [exact SU|]. intros j J. rewrite map2_nth; [|exact LL|rewrite map_length; exact J]. rewrite !nth_scal by lia. cbn. ring.
  - destruct u as [|a [|b [|c [|? ?]]]]; try discriminate. destruct rows as [|x [|y [|z [|? ?]]]]; try discriminate. inversion FD as [|? ? Lx FD']; subst. inversion FD' as [|? ? Ly FD'']; subst. inversion FD'' as [|? ? Lz _]; subst.
    eexists. split; [reflexivity|]. assert (LL : length (map (Rmult a) x) = length (map (Rmult b) y)) by (rewrite !map_length; lia).
    assert (LM : length (map2 Rplus (map (Rmult a) x) (map (Rmult b) y)) = length x) by (rewrite map2_length, map_length; auto).
    assert (LL' : length (map2 Rplus (map (Rmult a) x) (map (Rmult b) y)) = length (map (Rmult c) z)) by (rewrite map_length; lia).
    split; [rewrite map2_length; auto|]. split; [reflexivity|]. split; [exact FW|]. split; [exact SU|]. intros j J. rewrite map2_nth; [|exact LL'|lia]. rewrite map2_nth; [|exact LL|rewrite map_length; exact J]. rewrite !nth_scal by lia. cbn. ring.
Qed.
Lemma vert_dims dim V F e : valid_mesh dim V F -> (e < length F)%nat -> Forall (fun v => length v = dim) (vert_of V F e).
Proof.
  intros (_ & _ & _ & VD & FV) E. rewrite Forall_forall in FV. specialize (FV _ (nth_In F [] E)). unfold vert_of. apply Forall_map. eapply Forall_impl; [|exact FV]. cbn. intros i H.
  rewrite Forall_forall in VD. apply VD, nth_In. lia.
Qed.
Lemma sample_ok dim V F us Ix k : valid_mesh dim V F -> (k = 2%nat \/ k = 3%nat) -> Forall (fun f => length f = k) F -> length us = length Ix ->
  Forall (fun u => length u = k /\ Forall (fun w => 0 <= w) u /\ fold_right Rplus 0 u = 1) us -> (forall i, In i Ix -> (i < length F)%nat) ->
  exists l, sample V F us Ix = Ok l /\ map snd l = us /\ map (fun s => snd (fst s)) l = Ix /\ Forall (good_sample dim V F) l.
Proof.
  intros VM K FK. pose proof VM as (_ & _ & _ & _ & FV). revert Ix. induction us as [|u us IH]; intros [|i Ix] L FU FI; try discriminate; [exists []; repeat split; constructor|].
  inversion FU as [|? ? (Lu & Pu & Su) FU']; subst. destruct (IH Ix ltac:(cbn in L; lia) FU' (fun j J => FI j (or_intror J))) as (l & E & M1 & M2 & G).
  assert (HI : (i < length F)%nat) by (apply FI; now left).
  destruct (combine_rows_ok dim u (vert_of V F i) K) as (x & Ex & Cx); auto.
  { unfold vert_of. rewrite map_length. rewrite Forall_forall in FK. rewrite (FK _ (nth_In F [] HI)). reflexivity. }
  { apply vert_dims; auto. }
  exists ((x, i, u) :: l). unfold sample in *. cbn [combine mapO fst snd]. rewrite (nth_error_nth' F [] HI).
  rewrite (mapO_ok (getZ V) (fun k => nth (Z.to_nat k) V [])) by (intros k Hk; rewrite Forall_forall in FV; specialize (FV _ (nth_In F [] HI)); rewrite Forall_forall in FV; apply AabbTreeProofs.getZ_ok; auto).
  change (map (fun k => nth (Z.to_nat k) V []) (nth i F [])) with (vert_of V F i). rewrite Ex. cbn [option_map].
  destruct (mapO _ (combine us Ix)) as [l'|]; [|discriminate]. cbn in E. injection E as ->. cbn. repeat split; auto; [congruence|congruence|]. constructor; auto. split; auto.
Qed.
Definition total (l : list R) : R := fold_right Rplus 0 l.
Lemma total_nonneg l : (forall x, In x l -> 0 <= x) -> 0 <= total l.
Proof. induction l as [|a l IH]; intros H; cbn; [lra|]. pose proof (H a (or_introl eq_refl)). pose proof (IH (fun x I => H x (or_intror I))). unfold total in *. lra. Qed.
Lemma weights_prob A lk : length A = length lk -> (forall x, In x A -> 0 <= x) -> (forall x, In x lk -> 0 <= x) -> 0 < total (map2 Rmult A lk) ->
  (forall x, In x (weights A lk) -> 0 <= x) /\ total (weights A lk) = 1 /\ length (weights A lk) = length A /\
  forall i, (i < length A)%nat -> nth i (weights A lk) 0 = nth i A 0 * nth i lk 0 / total (map2 Rmult A lk).
Proof.
  intros L PA PL T. unfold weights. set (l := map2 Rmult A lk) in *. fold (total l).
  assert (IT : 0 < / total l) by now apply Rinv_0_lt_compat.
  assert (PP : forall x, In x l -> 0 <= x). { intros x I. apply (In_nth _ _ 0) in I. destruct I as (j & J & <-). unfold l in *. rewrite map2_length in J by exact L. rewrite map2_nth by (exact L || exact J). apply Rmult_le_pos; [apply PA|apply PL]; apply nth_In; lia. }
  split; [|split; [|split]].
  - intros x I. apply in_map_iff in I. destruct I as (y & <- & I). apply Rmult_le_pos; [auto|lra].
  - assert (G : forall l' t, total (map (fun x => x / t) l') = total l' / t) by (unfold total; induction l' as [|a l' IH]; intros t; cbn [map fold_right]; [unfold Rdiv; ring|rewrite IH; unfold Rdiv; ring]). rewrite G. field. lra.
  - rewrite map_length. apply map2_length. exact L.
  - intros i I. rewrite (nth_indep _ 0 (0 / total l)) by (rewrite map_length; unfold l; rewrite map2_length; auto). rewrite (map_nth (fun x => x / total l)). unfold l at 1. rewrite map2_nth by auto. reflexivity.
Qed.
(** triangle meshes; non-negative likelihoods with some area of positive likelihood *)
Theorem C54_triangles : forall choice dim V F likelihood n r, is_choice choice -> valid_mesh dim V F -> Forall (fun f => length f = 3%nat) F -> length r = n ->
  Forall (fun q => 0 <= fst q < 1 /\ 0 <= snd q < 1) r ->
  let wt e := size_of_tri (vert_of V F e) * nth e (lk F likelihood) 0 in
  length (lk F likelihood) = length F -> (forall x, In x (lk F likelihood) -> 0 <= x) -> 0 < sumn (length F) wt ->
  exists l, random_points_triangles choice V F likelihood n r = Ok l /\ length l = n /\ Forall (good_sample dim V F) l /\ (forall s, In s l -> 0 < wt (snd (fst s)))
    /\ drawn_with choice n wt (length F) l /\ map snd l = map (fun q => let (u, v) := square_to_triangle (fst q) (snd q) in [1 - u - v; u; v]) r.
Proof.
  intros choice dim V F likelihood n r (CH1 & CH2) VM F3 LR FR wt LL PL TP. pose proof VM as (_ & _ & _ & _ & FV). unfold random_points_triangles.
  destruct (Nat.eqb_spec n 0) as [N|N]; [exists []; destruct r; [|cbn in LR; lia]; repeat split; auto; [intros ? []|congruence]|].
  rewrite (mapO_ok _ (fun f => size_of_tri (map (fun i => nth (Z.to_nat i) V []) f))).
  2:{ intros f I. rewrite Forall_forall in F3, FV. specialize (F3 f I). specialize (FV f I). destruct f as [|a [|b [|c [|? ?]]]]; try discriminate. inversion FV as [|? ? Ha FV']; subst. inversion FV' as [|? ? Hb FV'']; subst. inversion FV'' as [|? ? Hc _]; subst.
      rewrite !(AabbTreeProofs.getZ_ok V _ []) by auto. reflexivity. }
  cbn [lift bind]. set (A := map (fun f => size_of_tri (map (fun i => nth (Z.to_nat i) V []) f)) F).
  assert (LA : length A = length F) by apply map_length.
  assert (NA : forall e, (e < length F)%nat -> nth e A 0 = size_of_tri (vert_of V F e)).
  { intros e E. unfold A. rewrite (nth_indep _ 0 (size_of_tri (map (fun i => nth (Z.to_nat i) V []) []))) by (rewrite map_length; lia). rewrite (map_nth (fun f => size_of_tri (map (fun i => nth (Z.to_nat i) V []) f))). reflexivity. }
  assert (PA : forall x, In x A -> 0 <= x).
  { intros x I. apply in_map_iff in I. destruct I as (f & <- & _). unfold size_of_tri. destruct (map _ f) as [|a [|b [|c [|? ?]]]]; try lra. unfold dblA. apply Rmult_le_pos; [lra|apply sqrt_pos]. }
  assert (TT : total (map2 Rmult A (lk F likelihood)) = sumn (length F) wt).
  { assert (G : forall a b, length a = length b -> total (map2 Rmult a b) = sumn (length a) (fun e => nth e a 0 * nth e b 0)).
    { unfold sumn. induction a as [|x a IH]; intros [|y b] H; try discriminate; [reflexivity|]. cbn [map2 length seq sumf nth]. cbn [total fold_right]. fold (total (map2 Rmult a b)). rewrite IH by (cbn in H; lia). rewrite <- seq_shift, sumf_map. reflexivity. }
    rewrite G by lia. rewrite LA. apply sumf_ext. intros e I. apply in_seq in I. rewrite NA by lia. reflexivity. }
  destruct (weights_prob A (lk F likelihood) ltac:(lia) PA PL ltac:(rewrite TT; exact TP)) as (W1 & W2 & W3 & W4).
  destruct (CH2 (weights A (lk F likelihood)) n W1 W2) as (Ix & EI). rewrite EI. cbn [lift bind]. destruct (CH1 _ _ _ EI) as (LI & PI).
  assert (BI : forall i, In i Ix -> (i < length F)%nat) by (intros i I; destruct (PI i I); lia).
  destruct (sample_ok dim V F (map (fun q => bary_triangle (fst q) (snd q)) r) Ix 3 VM (or_intror eq_refl) F3) as (l & El & M1 & M2 & G); auto.
  { rewrite map_length. lia. }
  { apply Forall_map. eapply Forall_impl; [|exact FR]. intros q (Q1 & Q2). destruct (bary_tri_ok _ _ Q1 Q2). auto. }
  exists l. split; [exact El|]. split; [rewrite <- LI, <- M2; symmetry; apply map_length|]. split; [exact G|]. split; [|split; [|first [exact M1|rewrite M1; apply map_ext; intros; apply bary_square]]].
  2:{ intros _. exists (weights A (lk F likelihood)). split; [lia|]. split; [|rewrite M2; exact EI]. intros e He. rewrite W4 by lia. rewrite NA by lia. rewrite TT. reflexivity. }
  intros s I. assert (In (snd (fst s)) Ix) by (rewrite <- M2; apply in_map_iff; eauto). destruct (PI _ H) as (B & P). rewrite W4 in P by (rewrite LA; auto). rewrite NA in P by auto. rewrite TT in P.
  unfold wt. replace (size_of_tri (vert_of V F (snd (fst s))) * nth (snd (fst s)) (lk F likelihood) 0) with (size_of_tri (vert_of V F (snd (fst s))) * nth (snd (fst s)) (lk F likelihood) 0 / sumn (length F) wt * sumn (length F) wt) by (field; lra).
  apply Rmult_lt_0_compat; auto.
Qed.
Print Assumptions C54_triangles.
Theorem C54_polyline : forall choice dim V F likelihood n r, is_choice choice -> valid_mesh dim V F -> Forall (fun f => length f = 2%nat) F -> length r = n ->
  Forall (fun q => 0 <= q < 1) r ->
  let wt e := size_of_edge (vert_of V F e) * nth e (lk F likelihood) 0 in
  length (lk F likelihood) = length F -> (forall x, In x (lk F likelihood) -> 0 <= x) -> 0 < sumn (length F) wt ->
  exists l, random_points_polyline choice V F likelihood n r = Ok l /\ length l = n /\ Forall (good_sample dim V F) l /\ (forall s, In s l -> 0 < wt (snd (fst s)))
    /\ drawn_with choice n wt (length F) l /\ map snd l = map (fun q => [q; 1 - q]) r.
Proof.
  intros choice dim V F likelihood n r (CH1 & CH2) VM F3 LR FR wt LL PL TP. pose proof VM as (_ & _ & _ & _ & FV). unfold random_points_polyline.
  destruct (Nat.eqb_spec n 0) as [N|N]; [exists []; destruct r; [|cbn in LR; lia]; repeat split; auto; [intros ? []|congruence]|].
  rewrite (mapO_ok _ (fun f => size_of_edge (map (fun i => nth (Z.to_nat i) V []) f))).
  2:{ intros f I. rewrite Forall_forall in F3, FV. specialize (F3 f I). specialize (FV f I). destruct f as [|a [|b [|? ?]]]; try discriminate. inversion FV as [|? ? Ha FV']; subst. inversion FV' as [|? ? Hb _]; subst.
      rewrite !(AabbTreeProofs.getZ_ok V _ []) by auto. reflexivity. }
  cbn [lift bind]. set (A := map (fun f => size_of_edge (map (fun i => nth (Z.to_nat i) V []) f)) F).
  assert (LA : length A = length F) by apply map_length.
  assert (NA : forall e, (e < length F)%nat -> nth e A 0 = size_of_edge (vert_of V F e)).
  { intros e E. unfold A. rewrite (nth_indep _ 0 (size_of_edge (map (fun i => nth (Z.to_nat i) V []) []))) by (rewrite map_length; lia). rewrite (map_nth (fun f => size_of_edge (map (fun i => nth (Z.to_nat i) V []) f))). reflexivity. }
  assert (PA : forall x, In x A -> 0 <= x).
  { intros x I. apply in_map_iff in I. destruct I as (f & <- & _). unfold size_of_edge. destruct (map _ f) as [|a [|b [|? ?]]]; try lra. apply sqrt_pos. }
  assert (TT : total (map2 Rmult A (lk F likelihood)) = sumn (length F) wt).
  { assert (G : forall a b, length a = length b -> total (map2 Rmult a b) = sumn (length a) (fun e => nth e a 0 * nth e b 0)).
    { unfold sumn. induction a as [|x a IH]; intros [|y b] H; try discriminate; [reflexivity|]. cbn [map2 length seq sumf nth]. cbn [total fold_right]. fold (total (map2 Rmult a b)). rewrite IH by (cbn in H; lia). rewrite <- seq_shift, sumf_map. reflexivity. }
    rewrite G by lia. rewrite LA. apply sumf_ext. intros e I. apply in_seq in I. rewrite NA by lia. reflexivity. }
  destruct (weights_prob A (lk F likelihood) ltac:(lia) PA PL ltac:(rewrite TT; exact TP)) as (W1 & W2 & W3 & W4).
  destruct (CH2 (weights A (lk F likelihood)) n W1 W2) as (Ix & EI). rewrite EI. cbn [lift bind]. destruct (CH1 _ _ _ EI) as (LI & PI).
  assert (BI : forall i, In i Ix -> (i < length F)%nat) by (intros i I; destruct (PI i I); lia).
  destruct (sample_ok dim V F (map bary_polyline r) Ix 2 VM (or_introl eq_refl) F3) as (l & El & M1 & M2 & G); auto.
  { rewrite map_length. lia. }
  { apply Forall_map. eapply Forall_impl; [|exact FR]. intros q Q1. destruct (bary_line_ok _ Q1). auto. }
  exists l. split; [exact El|]. split; [rewrite <- LI, <- M2; symmetry; apply map_length|]. split; [exact G|]. split; [|split; [|first [exact M1|rewrite M1; apply map_ext; intros; apply bary_square]]].
  2:{ intros _. exists (weights A (lk F likelihood)). split; [lia|]. split; [|rewrite M2; exact EI]. intros e He. rewrite W4 by lia. rewrite NA by lia. rewrite TT. reflexivity. }
  intros s I. assert (In (snd (fst s)) Ix) by (rewrite <- M2; apply in_map_iff; eauto). destruct (PI _ H) as (B & P). rewrite W4 in P by (rewrite LA; auto). rewrite NA in P by auto. rewrite TT in P.
  unfold wt. replace (size_of_edge (vert_of V F (snd (fst s))) * nth (snd (fst s)) (lk F likelihood) 0) with (size_of_edge (vert_of V F (snd (fst s))) * nth (snd (fst s)) (lk F likelihood) 0 / sumn (length F) wt * sumn (length F) wt) by (field; lra).
  apply Rmult_lt_0_compat; auto.
Qed.
Print Assumptions C54_polyline.
(** the contract of rng.choice is satisfiable: always pick the first index of positive probability *)
Fixpoint first_pos (p : list R) : nat := match p with [] => 0%nat | x :: r => if Rlt_dec 0 x then 0%nat else S (first_pos r) end.
Example is_choice_satisfiable : exists c, is_choice c.
Proof.
  exists (fun p n => if Rlt_dec 0 (fold_right Rplus 0 p) then if (fold_right (fun x b => andb (if Rle_dec 0 x then true else false) b) true p) then Some (repeat (first_pos p) n) else None else None). split.
  - intros p n I E. destruct Rlt_dec as [S|S]; [|discriminate]. destruct (fold_right _ true p) eqn:FB; [|discriminate]. injection E as <-. split; [apply repeat_length|]. intros i Ii. apply repeat_spec in Ii. subst i.
    clear FB. induction p as [|x p IH]; cbn in *; [lra|]. destruct (Rlt_dec 0 x) as [Px|Px]; [split; [lia|auto]|]. destruct IH as (A & B); [lra|]. split; [lia|exact B].
  - intros p n P S. rewrite S. destruct (Rlt_dec 0 1) as [H|H]; [|exfalso; apply H; lra]. assert (FB : fold_right (fun x b => andb (if Rle_dec 0 x then true else false) b) true p = true).
    { clear S. induction p as [|x p IH]; cbn; auto. rewrite IH by (intros; apply P; now right). destruct (Rle_dec 0 x) as [|Q]; auto. exfalso. apply Q, P. now left. }
    rewrite FB. eauto.
Qed.
Example C54_nonvacuous : let V := [[0;0]; [1;0]; [0;1]] in valid_mesh 2 V [[0;1]%Z; [1;2]%Z] /\ 0 < size_of_edge (vert_of V [[0;1]%Z; [1;2]%Z] 0).
Proof.
  cbv zeta. split; [split; [lia|]; split; [discriminate|]; split; [discriminate|]; split; [repeat constructor|repeat apply Forall_cons; try apply Forall_nil; cbn; lia]|].
  unfold size_of_edge, vert_of. cbn [nth map]. apply sqrt_lt_R0. unfold sqlen. change (Z.to_nat 1) with 1%nat. change (Z.to_nat 0) with 0%nat. cbn. lra.
Qed.
