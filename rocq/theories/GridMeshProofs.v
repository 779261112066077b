From Verif Require Import NumpyModel PyExn TopoModel TopoSpec Vec SubdivSpec SubdivProofs DecProofs GridMeshModel.
From Coq Require Import Psatz Permutation.
Open Scope Z_scope.

Lemma in_zseq n x : In x (zseq n) <-> 0 <= x < n.
Proof.
  unfold zseq. rewrite in_map_iff. split.
  - intros (k & <- & I). apply in_seq in I. lia.
  - intros H. exists (Z.to_nat x). split; [lia|]. apply in_seq. lia.
Qed.
Lemma zseq_length n : length (zseq n) = Z.to_nat n.
Proof. unfold zseq. rewrite map_length, seq_length. auto. Qed.
Lemma NoDup_zseq n : NoDup (zseq n).
Proof. unfold zseq. apply FinFun.Injective_map_NoDup; [intros a b; lia | apply seq_NoDup]. Qed.
Lemma zseq_nth n k : (k < Z.to_nat n)%nat -> nth_error (zseq n) k = Some (Z.of_nat k).
Proof. intros H. unfold zseq. rewrite nth_error_map, (nth_error_nth' _ 0%nat) by (rewrite seq_length; lia). rewrite seq_nth by lia. reflexivity. Qed.
Lemma in_cells R C p : In p (cells R C) <-> 0 <= fst p < R /\ 0 <= snd p < C.
Proof.
  unfold cells. rewrite in_flat_map. split.
  - intros (r & Ir & I). apply in_map_iff in I as (c & <- & Ic). rewrite in_zseq in *. auto.
  - destruct p as [r c]. cbn. intros [A B]. exists r. rewrite in_zseq. split; auto. apply in_map_iff. exists c. rewrite in_zseq. auto.
Qed.
Lemma NoDup_cells R C : NoDup (cells R C).
Proof.
  unfold cells. apply NoDup_flat_map_key.
  - intros r _. apply FinFun.Injective_map_NoDup; [congruence | apply NoDup_zseq].
  - intros i j a b x Hi Hj Ia Ib. apply in_map_iff in Ia as (c & <- & _). apply in_map_iff in Ib as (c' & Q & _). injection Q as Q _. subst.
    assert (i < length (zseq R))%nat by (apply nth_error_Some; congruence).
    assert (NDZ := NoDup_zseq R). rewrite NoDup_nth_error in NDZ. apply NDZ; auto. congruence.
Qed.
Lemma flat_map_const_length {A B} (f : A -> list B) l k : (forall x, In x l -> length (f x) = k) -> length (flat_map f l) = (length l * k)%nat.
Proof. induction l as [|a l IH]; intros H; cbn; auto. rewrite app_length, H, IH; auto; [intros; apply H; right; auto | left; auto]. Qed.
Lemma cells_length R C : length (cells R C) = (Z.to_nat R * Z.to_nat C)%nat.
Proof. unfold cells. rewrite (flat_map_const_length _ _ (Z.to_nat C)), zseq_length; auto. intros. rewrite map_length, zseq_length; auto. Qed.
Lemma nth_error_flat_map_const {A B} (f : A -> list B) k : (forall x, length (f x) = k) -> forall l i j x y,
  nth_error l i = Some x -> nth_error (f x) j = Some y -> nth_error (flat_map f l) (i * k + j) = Some y.
Proof.
  intros H. induction l as [|a l IH]; intros i j x y Hi Hj; [destruct i; discriminate|]. cbn.
  assert (j < k)%nat by (rewrite <- (H x); apply nth_error_Some; congruence).
  destruct i as [|i]; cbn in Hi.
  - injection Hi as ->. cbn. rewrite nth_error_app1 by (rewrite H; auto). auto.
  - rewrite nth_error_app2 by (rewrite H; cbn; lia). rewrite H. replace (S i * k + j - k)%nat with (i * k + j)%nat by (cbn; lia). eapply IH; eauto.
Qed.
(** vertex r*C + c of a ravelled array is the (r,c) one *)
Lemma cells_nth R C r c : 0 <= r < R -> 0 <= c < C -> nth_error (cells R C) (Z.to_nat (r * C + c)) = Some (r, c).
Proof.
  intros Hr Hc. unfold cells. replace (Z.to_nat (r * C + c)) with (Z.to_nat r * Z.to_nat C + Z.to_nat c)%nat by nia.
  eapply nth_error_flat_map_const.
  - intros x. rewrite map_length, zseq_length. auto.
  - rewrite zseq_nth by lia. rewrite Z2Nat.id by lia. reflexivity.
  - rewrite nth_error_map, zseq_nth by lia. rewrite Z2Nat.id by lia. reflexivity.
Qed.

Lemma idx_inj W a b a' b' : 0 <= b < W -> 0 <= b' < W -> a * W + b = a' * W + b' -> a = a' /\ b = b'.
Proof. intros. assert (a = a') by nia. subst. split; lia. Qed.

(** one direction of the grid: open or periodic *)
Record step_ok (A : Z -> Z) (n H : Z) : Prop := {
  st_range : forall r, 0 <= r <= n -> 0 <= A r < H;
  st_inj0 : forall r r', 0 <= r < n -> 0 <= r' < n -> A r = A r' -> r = r';
  st_inj1 : forall r r', 0 <= r < n -> 0 <= r' < n -> A (r+1) = A (r'+1) -> r = r';
  st_move : forall r, 0 <= r < n -> A r <> A (r+1);
  st_norev : forall r r', 0 <= r < n -> 0 <= r' < n -> A r = A (r'+1) -> A (r+1) = A r' -> False }.
Lemma step_open n : step_ok (fun r => r) n (n + 1).
Proof. constructor; intros; lia. Qed.
Lemma step_wrap n : 3 <= n -> step_ok (wrap n) n n.
Proof.
  intros H. constructor; unfold wrap; intros;
  repeat match goal with |- context [?a =? ?b] => destruct (Z.eqb_spec a b) | H : context [?a =? ?b] |- _ => destruct (Z.eqb_spec a b) end; lia.
Qed.

Section Grid.
  Variables (A B : Z -> Z) (rows cols H W : Z).
  Hypothesis SA : step_ok A rows H.
  Hypothesis SB : step_ok B cols W.
  Let inds r c := A r * W + B c.

  Definition side (k : nat) (p : Z * Z) : edge :=
    let '(r, c) := p in
    match k with
    | 0%nat => (inds r c, inds (r+1) (c+1)) | 1%nat => (inds (r+1) (c+1), inds (r+1) c) | 2%nat => (inds (r+1) c, inds r c)
    | 3%nat => (inds r c, inds r (c+1)) | 4%nat => (inds r (c+1), inds (r+1) (c+1)) | _ => (inds (r+1) (c+1), inds r c)
    end.
  Definition labels : list (nat * (Z * Z)) :=
    flat_map (fun p => [(0%nat, p); (1%nat, p); (2%nat, p)]) (cells rows cols) ++
    flat_map (fun p => [(3%nat, p); (4%nat, p); (5%nat, p)]) (cells rows cols).
  Lemma sides_labels : all_sides (grid_faces inds rows cols) = map (fun q => side (fst q) (snd q)) labels.
  Proof.
    unfold all_sides, grid_faces, labels. rewrite flat_map_app, map_app. f_equal.
    - induction (cells rows cols) as [|[r c] l IH]; cbn; auto. rewrite IH. auto.
    - induction (cells rows cols) as [|[r c] l IH]; cbn; auto. rewrite IH. auto.
  Qed.
  Lemma labels_in k p : In (k, p) labels <-> (k < 6)%nat /\ 0 <= fst p < rows /\ 0 <= snd p < cols.
  Proof.
    unfold labels. rewrite in_app_iff, !in_flat_map, <- in_cells. split.
    - intros [(q & I & J)|(q & I & J)]; cbn in J; (destruct J as [J|[J|[J|[]]]]); (injection J as <- <-; split; [lia|auto]).
    - intros [K I]. destruct k as [|[|[|[|[|[|k]]]]]]; try (exfalso; lia); first [left; exists p; split; [exact I | cbn; tauto] | right; exists p; split; [exact I | cbn; tauto]].
  Qed.
  Lemma NoDup_labels : NoDup labels.
  Proof.
    pose proof (NoDup_cells rows cols) as N. unfold labels. 
    assert (G : forall a b c : nat, a <> b -> b <> c -> a <> c -> NoDup (flat_map (fun p => [(a, p); (b, p); (c, p)]) (cells rows cols))).
    { intros a b c N1 N2 N3. apply NoDup_flat_map_key.
      - intros p _. repeat constructor; cbn; intuition congruence.
      - intros i j p q x Hi Hj Ip Iq. rewrite NoDup_nth_error in N. apply N; [apply nth_error_Some; congruence|].
        assert (snd x = p) by (cbn in Ip; destruct Ip as [<-|[<-|[<-|[]]]]; auto). assert (snd x = q) by (cbn in Iq; destruct Iq as [<-|[<-|[<-|[]]]]; auto). congruence. }
    apply SubdivProofs.NoDup_app_iff. split; [apply G; lia|]. split; [apply G; lia|].
    intros x I J. rewrite in_flat_map in I, J. destruct I as (p & _ & I), J as (q & _ & J). cbn in I, J.
    destruct I as [<-|[<-|[<-|[]]]]; destruct J as [J|[J|[J|[]]]]; congruence.
  Qed.
  Lemma inds_inj r c r' c' : 0 <= c <= cols -> 0 <= c' <= cols -> inds r c = inds r' c' -> A r = A r' /\ B c = B c'.
  Proof. intros C1 C2. apply idx_inj; eapply st_range; eauto. Qed.

  Ltac facts := repeat match goal with
    | Q : inds ?r ?c = inds ?r' ?c' |- _ => apply inds_inj in Q; [destruct Q | lia | lia] end.
  Lemma side_inj k p k' p' : In (k, p) labels -> In (k', p') labels -> side k p = side k' p' -> (k, p) = (k', p').
  Proof.
    rewrite !labels_in. destruct p as [r c], p' as [r' c']. cbn [fst snd]. intros (K & R1 & C1) (K' & R2 & C2) Q.
    pose proof (st_move _ _ _ SA r R1). pose proof (st_move _ _ _ SA r' R2). pose proof (st_move _ _ _ SB c C1). pose proof (st_move _ _ _ SB c' C2).
    pose proof (st_norev _ _ _ SA r r' R1 R2). pose proof (st_norev _ _ _ SB c c' C1 C2).
    pose proof (st_norev _ _ _ SA r' r R2 R1). pose proof (st_norev _ _ _ SB c' c C2 C1).
    pose proof (st_inj0 _ _ _ SA r r' R1 R2). pose proof (st_inj1 _ _ _ SA r r' R1 R2).
    pose proof (st_inj0 _ _ _ SB c c' C1 C2). pose proof (st_inj1 _ _ _ SB c c' C1 C2).
    destruct k as [|[|[|[|[|[|k]]]]]]; try lia; destruct k' as [|[|[|[|[|[|k']]]]]]; try lia; cbn [side] in Q; injection Q as Q1 Q2; facts;
      try (exfalso; solve [congruence | auto]);
      (assert (r = r') by auto; assert (c = c') by auto; subst; reflexivity).
  Qed.
  Lemma grid_oriented : oriented_manifold (grid_faces inds rows cols).
  Proof.
    unfold oriented_manifold. rewrite sides_labels. apply NoDup_nth_error. intros i j Hi Q. rewrite !nth_error_map in Q. rewrite map_length in Hi.
    destruct (nth_error labels i) as [[k p]|] eqn:Ei; [|apply nth_error_None in Ei; lia].
    destruct (nth_error labels j) as [[k' p']|] eqn:Ej; [|discriminate]. cbn in Q. injection Q as Q.
    assert (E : (k,p) = (k',p')) by (apply side_inj; auto; eapply nth_error_In; eauto).
    pose proof NoDup_labels as N. rewrite NoDup_nth_error in N. apply N; auto. congruence.
  Qed.
  Lemma grid_faces_in t : In t (grid_faces inds rows cols) <-> exists r c, 0 <= r < rows /\ 0 <= c < cols /\
    (t = (inds r c, inds (r+1) (c+1), inds (r+1) c) \/ t = (inds r c, inds r (c+1), inds (r+1) (c+1))).
  Proof.
    unfold grid_faces. rewrite in_app_iff, !in_map_iff. split.
    - intros [([r c] & <- & I)|([r c] & <- & I)]; apply in_cells in I; cbn in I; exists r, c; tauto.
    - intros (r & c & R1 & C1 & [ -> | -> ]); [left|right]; exists (r,c); rewrite in_cells; auto.
  Qed.
  Lemma grid_range : in_range (H * W) (grid_faces inds rows cols).
  Proof.
    intros t I. apply grid_faces_in in I as (r & c & R1 & C1 & I).
    pose proof (st_range _ _ _ SA r ltac:(lia)). pose proof (st_range _ _ _ SA (r+1) ltac:(lia)).
    pose proof (st_range _ _ _ SB c ltac:(lia)). pose proof (st_range _ _ _ SB (c+1) ltac:(lia)).
    unfold inds in I. destruct I as [ -> | -> ]; nia.
  Qed.
  Lemma grid_proper t : In t (grid_faces inds rows cols) -> proper t.
  Proof.
    intros I. apply grid_faces_in in I as (r & c & R1 & C1 & I).
    pose proof (st_move _ _ _ SA r R1). pose proof (st_move _ _ _ SB c C1).
    destruct I as [ -> | -> ]; repeat split; intros Q; facts; congruence.
  Qed.
  Lemma grid_distinct s t : In s (grid_faces inds rows cols) -> In t (grid_faces inds rows cols) -> same_tri s t -> s = t.
  Proof.
    intros I J S. apply grid_faces_in in I as (r & c & R1 & C1 & I). apply grid_faces_in in J as (r' & c' & R2 & C2 & J).
    pose proof (st_move _ _ _ SA r R1). pose proof (st_move _ _ _ SA r' R2). pose proof (st_move _ _ _ SB c C1). pose proof (st_move _ _ _ SB c' C2).
    pose proof (st_norev _ _ _ SA r r' R1 R2). pose proof (st_norev _ _ _ SB c c' C1 C2).
    pose proof (st_norev _ _ _ SA r' r R2 R1). pose proof (st_norev _ _ _ SB c' c C2 C1).
    pose proof (st_inj0 _ _ _ SA r r' R1 R2). pose proof (st_inj1 _ _ _ SA r r' R1 R2).
    pose proof (st_inj0 _ _ _ SB c c' C1 C2). pose proof (st_inj1 _ _ _ SB c c' C1 C2).
    destruct I as [ -> | -> ], J as [ -> | -> ]; unfold same_tri, perms3 in S; cbn [In] in S;
      destruct S as [S|[S|[S|[S|[S|[S|[]]]]]]]; injection S as Q1 Q2 Q3; facts;
      try (exfalso; solve [congruence | auto]);
      (assert (r = r') by auto; assert (c = c') by auto; subst; reflexivity).
  Qed.
  Lemma grid_good : good_mesh (grid_faces inds rows cols).
  Proof. split; [apply grid_oriented|]. split; [apply grid_proper | apply grid_distinct]. Qed.

  Lemma in_sides e : In e (all_sides (grid_faces inds rows cols)) <-> exists k r c, (k < 6)%nat /\ 0 <= r < rows /\ 0 <= c < cols /\ e = side k (r,c).
  Proof.
    rewrite sides_labels, in_map_iff. split.
    - intros ([k [r c]] & <- & I). apply labels_in in I. cbn in I. exists k, r, c. tauto.
    - intros (k & r & c & K & R1 & C1 & ->). exists (k,(r,c)). rewrite labels_in. auto.
  Qed.
  (** when is the opposite half-edge present *)
  Lemma rev_in k r c : (k < 6)%nat -> 0 <= r < rows -> 0 <= c < cols ->
    (In (rev_edge (side k (r,c))) (all_sides (grid_faces inds rows cols)) <->
     match k with
     | 1%nat => exists r', 0 <= r' < rows /\ A r' = A (r+1)
     | 2%nat => exists c', 0 <= c' < cols /\ B (c'+1) = B c
     | 3%nat => exists r', 0 <= r' < rows /\ A (r'+1) = A r
     | 4%nat => exists c', 0 <= c' < cols /\ B c' = B (c+1)
     | _ => True
     end).
  Proof.
    intros K R1 C1. rewrite in_sides. split.
    - intros (k' & r' & c' & K' & R2 & C2 & Q). revert Q.
      pose proof (st_move _ _ _ SA r R1). pose proof (st_move _ _ _ SA r' R2). pose proof (st_move _ _ _ SB c C1). pose proof (st_move _ _ _ SB c' C2).
      pose proof (st_norev _ _ _ SA r r' R1 R2). pose proof (st_norev _ _ _ SB c c' C1 C2).
      pose proof (st_norev _ _ _ SA r' r R2 R1). pose proof (st_norev _ _ _ SB c' c C2 C1).
      destruct k as [|[|[|[|[|[|k]]]]]]; try lia; auto; destruct k' as [|[|[|[|[|[|k']]]]]]; try lia; cbn [side rev_edge fst snd]; intros Q; injection Q as Q1 Q2; facts;
      try (exfalso; solve [congruence | eauto]); eauto.
    - intros G. destruct k as [|[|[|[|[|[|k]]]]]]; try lia; cbn [side rev_edge fst snd].
      + exists 5%nat, r, c. repeat split; auto; lia.
      + destruct G as (r' & R2 & E). exists 3%nat, r', c. repeat split; auto; try lia. cbn. unfold inds. rewrite E. auto.
      + destruct G as (c' & R2 & E). exists 4%nat, r, c'. repeat split; auto; try lia. cbn. unfold inds. rewrite E. auto.
      + destruct G as (r' & R2 & E). exists 1%nat, r', c. repeat split; auto; try lia. cbn. unfold inds. rewrite E. auto.
      + destruct G as (c' & R2 & E). exists 2%nat, r, c'. repeat split; auto; try lia. cbn. unfold inds. rewrite E. auto.
      + exists 0%nat, r, c. repeat split; auto; lia.
  Qed.
End Grid.

Lemma wrap_prev n c : 3 <= n -> 0 <= c < n -> exists c', 0 <= c' < n /\ wrap n (c'+1) = wrap n c.
Proof.
  intros Hn Hc. exists (if c =? 0 then n - 1 else c - 1). unfold wrap.
  destruct (Z.eqb_spec c 0); split; try lia.
  - destruct (Z.eqb_spec (n-1+1) n), (Z.eqb_spec c n); lia.
  - destruct (Z.eqb_spec (c-1+1) n), (Z.eqb_spec c n); lia.
Qed.
Lemma wrap_next n c : 3 <= n -> 0 <= c < n -> exists c', 0 <= c' < n /\ wrap n c' = wrap n (c+1).
Proof.
  intros Hn Hc. exists (if c =? n - 1 then 0 else c + 1). unfold wrap.
  destruct (Z.eqb_spec c (n-1)); split; try lia.
  - destruct (Z.eqb_spec 0 n), (Z.eqb_spec (c+1) n); lia.
Qed.
