(** Proofs for marching_squares: from the cells to the output mesh *)
From Coq Require Import List Arith ZArith Reals Lra Lia Bool Permutation.
From Verif Require Import PyExn NumpyModel RelabelModel RelabelSpec RelabelProofs MsModel MsSpec MsProofs.
Import ListNotations.
Open Scope R_scope.

Lemma gedge_eqb_spec e f : gedge_eqb e f = true <-> e = f.
Proof.
  destruct e, f; cbn; try (split; congruence); rewrite andb_true_iff, !Nat.eqb_eq; split; [intros [-> ->]; auto|intros H; injection H; auto|intros [-> ->]; auto|intros H; injection H; auto].
Qed.

Definition zpt (S : nat -> nat -> R) (e : gedge) : R * R := (nth 0 (zpos S e) 0, nth 1 (zpos S e) 0).
Lemma zpos_zpt S e : zpos S e = [fst (zpt S e); snd (zpt S e)].
Proof. destruct e; reflexivity. Qed.
Lemma zpt_is_zero S e : crossing S e -> is_zero S e (zpt S e).
Proof.
  intros C. remember (at_node S (node1 e)) as p eqn:EP. remember (at_node S (node2 e)) as q eqn:EQ.
  assert (NZ : q - p <> 0) by (unfold crossing in C; rewrite <- EP, <- EQ in C; lra).
  exists (- p / (q - p)). rewrite <- EP, <- EQ. assert (B : 0 <= - p / (q - p) <= 1).
  { unfold crossing in C; rewrite <- EP, <- EQ in C. destruct (Rlt_dec p q) as [L|L].
    - split; [apply Rmult_le_reg_r with (q - p)|apply Rmult_le_reg_r with (q - p)]; try lra; unfold Rdiv; rewrite Rmult_assoc, Rinv_l by lra; lra.
    - replace (- p / (q - p)) with (p / (p - q)) by (field; lra).
      split; [apply Rmult_le_reg_r with (p - q)|apply Rmult_le_reg_r with (p - q)]; try lra; unfold Rdiv; rewrite Rmult_assoc, Rinv_l by lra; lra. }
  split; [exact B|]. split; [field; exact NZ|].
  destruct e as [i j|i j]; unfold zpt, zpos; cbn zeta; rewrite <- ?EP, <- ?EQ; cbn [nth fst snd node1 node2]; rewrite ?plus_INR; cbn [INR];
  (split; [try ring; field; exact NZ|try ring; field; exact NZ]).
Qed.
Lemma is_zero_unique S e p : crossing S e -> is_zero S e p -> p = zpt S e.
Proof.
  intros C (t & B & Z & X & Y). remember (at_node S (node1 e)) as a eqn:EP. remember (at_node S (node2 e)) as b eqn:EQ.
  assert (NZ : b - a <> 0) by (unfold crossing in C; rewrite <- EP, <- EQ in C; lra).
  assert (T : t = - a / (b - a)) by (apply Rmult_eq_reg_r with (b - a); auto; unfold Rdiv; rewrite Rmult_assoc, Rinv_l by auto; lra).
  destruct p as [x y]; cbn [fst snd] in *. 
  destruct e as [i j|i j]; unfold zpt, zpos; cbn zeta; rewrite <- ?EP, <- ?EQ; cbn [nth fst snd node1 node2] in *; subst x y t; f_equal; rewrite ?plus_INR; cbn [INR]; try ring; field; exact NZ.
Qed.

Lemma rows_close2 eps x y x' y' : rows_close eps [x; y] [x'; y'] -> Rabs (x - x') <= eps /\ Rabs (y - y') <= eps.
Proof. intros H. inversion H as [|? ? ? ? A H']; subst. inversion H' as [|? ? ? ? B H'']; subst. auto. Qed.

Lemma trace_in S nx ny s : In s (trace S nx ny) -> exists i j, (i < nx - 1)%nat /\ (j < ny - 1)%nat /\ In s (cell_segs S i j).
Proof.
  unfold trace. intros H. apply in_flat_map in H as (i & Ii & H). apply in_flat_map in H as (j & Ij & H).
  apply in_seq in Ii, Ij. exists i, j. repeat split; auto; lia.
Qed.
Lemma cell_local S i j s : In s (cell_segs S i j) -> cell_edge i j (fst s) /\ cell_edge i j (snd s) /\ fst s <> snd s.
Proof.
  unfold cell_segs, cell_edge. corners S i j; cbn [In]; intros H;
  repeat match goal with H : _ \/ _ |- _ => destruct H as [H|H] | H : False |- _ => destruct H end; subst s; cbn [fst snd];
  (split; [tauto|split; [tauto|]]); try discriminate; intros Q; injection Q; lia.
Qed.
Lemma starts_In e T : (0 < starts e T)%nat -> exists s, In s T /\ fst s = e.
Proof.
  unfold starts. destruct (filter _ T) as [|s r] eqn:E; cbn; [lia|]. intros _. exists s.
  assert (I : In s (filter (fun s => gedge_eqb e (fst s)) T)) by (rewrite E; left; auto).
  apply filter_In in I as [I Q]. apply gedge_eqb_spec in Q. auto.
Qed.
Lemma ends_In e T : (0 < ends e T)%nat -> exists s, In s T /\ snd s = e.
Proof.
  unfold ends. destruct (filter _ T) as [|s r] eqn:E; cbn; [lia|]. intros _. exists s.
  assert (I : In s (filter (fun s => gedge_eqb e (snd s)) T)) by (rewrite E; left; auto).
  apply filter_In in I as [I Q]. apply gedge_eqb_spec in Q. auto.
Qed.

Lemma inner_dec nx ny e : inner nx ny e \/ ~ inner nx ny e.
Proof. destruct e; cbn; lia. Qed.
Lemma trace_hit S nx ny e : (2 <= nx)%nat -> (2 <= ny)%nat -> in_grid nx ny e -> crossing S e -> exists s, In s (trace S nx ny) /\ (fst s = e \/ snd s = e).
Proof.
  intros NX NY IG CR. destruct (trace_counts S nx ny e NX NY IG CR) as [A B].
  destruct (inner_dec nx ny e) as [I|I].
  - destruct (A I) as [A1 _]. destruct (starts_In e (trace S nx ny)) as (s & Is & Es); [lia|]. eauto.
  - specialize (B I). destruct (starts e (trace S nx ny)) eqn:Q.
    + destruct (ends_In e (trace S nx ny)) as (s & Is & Es); [lia|]. eauto.
    + destruct (starts_In e (trace S nx ny)) as (s & Is & Es); [lia|]. eauto.
Qed.
Lemma ends_of_in r p q : In (p, q) (ends_of r) -> wf r -> In p (fst r) /\ In q (fst r).
Proof.
  unfold ends_of. intros H W. apply in_map_iff in H as ((a & b) & E & I). injection E as <- <-. unfold wf in W. rewrite Forall_forall in W.
  destruct (W _ I) as [A B]. cbn [fst snd] in *. split; apply nth_In; auto.
Qed.

Lemma Forall2_map_eq {A B C} (P : A -> B -> Prop) (f : A -> C) (g : B -> C) l l' : (forall a b, P a b -> f a = g b) -> Forall2 P l l' -> map f l = map g l'.
Proof. intros H. induction 1; cbn; auto. f_equal; auto. Qed.

Definition vert_of_edge (verts : list (list R)) (SVJ : list nat) (S : nat -> nat -> R) (e : gedge) : nat :=
  nth (first_index (dup_key sqrt_eps (zpos S e)) (map (dup_key sqrt_eps) verts)) SVJ 0%nat.

Lemma sqrt_eps_pos : 0 < sqrt_eps.
Proof. unfold sqrt_eps. apply Rinv_0_lt_compat, pow_lt. lra. Qed.

Lemma merged S nx ny verts edges : (2 <= nx)%nat -> (2 <= ny)%nat -> ms_raw S nx ny = (verts, edges) ->
  exists SV SVI SVJ G vert, remove_duplicate_vertices_eps verts sqrt_eps (map (fun e => [fst e; snd e]) edges) = Some (SV, SVI, SVJ, G)
  /\ map (fun f => (nth 0 f 0%nat, nth 1 f 0%nat)) G = map (fun s => (vert (fst s), vert (snd s))) (trace S nx ny)
  /\ (forall e e', in_grid nx ny e -> in_grid nx ny e' -> crossing S e -> crossing S e' ->
        (vert e = vert e' <-> dup_key sqrt_eps (zpos S e) = dup_key sqrt_eps (zpos S e')))
  /\ (forall v y, nth_error SV v = Some y -> exists e, in_grid nx ny e /\ crossing S e /\ vert e = v /\ y = zpos S e)
  /\ (forall e, in_grid nx ny e -> crossing S e -> (vert e < length SV)%nat).
Proof.
  intros NX NY E. destruct (raw_ok S nx ny) as (W & EN & US). rewrite E in W, EN, US. cbn [fst] in US.
  assert (IG : forall s, In s (trace S nx ny) -> (crossing S (fst s) /\ in_grid nx ny (fst s)) /\ crossing S (snd s) /\ in_grid nx ny (snd s)).
  { intros s I. destruct (trace_in _ _ _ _ I) as (i & j & Li & Lj & Ic). destruct (cell_crossing S i j s Ic) as (C1 & C2 & Q).
    destruct (Q (fst s) (or_introl eq_refl)), (Q (snd s) (or_intror eq_refl)). unfold in_grid. repeat split; auto; lia. }
  assert (HIT : forall e, in_grid nx ny e -> crossing S e -> In (zpos S e) verts).
  { intros e I C. destruct (trace_hit S nx ny e NX NY I C) as (s & Is & Q).
    assert (J : In (zpos S (fst s), zpos S (snd s)) (ends_of (verts, edges))).
    { rewrite EN. apply in_map_iff. exists s. auto. }
    destruct (ends_of_in _ _ _ J W) as [A B]. cbn [fst] in A, B. destruct Q as [<- | <-]; auto. }
  destruct (remove_duplicate_vertices_eps_ok verts sqrt_eps (map (fun e => [fst e; snd e]) edges) sqrt_eps_pos) as (SV & SVI & SVJ & G & ER & LJ & FI & IFF & _ & REP & UN & SUR & FG).
  { apply Forall_forall. intros f If. apply in_map_iff in If as ((a & b) & <- & Ie). unfold wf in W. rewrite Forall_forall in W.
    destruct (W _ Ie) as [A B]. cbn [fst snd] in *. auto. }
  set (vert := vert_of_edge verts SVJ S). exists SV, SVI, SVJ, G, vert. split; [exact ER|].
  assert (VK : forall e, In (zpos S e) verts -> forall a x, nth_error verts a = Some x -> dup_key sqrt_eps x = dup_key sqrt_eps (zpos S e) -> nth_error SVJ a = Some (vert e)).
  { intros e I a x Ea K. destruct (first_index_key (dup_key sqrt_eps) verts (zpos S e) I) as (y & Ey & Ky).
    destruct (REP _ _ Ey) as (j & z & EJ & _). unfold vert, vert_of_edge. rewrite (nth_error_nth _ _ _ EJ).
    rewrite <- EJ. apply (IFF _ _ _ _ Ea Ey). congruence. }
  assert (VV : forall e, In (zpos S e) verts -> exists a, nth_error verts a = Some (zpos S e) /\ nth_error SVJ a = Some (vert e)).
  { intros e I. destruct (In_nth_error _ _ I) as (a & Ea). exists a. split; auto. eapply VK; eauto. }
  split; [|split; [|split]].
  - (* edges *)
    assert (Q : map (fun f => (nth 0 f 0%nat, nth 1 f 0%nat)) G = map (fun e => (nth (fst e) SVJ 0%nat, nth (snd e) SVJ 0%nat)) edges).
    { clear -FG. remember (map (fun e => [fst e; snd e]) edges) as fs eqn:EF. revert edges EF.
      induction FG as [|f g fs G H FG IH]; intros [|e edges] EF; cbn [map] in *; try discriminate; auto.
      injection EF as -> EF. f_equal; auto. inversion H as [|? j1 ? g1 H1 H']; subst. inversion H' as [|? j2 ? g2 H2 H'']; subst. cbn [nth].
      rewrite (nth_error_nth _ _ _ H1), (nth_error_nth _ _ _ H2). reflexivity. }
    rewrite Q. assert (EN' := EN). unfold ends_of in EN'. cbn [fst snd] in EN'.
    assert (TI := IG). revert EN' TI. unfold wf in W. cbn [fst snd] in W. generalize (trace S nx ny) as T. clear Q EN ER FG E US. revert W.
    induction edges as [|e edges IH]; intros W [|s T] EN' TI; cbn [map] in *; try discriminate; auto.
    inversion W as [|? ? [W1 W2] W']; subst. injection EN' as A B EN'. f_equal; [|apply IH; auto; intros; apply TI; right; auto].
    + destruct (TI s (or_introl eq_refl)) as [[C1 G1] [C2 G2]].
      assert (X1 : nth_error SVJ (fst e) = Some (vert (fst s))).
      { apply (VK (fst s) (HIT _ G1 C1) _ (nth (fst e) verts [])); [apply nth_error_nth'; auto|congruence]. }
      assert (X2 : nth_error SVJ (snd e) = Some (vert (snd s))).
      { apply (VK (snd s) (HIT _ G2 C2) _ (nth (snd e) verts [])); [apply nth_error_nth'; auto|congruence]. }
      rewrite (nth_error_nth _ _ _ X1), (nth_error_nth _ _ _ X2). reflexivity.
  - intros e e' I I' C C'. destruct (VV e (HIT e I C)) as (a & Ea & Ja). destruct (VV e' (HIT e' I' C')) as (b & Eb & Jb).
    rewrite <- (IFF _ _ _ _ Ea Eb), Ja, Jb. split; congruence.
  - intros v y Ev. destruct (SUR _ _ Ev) as (a & Ea & Ja). destruct (US y (nth_error_In _ _ Ea)) as (s & Is & Q).
    destruct (IG s Is) as [[C1 G1] [C2 G2]].
    destruct Q as [->| ->]; [exists (fst s)|exists (snd s)]; (split; [assumption|split; [assumption|split; [|reflexivity]]]).
    + assert (X := VK _ (HIT _ G1 C1) _ _ Ea eq_refl). rewrite Ja in X. injection X as ->. reflexivity.
    + assert (X := VK _ (HIT _ G2 C2) _ _ Ea eq_refl). rewrite Ja in X. injection X as ->. reflexivity.
  - intros e I C. destruct (VV e (HIT e I C)) as (a & Ea & Ja). destruct (REP _ _ Ea) as (j & z & EJ & Ez & _).
    apply nth_error_Some. congruence.
Qed.

(** bounding box *)
Lemma fold_min l : forall a, (forall x, In x l -> fold_left Rmin l a <= x) /\ fold_left Rmin l a <= a /\ (fold_left Rmin l a = a \/ In (fold_left Rmin l a) l).
Proof.
  induction l as [|b l IH]; intros a; cbn [fold_left].
  - repeat split; auto; [intros ? []|lra].
  - destruct (IH (Rmin a b)) as (A & B & C). pose proof (Rmin_l a b). pose proof (Rmin_r a b). repeat split.
    + intros x [->|I]; [lra|auto].
    + lra.
    + destruct C as [C|C]; [|right; right; auto]. rewrite C. unfold Rmin. destruct (Rle_dec a b); [left|right; left]; auto.
Qed.
Lemma fold_max l : forall a, (forall x, In x l -> x <= fold_left Rmax l a) /\ a <= fold_left Rmax l a /\ (fold_left Rmax l a = a \/ In (fold_left Rmax l a) l).
Proof.
  induction l as [|b l IH]; intros a; cbn [fold_left].
  - repeat split; auto; [intros ? []|lra].
  - destruct (IH (Rmax a b)) as (A & B & C). pose proof (Rmax_l a b). pose proof (Rmax_r a b). repeat split.
    + intros x [->|I]; [lra|auto].
    + lra.
    + destruct C as [C|C]; [|right; right; auto]. rewrite C. unfold Rmax. destruct (Rle_dec a b); [right; left|left]; auto.
Qed.

Lemma col_ext_box GV : GV <> [] -> exists lo hi, col_ext Rmin GV = Ok lo /\ col_ext Rmax GV = Ok hi /\ box_of GV lo hi.
Proof.
  destruct GV as [|p r]; [congruence|]. intros _. cbn [col_ext]. do 2 eexists. split; [reflexivity|]. split; [reflexivity|].
  destruct (fold_min (map fst r) (fst p)) as (A1 & A2 & A3). destruct (fold_min (map snd r) (snd p)) as (B1 & B2 & B3).
  destruct (fold_max (map fst r) (fst p)) as (C1 & C2 & C3). destruct (fold_max (map snd r) (snd p)) as (D1 & D2 & D3).
  unfold box_of. cbn [fst snd]. split; [|split; [|split; [|split]]].
  - intros g [<-|I]; [lra|]. assert (If := in_map fst _ _ I). assert (Is := in_map snd _ _ I). auto.
  - destruct A3 as [E|I]; [exists p; split; [left; auto|auto]|]. apply in_map_iff in I as (g & E & I). exists g. split; [right; auto|auto].
  - destruct B3 as [E|I]; [exists p; split; [left; auto|auto]|]. apply in_map_iff in I as (g & E & I). exists g. split; [right; auto|auto].
  - destruct C3 as [E|I]; [exists p; split; [left; auto|auto]|]. apply in_map_iff in I as (g & E & I). exists g. split; [right; auto|auto].
  - destruct D3 as [E|I]; [exists p; split; [left; auto|auto]|]. apply in_map_iff in I as (g & E & I). exists g. split; [right; auto|auto].
Qed.

(** degrees *)
Lemma filter_filter {A} (f g : A -> bool) l : filter f (filter g l) = filter (fun x => g x && f x) l.
Proof. induction l as [|x l IH]; cbn; auto. destruct (g x) eqn:G; cbn; rewrite ?IH; auto. Qed.
Lemma filter_map' {A B} (f : A -> B) (p : B -> bool) l : filter p (map f l) = map f (filter (fun x => p (f x)) l).
Proof. induction l as [|x l IH]; cbn; auto. destruct (p (f x)); cbn; rewrite IH; auto. Qed.
Lemma filter_len_split {A} (p q : A -> bool) l : length (filter p l) = (length (filter (fun x => p x && q x) l) + length (filter (fun x => p x && negb (q x)) l))%nat.
Proof. induction l as [|x l IH]; cbn; auto. destruct (p x), (q x); cbn; lia. Qed.
Lemma filter_ext' {A} (p q : A -> bool) l : (forall x, In x l -> p x = q x) -> filter p l = filter q l.
Proof. induction l as [|x l IH]; cbn; intros H; auto. rewrite (H x (or_introl eq_refl)), IH; auto. Qed.
Lemma nodup_count l : (forall x, In x l -> length (filter (gedge_eqb x) l) = 1%nat) -> NoDup l.
Proof.
  induction l as [|a l IH]; intros H; constructor.
  - intros I. assert (Q := H a (or_introl eq_refl)). cbn [filter] in Q. rewrite (proj2 (gedge_eqb_spec a a) eq_refl) in Q. cbn [length] in Q.
    destruct (filter (gedge_eqb a) l) eqn:E; [|cbn in Q; lia]. assert (X : In a []); [rewrite <- E; apply filter_In; split; auto; apply gedge_eqb_spec; auto|destruct X].
  - apply IH. intros x I. assert (Q := H x (or_intror I)). cbn [filter] in Q. destruct (gedge_eqb x a) eqn:E; auto.
    apply gedge_eqb_spec in E. subst x. cbn [length] in Q. destruct (filter (gedge_eqb a) l) eqn:E; [|cbn in Q; lia].
    assert (X : In a []); [rewrite <- E; apply filter_In; split; auto; apply gedge_eqb_spec; auto|destruct X].
Qed.
Lemma outdeg_T v (vert : gedge -> nat) T : outdeg v (filter (fun e => negb (Nat.eqb (fst e) (snd e))) (map (fun s => (vert (fst s), vert (snd s))) T))
  = length (filter (fun s => Nat.eqb (vert (fst s)) v && negb (Nat.eqb (vert (snd s)) v)) T).
Proof.
  unfold outdeg. rewrite filter_filter, filter_map', map_length. f_equal. apply filter_ext'. intros s _. cbn [fst snd].
  destruct (Nat.eqb_spec (vert (fst s)) (vert (snd s))), (Nat.eqb_spec (vert (fst s)) v), (Nat.eqb_spec (vert (snd s)) v); cbn; congruence.
Qed.
Lemma indeg_T v (vert : gedge -> nat) T : indeg v (filter (fun e => negb (Nat.eqb (fst e) (snd e))) (map (fun s => (vert (fst s), vert (snd s))) T))
  = length (filter (fun s => Nat.eqb (vert (snd s)) v && negb (Nat.eqb (vert (fst s)) v)) T).
Proof.
  unfold indeg. rewrite filter_filter, filter_map', map_length. f_equal. apply filter_ext'. intros s _. cbn [fst snd].
  destruct (Nat.eqb_spec (vert (fst s)) (vert (snd s))), (Nat.eqb_spec (vert (fst s)) v), (Nat.eqb_spec (vert (snd s)) v); cbn; congruence.
Qed.

Lemma balanced v (vert : gedge -> nat) T :
  (forall s e, In s T -> e = fst s \/ e = snd s -> vert e = v -> starts e T = 1%nat /\ ends e T = 1%nat) ->
  indeg v (filter (fun e => negb (Nat.eqb (fst e) (snd e))) (map (fun s => (vert (fst s), vert (snd s))) T))
  = outdeg v (filter (fun e => negb (Nat.eqb (fst e) (snd e))) (map (fun s => (vert (fst s), vert (snd s))) T)).
Proof.
  intros H. rewrite indeg_T, outdeg_T.
  assert (X : length (filter (fun s => Nat.eqb (vert (fst s)) v) T) = length (filter (fun s => Nat.eqb (vert (snd s)) v) T)).
  { rewrite <- (map_length fst), <- (map_length (@snd gedge gedge)). rewrite <- (filter_map' fst (fun e => Nat.eqb (vert e) v)), <- (filter_map' snd (fun e => Nat.eqb (vert e) v)).
    apply Permutation_length, NoDup_Permutation.
    - apply nodup_count. intros x I. apply filter_In in I as [I Q]. apply in_map_iff in I as (s & <- & Is). 
      destruct (H s (fst s) Is (or_introl eq_refl) (proj1 (Nat.eqb_eq _ _) Q)) as [A B].
      rewrite filter_filter. etransitivity; [|exact A]. unfold starts. rewrite filter_map', map_length. f_equal. apply filter_ext'. intros s' Is'. 
      destruct (gedge_eqb (fst s) (fst s')) eqn:E; [|apply andb_false_r]. apply gedge_eqb_spec in E. rewrite <- E, Q. reflexivity.
    - apply nodup_count. intros x I. apply filter_In in I as [I Q]. apply in_map_iff in I as (s & <- & Is). 
      destruct (H s (snd s) Is (or_intror eq_refl) (proj1 (Nat.eqb_eq _ _) Q)) as [A B].
      rewrite filter_filter. etransitivity; [|exact B]. unfold ends. rewrite filter_map', map_length. f_equal. apply filter_ext'. intros s' Is'. 
      destruct (gedge_eqb (snd s) (snd s')) eqn:E; [|apply andb_false_r]. apply gedge_eqb_spec in E. rewrite <- E, Q. reflexivity.
    - intros e. rewrite !filter_In. split; intros [I Q]; split; auto; apply in_map_iff in I as (s & <- & Is).
      + destruct (H s (fst s) Is (or_introl eq_refl) (proj1 (Nat.eqb_eq _ _) Q)) as [A B]. destruct (ends_In (fst s) T) as (s' & Is' & E); [lia|]. rewrite <- E. apply in_map; auto.
      + destruct (H s (snd s) Is (or_intror eq_refl) (proj1 (Nat.eqb_eq _ _) Q)) as [A B]. destruct (starts_In (snd s) T) as (s' & Is' & E); [lia|]. rewrite <- E. apply in_map; auto. }
  rewrite (filter_len_split (fun s => Nat.eqb (vert (fst s)) v) (fun s => Nat.eqb (vert (snd s)) v)) in X.
  rewrite (filter_len_split (fun s => Nat.eqb (vert (snd s)) v) (fun s => Nat.eqb (vert (fst s)) v)) in X.
  rewrite (filter_ext' (fun s => Nat.eqb (vert (snd s)) v && Nat.eqb (vert (fst s)) v) (fun s => Nat.eqb (vert (fst s)) v && Nat.eqb (vert (snd s)) v)) in X by (intros; apply andb_comm).
  lia.
Qed.
