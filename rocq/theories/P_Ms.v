(** C45: marching_squares *)
From Coq Require Import List Arith ZArith Reals Lra Lia Bool.
From Verif Require Import PyExn NumpyModel RelabelModel RelabelSpec RelabelProofs MsModel MsSpec MsProofs Ms2Proofs.
Import ListNotations.
Open Scope R_scope.

(** the field given as a flat list, x fastest *)
Definition field (Sf : list R) (nx : nat) (i j : nat) : R := nth (i + nx * j) Sf 0.

(** what the output is: [T] lists the directed contour segments between grid edges, [vert] the output
    vertex of each crossed grid edge.  Every crossed edge between two cells starts exactly one segment
    and ends exactly one; a crossed border edge starts or ends exactly one; segments stay in one cell,
    have the positive nodes of the edges they meet on their right and the others on their left; the
    output edges are the segments, except those whose two ends were merged; the output vertex of a
    crossed edge is the zero of the linear interpolation along some crossed edge at distance at most
    2^-26 (grid units) in each coordinate, equal zeros share their vertex, and there is no other vertex. *)
Lemma contour (Sf : list R) (GV : list (R * R)) nx ny : length Sf = (nx * ny)%nat -> (2 <= nx)%nat -> (2 <= ny)%nat -> GV <> [] ->
  let S := field Sf nx in
  exists verts edges T vert lo hi, marching_squares Sf GV nx ny = Ok (verts, edges) /\ box_of GV lo hi
  /\ (forall s, In s T -> crossing S (fst s) /\ crossing S (snd s) /\ fst s <> snd s
        /\ exists i j, (i + 1 < nx)%nat /\ (j + 1 < ny)%nat /\ cell_edge i j (fst s) /\ cell_edge i j (snd s))
  /\ (forall e, in_grid nx ny e -> crossing S e -> inner nx ny e -> starts e T = 1%nat /\ ends e T = 1%nat)
  /\ (forall e, in_grid nx ny e -> crossing S e -> ~ inner nx ny e -> (starts e T + ends e T = 1)%nat)
  /\ (forall s p q e n, In s T -> is_zero S (fst s) p -> is_zero S (snd s) q -> e = fst s \/ e = snd s -> n = node1 e \/ n = node2 e ->
        (0 < at_node S n -> turn p q n <= 0) /\ (at_node S n <= 0 -> 0 <= turn p q n))
  /\ edges = filter (fun e => negb (Nat.eqb (fst e) (snd e))) (map (fun s => (vert (fst s), vert (snd s))) T)
  /\ (forall e p, in_grid nx ny e -> crossing S e -> is_zero S e p -> exists e' p',
        in_grid nx ny e' /\ crossing S e' /\ is_zero S e' p' /\ vert e' = vert e /\ close_to sqrt_eps p p'
        /\ nth_error verts (vert e) = Some (grid_point nx ny lo hi p'))
  /\ (forall e e' p, in_grid nx ny e -> in_grid nx ny e' -> crossing S e -> crossing S e' -> is_zero S e p -> is_zero S e' p -> vert e = vert e')
  /\ (forall e e' p p', in_grid nx ny e -> in_grid nx ny e' -> crossing S e -> crossing S e' -> is_zero S e p -> is_zero S e' p' -> vert e = vert e' -> close_to sqrt_eps p p')
  /\ (forall v, (v < length verts)%nat -> exists e, in_grid nx ny e /\ crossing S e /\ vert e = v).
Proof.
  intros L NX NY NE. cbn zeta. set (S := field Sf nx). unfold marching_squares, reshapeF. rewrite L, Nat.eqb_refl. cbn [bind].
  change (fun i j : nat => nth (i + nx * j) Sf 0) with S. destruct (ms_raw S nx ny) as [vs es] eqn:ER.
  destruct (merged S nx ny vs es NX NY ER) as (SV & SVI & SVJ & G & vert & ED & EG & EQ & SUR & LT).
  destruct (raw_ok S nx ny) as (W & EN & US). rewrite ER in W, EN, US.
  destruct (col_ext_box GV NE) as (lo & hi & EL & EH & BX).
  assert (IG : forall s, In s (trace S nx ny) -> crossing S (fst s) /\ crossing S (snd s) /\ fst s <> snd s
        /\ exists i j, (i + 1 < nx)%nat /\ (j + 1 < ny)%nat /\ cell_edge i j (fst s) /\ cell_edge i j (snd s)).
  { intros s I. destruct (trace_in _ _ _ _ I) as (i & j & Li & Lj & Ic). destruct (cell_crossing S i j s Ic) as (C1 & C2 & _).
    destruct (cell_local S i j s Ic) as (K1 & K2 & K3). split; [exact C1|]. split; [exact C2|]. split; [exact K3|]. exists i, j. repeat split; auto; lia. }
  assert (RS : forall e, rescale nx ny lo hi (zpos S e) = grid_point nx ny lo hi (zpt S e)).
  { intros e. unfold rescale, grid_point. rewrite zpos_zpt. cbn [nth fst snd]. rewrite !minus_INR by lia. cbn [INR]. f_equal; [ring|f_equal; ring]. }
  assert (CL : forall e e', dup_key sqrt_eps (zpos S e) = dup_key sqrt_eps (zpos S e') -> close_to sqrt_eps (zpt S e) (zpt S e')).
  { intros e e' K. apply (dup_key_close sqrt_eps _ _ sqrt_eps_pos) in K. rewrite !zpos_zpt in K. apply rows_close2 in K. exact K. }
  assert (X : exists edges, match vs with [] => Ok ([], es) | _ :: _ =>
      do r <- lift IndexError (remove_duplicate_vertices_eps vs sqrt_eps (map (fun e => [fst e; snd e]) es));
      let '(SV, _, _, G) := r in
      let E := filter (fun e => negb (Nat.eqb (fst e) (snd e))) (map (fun f => (nth 0 f 0%nat, nth 1 f 0%nat)) G) in
      do lo <- col_ext Rmin GV; do hi <- col_ext Rmax GV; Ok (map (rescale nx ny lo hi) SV, E) end = Ok (map (rescale nx ny lo hi) SV, edges)
    /\ edges = filter (fun e => negb (Nat.eqb (fst e) (snd e))) (map (fun s => (vert (fst s), vert (snd s))) (trace S nx ny))).
  { destruct vs as [|v0 vs'].
    - assert (es = []) as ->.
      { destruct es as [|x es']; auto. unfold wf in W. inversion W as [|? ? Q _]; subst. cbn in Q. lia. }
      cbn [ends_of snd map fst] in EN. destruct (trace S nx ny) as [|t tr] eqn:ET; [|discriminate].
      cbn in ED. injection ED as <- _ _ _. exists []. auto.
    - rewrite ED. cbn [lift bind]. rewrite EL, EH. cbn [bind]. rewrite EG. eexists. split; reflexivity. }
  destruct X as (edges & EX & EE). exists (map (rescale nx ny lo hi) SV), edges, (trace S nx ny), vert, lo, hi.
  split; [exact EX|]. split; [exact BX|]. split; [exact IG|].
  split; [intros e I C J; apply (trace_counts S nx ny e NX NY I C); auto|].
  split; [intros e I C J; apply (trace_counts S nx ny e NX NY I C); auto|].
  split. { intros s p q e n I Zp Zq He Hn. destruct (trace_in _ _ _ _ I) as (i & j & _ & _ & Ic). eapply cell_turn; eauto. }
  split; [exact EE|]. split; [|split; [|split]].
  - intros e p I C Z. apply is_zero_unique in Z; auto. subst p. assert (B := LT e I C). destruct (nth_error SV (vert e)) as [y|] eqn:Ey; [|apply nth_error_None in Ey; lia].
    destruct (SUR _ _ Ey) as (e' & I' & C' & V' & ->). exists e', (zpt S e'). split; [exact I'|]. split; [exact C'|]. split; [apply zpt_is_zero; auto|]. split; [exact V'|].
    split; [apply CL, (EQ e e' I I' C C'); auto|]. rewrite nth_error_map, Ey. cbn [option_map]. rewrite RS. reflexivity.
  - intros e e' p I I' C C' Z Z'. apply is_zero_unique in Z, Z'; auto. apply (EQ e e' I I' C C'). rewrite !zpos_zpt, <- Z, <- Z'. reflexivity.
  - intros e e' p p' I I' C C' Z Z' V. apply is_zero_unique in Z, Z'; auto. subst p p'. apply CL, (EQ e e' I I' C C'), V.
  - intros v Lv. rewrite map_length in Lv. destruct (nth_error SV v) as [y|] eqn:Ey; [|apply nth_error_None in Ey; lia].
    destruct (SUR _ _ Ey) as (e & I & C & V & _). eauto.
Qed.

Theorem C45_contour : forall (Sf : list R) (GV : list (R * R)) nx ny, length Sf = (nx * ny)%nat -> (2 <= nx)%nat -> (2 <= ny)%nat -> GV <> [] ->
  let S := field Sf nx in
  exists verts edges T vert lo hi, marching_squares Sf GV nx ny = Ok (verts, edges) /\ box_of GV lo hi
  /\ (forall s, In s T -> crossing S (fst s) /\ crossing S (snd s) /\ fst s <> snd s
        /\ exists i j, (i + 1 < nx)%nat /\ (j + 1 < ny)%nat /\ cell_edge i j (fst s) /\ cell_edge i j (snd s))
  /\ (forall e, in_grid nx ny e -> crossing S e -> inner nx ny e -> starts e T = 1%nat /\ ends e T = 1%nat)
  /\ (forall e, in_grid nx ny e -> crossing S e -> ~ inner nx ny e -> (starts e T + ends e T = 1)%nat)
  /\ (forall s p q e n, In s T -> is_zero S (fst s) p -> is_zero S (snd s) q -> e = fst s \/ e = snd s -> n = node1 e \/ n = node2 e ->
        (0 < at_node S n -> turn p q n <= 0) /\ (at_node S n <= 0 -> 0 <= turn p q n))
  /\ edges = filter (fun e => negb (Nat.eqb (fst e) (snd e))) (map (fun s => (vert (fst s), vert (snd s))) T)
  /\ (forall e p, in_grid nx ny e -> crossing S e -> is_zero S e p -> exists e' p',
        in_grid nx ny e' /\ crossing S e' /\ is_zero S e' p' /\ vert e' = vert e /\ close_to sqrt_eps p p'
        /\ nth_error verts (vert e) = Some (grid_point nx ny lo hi p'))
  /\ (forall e e' p, in_grid nx ny e -> in_grid nx ny e' -> crossing S e -> crossing S e' -> is_zero S e p -> is_zero S e' p -> vert e = vert e')
  /\ (forall e e' p p', in_grid nx ny e -> in_grid nx ny e' -> crossing S e -> crossing S e' -> is_zero S e p -> is_zero S e' p' -> vert e = vert e' -> close_to sqrt_eps p p')
  /\ (forall v, (v < length verts)%nat -> exists e, in_grid nx ny e /\ crossing S e /\ vert e = v).
Proof. exact contour. Qed.
Print Assumptions C45_contour.

Lemma cell_edge_in_grid nx ny i j e : (i + 1 < nx)%nat -> (j + 1 < ny)%nat -> cell_edge i j e -> in_grid nx ny e.
Proof. intros Li Lj [ -> | [ -> | [ -> | -> ]]]; unfold in_grid; cbn; lia. Qed.

(** closed up to the border: each output vertex lies on a grid edge of the grid at the zero of the
    interpolated field; it has as many incoming as outgoing edges, unless it is (up to 2^-26 grid units) the zero on a border edge *)
Theorem C45_closed : forall (Sf : list R) (GV : list (R * R)) nx ny, length Sf = (nx * ny)%nat -> (2 <= nx)%nat -> (2 <= ny)%nat -> GV <> [] ->
  let S := field Sf nx in
  exists verts edges lo hi, marching_squares Sf GV nx ny = Ok (verts, edges) /\ box_of GV lo hi
  /\ (forall a b, In (a, b) edges -> a <> b /\ (a < length verts)%nat /\ (b < length verts)%nat)
  /\ forall v x, nth_error verts v = Some x -> exists e p, in_grid nx ny e /\ crossing S e /\ is_zero S e p /\ x = grid_point nx ny lo hi p
       /\ (indeg v edges = outdeg v edges
           \/ exists b q, in_grid nx ny b /\ crossing S b /\ ~ inner nx ny b /\ is_zero S b q /\ close_to sqrt_eps q p).
Proof.
  intros Sf GV nx ny L NX NY NE S. destruct (contour Sf GV nx ny L NX NY NE) as (verts & edges & T & vert & lo & hi & EM & BX & IN & CI & CB & _ & EE & POS & _ & CLO & SUR).
  fold S in IN, CI, CB, POS, CLO, SUR. exists verts, edges, lo, hi. split; [exact EM|]. split; [exact BX|]. split.
  { intros a b I. rewrite EE in I. apply filter_In in I as [I Q]. apply in_map_iff in I as (s & E & Is). injection E as <- <-. cbn [fst snd] in Q.
    split; [destruct (Nat.eqb_spec (vert (fst s)) (vert (snd s))); [discriminate|auto]|].
    destruct (IN s Is) as (C1 & C2 & _ & i & j & Li & Lj & E1 & E2).
    assert (G1 := cell_edge_in_grid _ _ _ _ _ Li Lj E1). assert (G2 := cell_edge_in_grid _ _ _ _ _ Li Lj E2).
    destruct (POS _ _ G1 C1 (zpt_is_zero S _ C1)) as (? & ? & _ & _ & _ & _ & _ & N1). destruct (POS _ _ G2 C2 (zpt_is_zero S _ C2)) as (? & ? & _ & _ & _ & _ & _ & N2).
    split; apply nth_error_Some; [rewrite N1|rewrite N2]; discriminate. }
  intros v x Ev. destruct (SUR v) as (e0 & G0 & C0 & V0); [apply nth_error_Some; congruence|].
  destruct (POS _ _ G0 C0 (zpt_is_zero S _ C0)) as (e & p & G & C & Z & V & _ & N). rewrite V0, Ev in N. injection N as ->.
  exists e, p. split; [exact G|]. split; [exact C|]. split; [exact Z|]. split; [reflexivity|].
  assert (D : (exists s b, In s T /\ (b = fst s \/ b = snd s) /\ vert b = v /\ ~ inner nx ny b) \/
              ~ exists s b, In s T /\ (b = fst s \/ b = snd s) /\ vert b = v /\ ~ inner nx ny b).
  { clear. induction T as [|s T IH].
    - right. intros (s & b & [] & _).
    - destruct IH as [(s' & b & I & Q)|IH]; [left; exists s', b; split; [right; auto|auto]|].
      destruct (inner_dec nx ny (fst s)), (Nat.eq_dec (vert (fst s)) v), (inner_dec nx ny (snd s)), (Nat.eq_dec (vert (snd s)) v);
      try (left; exists s, (fst s); split; [left; auto|tauto]); try (left; exists s, (snd s); split; [left; auto|tauto]);
      right; intros (s' & b & [<-|I] & [->| ->] & Q); try tauto; apply IH; eexists s', _; split; eauto. }
  destruct D as [(s & b & Is & Hb & Vb & NI)|NB].
  - right. assert (GC : in_grid nx ny b /\ crossing S b).
    { destruct (IN s Is) as (C1 & C2 & _ & i & j & Li & Lj & E1 & E2). destruct Hb as [->| ->]; split; auto; eapply cell_edge_in_grid; eauto. }
    destruct GC as [Gb Cb]. exists b, (zpt S b). repeat split; auto; try apply Gb; try (apply zpt_is_zero; auto);
    eapply (CLO b e); eauto using zpt_is_zero; congruence.
  - left. rewrite EE. apply balanced. intros s b Is Hb Vb.
    assert (GC : in_grid nx ny b /\ crossing S b).
    { destruct (IN s Is) as (C1 & C2 & _ & i & j & Li & Lj & E1 & E2). destruct Hb as [->| ->]; split; auto; eapply cell_edge_in_grid; eauto. }
    destruct GC as [Gb Cb]. apply CI; auto. destruct (inner_dec nx ny b) as [J|J]; auto. exfalso. apply NB. exists s, b. auto.
Qed.
Print Assumptions C45_closed.

(** where the crossings keep distinct output vertices, a vertex off the border has exactly one incoming and one outgoing edge *)
Theorem C45_exactly_one : forall (Sf : list R) (GV : list (R * R)) nx ny, length Sf = (nx * ny)%nat -> (2 <= nx)%nat -> (2 <= ny)%nat -> GV <> [] ->
  let S := field Sf nx in
  (forall e e' p p', in_grid nx ny e -> in_grid nx ny e' -> crossing S e -> crossing S e' -> is_zero S e p -> is_zero S e' p' -> close_to sqrt_eps p p' -> e = e') ->
  exists verts edges lo hi, marching_squares Sf GV nx ny = Ok (verts, edges) /\ box_of GV lo hi
  /\ forall v x, nth_error verts v = Some x -> exists e p, in_grid nx ny e /\ crossing S e /\ is_zero S e p /\ x = grid_point nx ny lo hi p
       /\ (inner nx ny e -> indeg v edges = 1%nat /\ outdeg v edges = 1%nat)
       /\ (~ inner nx ny e -> (indeg v edges + outdeg v edges = 1)%nat).
Proof.
  intros Sf GV nx ny L NX NY NE S INJ. destruct (contour Sf GV nx ny L NX NY NE) as (verts & edges & T & vert & lo & hi & EM & BX & IN & CI & CB & _ & EE & POS & _ & CLO & SUR).
  fold S in IN, CI, CB, POS, CLO, SUR. exists verts, edges, lo, hi. split; [exact EM|]. split; [exact BX|].
  assert (INJ' : forall e e', in_grid nx ny e -> in_grid nx ny e' -> crossing S e -> crossing S e' -> vert e = vert e' -> e = e').
  { intros e e' G G' C C' V. eapply INJ; eauto using zpt_is_zero. }
  intros v x Ev. destruct (SUR v) as (e0 & G0 & C0 & V0); [apply nth_error_Some; congruence|].
  destruct (POS _ _ G0 C0 (zpt_is_zero S _ C0)) as (e & p & G & C & Z & V & _ & N). rewrite V0, Ev in N. injection N as ->.
  exists e, p. split; [exact G|]. split; [exact C|]. split; [exact Z|]. split; [reflexivity|].
  assert (V1 : vert e = v) by congruence. clear e0 G0 C0 V0 V.
  assert (GC : forall s, In s T -> (in_grid nx ny (fst s) /\ crossing S (fst s)) /\ (in_grid nx ny (snd s) /\ crossing S (snd s)) /\ fst s <> snd s).
  { intros s Is. destruct (IN s Is) as (C1 & C2 & D & i & j & Li & Lj & E1 & E2). split; [split; auto; eapply cell_edge_in_grid; eauto|]. split; [split; auto; eapply cell_edge_in_grid; eauto|auto]. }
  assert (OD : outdeg v edges = starts e T).
  { rewrite EE, outdeg_T. unfold starts. f_equal. apply filter_ext'. intros s Is. destruct (GC s Is) as ((G1 & C1) & (G2 & C2) & D).
    destruct (gedge_eqb e (fst s)) eqn:Q.
    - apply gedge_eqb_spec in Q. rewrite <- Q, V1, Nat.eqb_refl. cbn [andb]. destruct (Nat.eqb_spec (vert (snd s)) v) as [Y|Y]; auto. exfalso. apply D. rewrite <- Q. apply INJ'; auto. congruence.
    - destruct (Nat.eqb_spec (vert (fst s)) v) as [Y|Y]; auto. exfalso. rewrite (proj2 (gedge_eqb_spec _ _)) in Q; [discriminate|]. apply INJ'; auto. congruence. }
  assert (ID : indeg v edges = ends e T).
  { rewrite EE, indeg_T. unfold ends. f_equal. apply filter_ext'. intros s Is. destruct (GC s Is) as ((G1 & C1) & (G2 & C2) & D).
    destruct (gedge_eqb e (snd s)) eqn:Q.
    - apply gedge_eqb_spec in Q. rewrite <- Q, V1, Nat.eqb_refl. cbn [andb]. destruct (Nat.eqb_spec (vert (fst s)) v) as [Y|Y]; auto. exfalso. apply D. rewrite <- Q. apply INJ'; auto. congruence.
    - destruct (Nat.eqb_spec (vert (snd s)) v) as [Y|Y]; auto. exfalso. rewrite (proj2 (gedge_eqb_spec _ _)) in Q; [discriminate|]. apply INJ'; auto. congruence. }
  rewrite OD, ID. split; [intros J; destruct (CI e G C J); auto|]. intros J. specialize (CB e G C J). lia.
Qed.
Print Assumptions C45_exactly_one.

(** a concrete field: one positive node in the middle of a 3x3 grid; its contour has 4 vertices, each with one edge in and one out *)
Definition bump : list R := [-1; -1; -1; -1; 1; -1; -1; -1; -1].
Definition bump_grid : list (R * R) := [(0, 0); (2, 2)].
Lemma bump_crossing e : in_grid 3 3 e -> crossing (field bump 3) e -> e = Hor 0 1 \/ e = Hor 1 1 \/ e = Ver 1 0 \/ e = Ver 1 1.
Proof.
  intros [A B] C. destruct e as [i j|i j]; cbn [node1 node2 fst snd] in A, B;
  (destruct i as [|[|[|i]]]; try lia; destruct j as [|[|[|j]]]; try lia); auto; exfalso; unfold crossing, at_node, field, bump in C; cbn in C; lra.
Qed.
Example C45_bump : exists verts edges lo hi, marching_squares bump bump_grid 3 3 = Ok (verts, edges) /\ box_of bump_grid lo hi
  /\ verts <> [] /\ forall v x, nth_error verts v = Some x -> indeg v edges = 1%nat /\ outdeg v edges = 1%nat.
Proof.
  destruct (C45_exactly_one bump bump_grid 3 3) as (verts & edges & lo & hi & EM & BX & H); try (cbn; lia); try discriminate.
  - intros e e' p p' G G' C C' Z Z' [D1 D2]. apply is_zero_unique in Z, Z'; auto. subst p p'. assert (E : sqrt_eps < / 4).
    { unfold sqrt_eps. apply Rinv_lt_contravar; [|simpl; lra]. apply Rmult_lt_0_compat; [lra|apply pow_lt; lra]. }
    destruct (bump_crossing e G C) as [->|[->|[->| ->]]], (bump_crossing e' G' C') as [->|[->|[->| ->]]]; auto; exfalso;
    unfold zpt, zpos, at_node, field, bump in D1, D2; cbn in D1, D2; revert D1 D2; unfold Rabs; repeat destruct (Rcase_abs _); lra.
  - exists verts, edges, lo, hi. split; [exact EM|]. split; [exact BX|]. split.
    + destruct (contour bump bump_grid 3 3) as (verts' & edges' & T & vert & lo' & hi' & EM' & _ & _ & _ & _ & _ & _ & POS & _); try (cbn; lia); try discriminate.
      rewrite EM in EM'. injection EM' as <- <-.
      assert (C : crossing (field bump 3) (Hor 0 1)) by (unfold crossing, at_node, field, bump; cbn; lra).
      destruct (POS (Hor 0 1) _ ltac:(unfold in_grid; cbn; lia) C (zpt_is_zero _ _ C)) as (e' & p' & _ & _ & _ & _ & _ & N). intros ->. destruct (vert (Hor 0 1)); discriminate.
    + intros v x Ev. destruct (H v x Ev) as (e & p & G & C & _ & _ & I & _). apply I. destruct (bump_crossing e G C) as [->|[->|[->| ->]]]; cbn; lia.
Qed.

(** "exactly one" fails where a node value is zero: two contour branches meet there and share a vertex with two outgoing edges *)
Definition saddle : list R := [-1; -1; -1; 1; 0; 1; -1; -1; -1].
Lemma saddle_crossing e : in_grid 3 3 e -> crossing (field saddle 3) e -> e = Hor 0 1 \/ e = Hor 1 1 \/ e = Ver 0 0 \/ e = Ver 0 1 \/ e = Ver 2 0 \/ e = Ver 2 1.
Proof.
  intros [A B] C. destruct e as [i j|i j]; cbn [node1 node2 fst snd] in A, B;
  (destruct i as [|[|[|i]]]; try lia; destruct j as [|[|[|j]]]; try lia); try tauto; exfalso; unfold crossing, at_node, field, saddle in C; cbn in C; lra.
Qed.
Theorem C45_exactly_one_refuted : exists (Sf : list R) (GV : list (R * R)) nx ny verts edges v,
  length Sf = (nx * ny)%nat /\ marching_squares Sf GV nx ny = Ok (verts, edges) /\ (v < length verts)%nat /\ (2 <= outdeg v edges)%nat.
Proof.
  destruct (contour saddle bump_grid 3 3) as (verts & edges & T & vert & lo & hi & EM & BX & IN & CI & CB & _ & EE & POS & EQ & CLO & SUR); try (cbn; lia); try discriminate.
  set (S := field saddle 3) in *.
  assert (G1 : in_grid 3 3 (Hor 0 1)) by (unfold in_grid; cbn; lia). assert (G2 : in_grid 3 3 (Hor 1 1)) by (unfold in_grid; cbn; lia).
  assert (C1 : crossing S (Hor 0 1)) by (unfold S, crossing, at_node, field, saddle; cbn; lra).
  assert (C2 : crossing S (Hor 1 1)) by (unfold S, crossing, at_node, field, saddle; cbn; lra).
  assert (Z1 : is_zero S (Hor 0 1) (1, 1)) by (exists 1; unfold S, at_node, field, saddle; cbn; lra).
  assert (Z2 : is_zero S (Hor 1 1) (1, 1)) by (exists 0; unfold S, at_node, field, saddle; cbn; lra).
  assert (V : vert (Hor 0 1) = vert (Hor 1 1)) by (eapply EQ; eauto).
  assert (E : sqrt_eps < / 4).
  { unfold sqrt_eps. apply Rinv_lt_contravar; [|simpl; lra]. apply Rmult_lt_0_compat; [lra|apply pow_lt; lra]. }
  assert (FAR : forall s, In s T -> fst s = Hor 0 1 \/ fst s = Hor 1 1 -> vert (snd s) <> vert (Hor 0 1)).
  { intros s Is Q V'. destruct (IN s Is) as (_ & C & D & i & j & Li & Lj & E1 & E2). assert (G := cell_edge_in_grid 3 3 i j _ Li Lj E2).
    assert (CL := CLO _ _ _ _ G G1 C C1 (zpt_is_zero S _ C) Z1 V'). destruct CL as [D1 D2].
    destruct (saddle_crossing _ G C) as [F|[F|[F|[F|[F|F]]]]]; rewrite F in *.
    - destruct Q as [Q|Q]; [congruence|]. rewrite Q in E1. unfold cell_edge in E1, E2. destruct E1 as [E1|[E1|[E1|E1]]], E2 as [E2|[E2|[E2|E2]]]; try discriminate; injection E1; injection E2; lia.
    - destruct Q as [Q|Q]; [|congruence]. rewrite Q in E1. unfold cell_edge in E1, E2. destruct E1 as [E1|[E1|[E1|E1]]], E2 as [E2|[E2|[E2|E2]]]; try discriminate; injection E1; injection E2; lia.
    - unfold S, zpt, zpos, at_node, field, saddle in D1, D2; cbn in D1, D2; revert D1 D2; unfold Rabs; repeat destruct (Rcase_abs _); lra.
    - unfold S, zpt, zpos, at_node, field, saddle in D1, D2; cbn in D1, D2; revert D1 D2; unfold Rabs; repeat destruct (Rcase_abs _); lra.
    - unfold S, zpt, zpos, at_node, field, saddle in D1, D2; cbn in D1, D2; revert D1 D2; unfold Rabs; repeat destruct (Rcase_abs _); lra.
    - unfold S, zpt, zpos, at_node, field, saddle in D1, D2; cbn in D1, D2; revert D1 D2; unfold Rabs; repeat destruct (Rcase_abs _); lra. }
  destruct (CI _ G1 C1 ltac:(cbn; lia)) as [A1 _]. destruct (CI _ G2 C2 ltac:(cbn; lia)) as [A2 _].
  destruct (starts_In (Hor 0 1) T) as (s1 & I1 & F1); [lia|]. destruct (starts_In (Hor 1 1) T) as (s2 & I2 & F2); [lia|].
  exists saddle, bump_grid, 3%nat, 3%nat, verts, edges, (vert (Hor 0 1)). split; [reflexivity|]. split; [exact EM|]. split.
  { destruct (POS _ _ G1 C1 Z1) as (? & ? & _ & _ & _ & _ & _ & N). apply nth_error_Some. congruence. }
  rewrite EE, outdeg_T. set (l := filter _ T).
  assert (J1 : In s1 l). { apply filter_In. split; auto. rewrite F1, Nat.eqb_refl. cbn [andb]. destruct (Nat.eqb_spec (vert (snd s1)) (vert (Hor 0 1))); auto. exfalso. eapply (FAR s1); eauto. }
  assert (J2 : In s2 l). { apply filter_In. split; auto. rewrite F2, <- V, Nat.eqb_refl. cbn [andb]. destruct (Nat.eqb_spec (vert (snd s2)) (vert (Hor 0 1))); auto. exfalso. eapply (FAR s2); eauto. }
  assert (s1 <> s2) by congruence. destruct l as [|x [|y l']]; cbn in *; try lia; try tauto. destruct J1 as [J1|[]], J2 as [J2|[]]. congruence.
Qed.
Print Assumptions C45_exactly_one_refuted.
