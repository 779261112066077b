From Coq Require Import Reals Lra Psatz.
From Verif Require Import NumpyModel NumpyProofs PyExn TopoModel TopoSpec TopoProofs HemProofs MatModel MatProofs Vec GeomSpec SubdivModel SubdivSpec SubdivProofs Subdiv2Proofs Subdiv3Proofs IcoModel IcoProofs IcoBaseProofs.
Open Scope R_scope.

Lemma add3_c a b c d e f : add3 (a,b,c) (d,e,f) = (a+d,b+e,c+f). Proof. reflexivity. Qed.
Lemma sumV : fold_right add3 zero3 ico_V = (0, 1 / 1000000000000000, 0).
Proof. unfold ico_V, zero3. cbn [fold_right]. rewrite !add3_c. apply (f_equal2 (@pair _ _)); [apply (f_equal2 (@pair _ _))|]. lra. lra. lra. Qed.
Lemma center_W : center_rows ico_V = map (fun w => scal3 (/ 12000000000000000) (iv w)) W.
Proof.
  unfold center_rows. rewrite sumV. unfold ico_V, W. cbn [length map]. rewrite INR_IZR_INZ. cbn [Z.of_nat Pos.of_succ_nat Pos.succ].
  repeat (apply (f_equal2 (@cons vec3)); [apply vec3_eq; unfold iv; vx; lra|]). reflexivity.
Qed.
Definition row_ok (v : vec3) (w : Z * Z * Z) : Prop := exists s, 0 < s /\ v = scal3 s (iv w) /\ dot3 v v = 1.
Lemma iv_dot v w : dot3 (iv v) (iv w) = IZR (wd v w).
Proof. destruct v as [[a b] c], w as [[x y] z]. unfold iv, wd, dot3, X, Y, Zc. cbn [fst snd]. rewrite !plus_IZR, !mult_IZR. auto. Qed.
Lemma iv_cross v w : cross3 (iv v) (iv w) = iv (wc v w).
Proof. destruct v as [[a b] c], w as [[x y] z]. unfold iv, wc, cross3, X, Y, Zc. cbn [fst snd]. rewrite !minus_IZR, !mult_IZR. auto. Qed.
Lemma base_rows : exists V, normalize_rows (center_rows ico_V) = Ok V /\ Forall2 row_ok V W.
Proof.
  rewrite center_W. assert (P : forall w, In w W -> 0 < dot3 (iv w) (iv w)).
  { assert (A : forallb (fun w => 0 <? wd w w)%Z W = true) by (vm_compute; reflexivity). rewrite forallb_forall in A.
    intros w I. rewrite iv_dot. apply IZR_lt. apply A in I. apply Z.ltb_lt. auto. }
  assert (PP : forall w, In w W -> 0 < dot3 (scal3 (/ 12000000000000000) (iv w)) (scal3 (/ 12000000000000000) (iv w))).
  { intros w I. specialize (P w I). replace (dot3 (scal3 (/ 12000000000000000) (iv w)) (scal3 (/ 12000000000000000) (iv w))) with (/ 12000000000000000 * / 12000000000000000 * dot3 (iv w) (iv w)) by (vx; ring).
    apply Rmult_lt_0_compat; auto. lra. }
  rewrite normalize_ok. 2: { intros v I. apply in_map_iff in I as (w & <- & I). auto. }
  eexists. split; [reflexivity|]. rewrite map_map.
  assert (G : forall l, (forall w, In w l -> In w W) -> Forall2 row_ok (map (fun x => scal3 (/ norm3 (scal3 (/ 12000000000000000) (iv x))) (scal3 (/ 12000000000000000) (iv x))) l) l).
  { induction l as [|w l IH]; intros S; cbn; constructor; [|apply IH; intros; apply S; right; auto].
    assert (Q : 0 < dot3 (scal3 (/ 12000000000000000) (iv w)) (scal3 (/ 12000000000000000) (iv w))) by (apply PP, S; left; auto).
    destruct (norm3_pos _ Q) as (N & _). exists (/ norm3 (scal3 (/ 12000000000000000) (iv w)) * / 12000000000000000). split; [|split].
    - apply Rmult_lt_0_compat; [apply Rinv_0_lt_compat; auto|lra].
    - apply vec3_eq; unfold scal3, X, Y, Zc; cbn [fst snd]; ring.
    - apply unit_norm; auto. }
  apply G; auto.
Qed.
Lemma F2_at {A B} (P : A -> B -> Prop) l m i x : Forall2 P l m -> nth_error l i = Some x -> exists y, nth_error m i = Some y /\ P x y.
Proof. intros H. revert i. induction H; intros [|i] E; cbn in *; try discriminate; eauto. injection E as ->. eauto. Qed.
Lemma F2_len {A B} (P : A -> B -> Prop) l m : Forall2 P l m -> length l = length m.
Proof. induction 1; cbn; congruence. Qed.
Lemma row_at V i x : Forall2 row_ok V W -> at_ V i x -> exists s, 0 < s /\ x = scal3 s (iv (wv i)) /\ dot3 x x = 1.
Proof.
  intros H [_ A]. destruct (F2_at _ _ _ _ _ H A) as (w & Hw & R). assert (wv i = w) by (unfold wv; apply nth_error_nth; auto). rewrite H0. exact R.
Qed.
Lemma face_base V a b c x y z : Forall2 row_ok V W -> In (a,b,c) ico_F -> at3 V (a,b,c) x y z -> face_ok x y z.
Proof.
  intros H I (Ax & Ay & Az). destruct (row_at V a x H Ax) as (s & Ps & Ex & Nx), (row_at V b y H Ay) as (s' & Ps' & Ey & Ny), (row_at V c z H Az) as (s'' & Ps'' & Ez & Nz).
  pose proof base_faces as B. rewrite forallb_forall in B. apply B in I. cbn beta iota in I. apply andb_prop in I as [I I4]. apply andb_prop in I as [I I3]. apply andb_prop in I as [I1 I2].
  apply Z.leb_le, IZR_le in I1, I2, I3. apply Z.ltb_lt, IZR_lt in I4. rewrite <- iv_dot in I1, I2, I3. rewrite <- iv_dot, <- iv_cross in I4.
  assert (P1 : 0 < s * s') by nra. assert (P2 : 0 < s' * s'') by nra. assert (P3 : 0 < s'' * s) by nra. assert (P4 : 0 < s * s' * s'') by nra.
  repeat split; auto.
  - replace (dot3 x y) with (s * s' * dot3 (iv (wv a)) (iv (wv b))) by (rewrite Ex, Ey; vx; ring). apply Rmult_le_pos; lra.
  - replace (dot3 y z) with (s' * s'' * dot3 (iv (wv b)) (iv (wv c))) by (rewrite Ey, Ez; vx; ring). apply Rmult_le_pos; lra.
  - replace (dot3 z x) with (s'' * s * dot3 (iv (wv c)) (iv (wv a))) by (rewrite Ez, Ex; vx; ring). apply Rmult_le_pos; lra.
  - replace (det3 x y z) with (s * s' * s'' * dot3 (iv (wv a)) (cross3 (iv (wv b)) (iv (wv c)))) by (rewrite Ex, Ey, Ez; vx; ring). apply Rmult_lt_0_compat; lra.
Qed.
Lemma cramer x y z d : 0 < det3 x y z -> d = comb (det3 d y z / det3 x y z) (det3 x d z / det3 x y z) (det3 x y d / det3 x y z) x y z.
Proof. intros D. apply vec3_eq; revert D; vx; intros; field; lra. Qed.
(** the three side functions of a face, for its normalised corners *)
Lemma side_fun V a b c x y z d : Forall2 row_ok V W -> at3 V (a,b,c) x y z ->
  exists k1 k2 k3, 0 < k1 /\ 0 < k2 /\ 0 < k3 /\ det3 d y z = k1 * L b c d /\ det3 x d z = k2 * L c a d /\ det3 x y d = k3 * L a b d.
Proof.
  intros H (Ax & Ay & Az). destruct (row_at V a x H Ax) as (s & Ps & Ex & Nx), (row_at V b y H Ay) as (s' & Ps' & Ey & Ny), (row_at V c z H Az) as (s'' & Ps'' & Ez & Nz).
  exists (s' * s''), (s'' * s), (s * s'). split; [nra|]. split; [nra|]. split; [nra|]. unfold L. rewrite <- !iv_cross. rewrite Ex, Ey, Ez. repeat split; vx; ring.
Qed.
Lemma good_base : good_mesh ico_F /\ in_range 12 ico_F /\ closed ico_F /\ referenced 12 ico_F.
Proof.
  split; [split; [|split]|split; [|split]].
  - unfold oriented_manifold. cbn [ico_F all_sides flat_map sides app]. repeat (constructor; [cbn [In]; intros Q; repeat destruct Q as [Q|Q]; try discriminate Q; exact Q|]). constructor.
  - intros t I. cbn in I. repeat destruct I as [<-|I]; [..|destruct I]; cbn; lia.
  - intros s t I J ST. cbn in I, J. repeat destruct I as [<-|I]; [..|destruct I]; (repeat destruct J as [<-|J]; [..|destruct J]); first [reflexivity|exfalso; revert ST; cbn; clear; intuition discriminate].
  - intros t I. cbn in I. repeat destruct I as [<-|I]; [..|destruct I]; lia.
  - assert (A : forallb (fun e => existsb (fun f => ((fst f =? snd e) && (snd f =? fst e))%Z) (all_sides ico_F)) (all_sides ico_F) = true) by (vm_compute; reflexivity).
    rewrite forallb_forall in A. intros e I. apply A in I. apply existsb_exists in I as (f & I & Q). apply andb_prop in Q as [Q1 Q2]. apply Z.eqb_eq in Q1, Q2. destruct f as [f1 f2]. cbn in Q1, Q2. subst. exact I.
  - intros i Hi. assert (A : forallb (fun i => existsb (fun f => fst f =? Z.of_nat i)%Z (all_sides ico_F)) (seq 0 12) = true) by (vm_compute; reflexivity).
    rewrite forallb_forall in A. assert (I : In (Z.to_nat i) (seq 0 12)) by (apply in_seq; lia). apply A, existsb_exists in I as ([a b] & I & Q). apply Z.eqb_eq in Q. cbn in Q. rewrite Z2Nat.id in Q by lia. subst. eauto.
Qed.
Lemma base_inv : exists V, normalize_rows (center_rows ico_V) = Ok V /\ Inv V ico_F /\ length V = 12%nat.
Proof.
  destruct base_rows as (V & Q & H). assert (LV : length V = 12%nat) by (rewrite (F2_len _ _ _ H); reflexivity). exists V. split; auto. split; auto.
  destruct good_base as (G1 & G2 & G3 & G4). constructor.
  - discriminate.
  - lia.
  - auto.
  - rewrite LV. exact G2.
  - auto.
  - rewrite LV. auto.
  - intros v I. apply In_nth_error in I as [i Hi]. destruct (F2_at _ _ _ _ _ H Hi) as (w & _ & s & _ & _ & N). auto.
  - intros [[a b] c] x y z I A. eapply face_base; eauto.
  - intros d. destruct (base_cover d) as (t & I & Hd). assert (I' := I). apply In_nth_error in I as [f Hf]. exists f.
    destruct (in_range_at3 V ico_F t) as (x & y & z & A); auto. { rewrite LV. exact G2. }
    exists t, x, y, z. split; auto. split; auto. destruct t as [[a b] c]. pose proof (face_base V a b c x y z H I' A) as (_ & _ & _ & _ & _ & _ & D).
    destruct (side_fun V a b c x y z d H A) as (k1 & k2 & k3 & P1 & P2 & P3 & E1 & E2 & E3). destruct Hd as (H1 & H2 & H3).
    do 3 eexists. split; [|apply cramer; auto]. cbn. rewrite E1, E2, E3.
    assert (0 < / det3 x y z) by (apply Rinv_0_lt_compat; auto). repeat split; (apply Rmult_le_pos; [apply Rmult_le_pos; lra|lra]).
  - assert (K : forall d f, hit true V ico_F d f -> exists t, nth_error ico_F f = Some t /\ inLs t d).
    { intros d f ([[a b] c] & x & y & z & Hf & A & (p & q & r & (Pp & Pq & Pr) & Ed)). exists (a,b,c). split; auto.
      pose proof (face_base V a b c x y z H (nth_error_In _ _ Hf) A) as (_ & _ & _ & _ & _ & _ & D).
      destruct (side_fun V a b c x y z d H A) as (k1 & k2 & k3 & P1 & P2 & P3 & E1 & E2 & E3).
      assert (F1 : det3 d y z = p * det3 x y z) by (rewrite Ed; vx; ring). assert (F2 : det3 x d z = q * det3 x y z) by (rewrite Ed; vx; ring).
      assert (F3 : det3 x y d = r * det3 x y z) by (rewrite Ed; vx; ring).
      assert (0 < p * det3 x y z) by nra. assert (0 < q * det3 x y z) by nra. assert (0 < r * det3 x y z) by nra.
      split; [|split]; [apply (Rmult_lt_reg_l k3)|apply (Rmult_lt_reg_l k1)|apply (Rmult_lt_reg_l k2)]; lra. }
    intros d f g Hf Hg. destruct (K d f Hf) as (t & Nt & It), (K d g Hg) as (s & Ns & Is). eapply base_disj; eauto.
Qed.
