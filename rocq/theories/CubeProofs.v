From Verif Require Import NumpyModel PyExn TopoModel TopoSpec Vec MatModel MatProofs GeomModel SubdivSpec GridMeshModel GridMeshProofs GridMesh2Proofs.
From Coq Require Import Psatz.
Open Scope Z_scope.

Lemma in_cubes nx ny nz p : In p (cubes nx ny nz) <-> let '(k, i, j) := p in 0 <= k < nz - 1 /\ 0 <= i < nx - 1 /\ 0 <= j < ny - 1.
Proof.
  unfold cubes. destruct p as [[k i] j]. rewrite in_flat_map. split.
  - intros (k' & K & I). apply in_flat_map in I as (i' & I & J). apply in_map_iff in J as (j' & Q & J). injection Q as -> -> ->. rewrite in_zseq in *. auto.
  - intros (K & I & J). exists k. rewrite in_zseq. split; auto. apply in_flat_map. exists i. rewrite in_zseq. split; auto. apply in_map_iff. exists j. rewrite in_zseq. auto.
Qed.
Lemma cubes_length nx ny nz : length (cubes nx ny nz) = (Z.to_nat (nz-1) * (Z.to_nat (nx-1) * Z.to_nat (ny-1)))%nat.
Proof.
  unfold cubes. rewrite (flat_map_const_length _ _ (Z.to_nat (nx-1) * Z.to_nat (ny-1))), zseq_length; auto.
  intros. rewrite (flat_map_const_length _ _ (Z.to_nat (ny-1))), zseq_length; auto. intros. rewrite map_length, zseq_length; auto.
Qed.
Definition inbox (nx ny nz : Z) (p : Z * Z * Z) : Prop := let '(k, i, j) := p in 0 <= k < nz /\ 0 <= i < nx /\ 0 <= j < ny.
Lemma cidx_range nx ny nz p : inbox nx ny nz p -> 0 <= cidx nx nz p < nx * ny * nz.
Proof. destruct p as [[k i] j]. cbn. intros (K & I & J). assert (0 <= i + nx * j < nx * ny) by nia. nia. Qed.
Lemma cidx_dec nx ny nz k i j : inbox nx ny nz (k,i,j) -> let p := cidx nx nz (k,i,j) in p mod nz = k /\ (p / nz) mod nx = i /\ p / (nz * nx) = j.
Proof.
  cbn. intros (K & I & J). rewrite (Z.mul_comm nz (i + nx * j)), (Z.mul_comm nx j). rewrite Z.mod_add, Z.mod_small by lia. split; auto.
  assert (Q : (k + (i + j * nx) * nz) / nz = i + j * nx) by (rewrite Z.div_add, Z.div_small by lia; lia).
  split.
  - rewrite Q. rewrite Z.mod_add, Z.mod_small by lia. auto.
  - rewrite <- Z.div_div by lia. rewrite Q. rewrite Z.div_add, Z.div_small by lia. lia.
Qed.
Lemma cidx_inj nx ny nz p q : inbox nx ny nz p -> inbox nx ny nz q -> cidx nx nz p = cidx nx nz q -> p = q.
Proof.
  destruct p as [[k i] j], q as [[k' i'] j']. intros P Q E. apply cidx_dec in P, Q. rewrite E in P. cbv zeta in *. destruct P as (P1 & P2 & P3), Q as (Q1 & Q2 & Q3). congruence.
Qed.
Lemma cube_pos nx ny nz k i j : inbox nx ny nz (k,i,j) -> cube_vertex nx ny nz (cidx nx nz (k,i,j)) = (lin 0 1 nx i, lin 0 1 ny j, lin 0 1 nz k).
Proof. intros P. apply cidx_dec in P as (P1 & P2 & P3). unfold cube_vertex. rewrite P1, P2, P3. auto. Qed.
Lemma cube_V_nth nx ny nz p d : 0 <= p < nx * ny * nz -> nth (Z.to_nat p) (map (cube_vertex nx ny nz) (zseq (nx * ny * nz))) d = cube_vertex nx ny nz p.
Proof. intros H. apply nth_error_nth. rewrite nth_error_map, zseq_nth by lia. cbn. rewrite Z2Nat.id by lia. auto. Qed.
Lemma voff01 w : inbox 2 2 2 (voff w).
Proof. unfold voff, inbox. repeat match goal with |- context [match ?p with _ => _ end] => is_var p; destruct p end; lia. Qed.
Lemma corner_in nx ny nz cell w : In cell (cubes nx ny nz) -> inbox nx ny nz (addp cell (voff w)).
Proof. rewrite in_cubes. pose proof (voff01 w). destruct cell as [[k i] j], (voff w) as [[a b] c]. cbn in *. lia. Qed.

(** six times the volume of a pattern in a unit cube *)
Definition zdet3 (a b c : Z * Z * Z) : Z :=
  let '(a3, a1, a2) := a in let '(b3, b1, b2) := b in let '(c3, c1, c2) := c in
  a1 * (b2 * c3 - b3 * c2) - a2 * (b1 * c3 - b3 * c1) + a3 * (b1 * c2 - b2 * c1).
Definition psub (p q : Z * Z * Z) : Z * Z * Z := let '(a, b, c) := p in let '(a', b', c') := q in (a - a', b - b', c - c').
Definition zvol (pat : Z * Z * Z * Z) : Z := let '(a, b, c, d) := pat in
  - zdet3 (psub (voff a) (voff d)) (psub (voff b) (voff c)) (psub (voff c) (voff d)).

Lemma tet_volume nx ny nz pat cell d : 2 <= nx -> 2 <= ny -> 2 <= nz -> In cell (cubes nx ny nz) ->
  volume (fun i => nth (Z.to_nat i) (map (cube_vertex nx ny nz) (zseq (nx * ny * nz))) d) (tet_of nx nz pat cell)
  = (IZR (zvol pat) / (6 * (IZR nx - 1) * (IZR ny - 1) * (IZR nz - 1)))%R.
Proof.
  intros Hx Hy Hz I. apply IZR_le in Hx, Hy, Hz. destruct pat as [[[a b] c] e]. cbn [tet_of].
  assert (G : forall w, nth (Z.to_nat (cidx nx nz (addp cell (voff w)))) (map (cube_vertex nx ny nz) (zseq (nx * ny * nz))) d =
    let '(k, i, j) := cell in let '(u, v, x) := voff w in (((IZR i + IZR v) / (IZR nx - 1))%R, ((IZR j + IZR x) / (IZR ny - 1))%R, ((IZR k + IZR u) / (IZR nz - 1))%R)).
  { intros w. pose proof (corner_in _ _ _ _ w I) as B. rewrite cube_V_nth by (eapply cidx_range; eauto).
    destruct cell as [[k i] j], (voff w) as [[u v] x]. cbn [addp] in *. rewrite cube_pos by auto. unfold lin. rewrite !plus_IZR. f_equal; [f_equal|]; field; lra. }
  unfold volume. rewrite !G. clear G I. destruct cell as [[k i] j]. unfold zvol, psub, zdet3.
  destruct (voff a) as [[a3 a1] a2], (voff b) as [[b3 b1] b2], (voff c) as [[c3 c1] c2], (voff e) as [[e3 e1] e2].
  unfold dot3, cross3, sub3, X, Y, Zc; cbn [fst snd].
  repeat rewrite ?opp_IZR, ?plus_IZR, ?minus_IZR, ?mult_IZR. field. lra.
Qed.
Lemma patterns_pos t pat : In pat (patterns t) -> 0 < zvol pat.
Proof.
  assert (G : forallb (fun p => 0 <? zvol p) (patterns Five ++ patterns Reflectional ++ patterns Rotational) = true) by reflexivity.
  rewrite forallb_forall in G. intros I. apply Z.ltb_lt, G. rewrite !in_app_iff. destruct t; auto; destruct I.
Qed.
Definition tet_type (t : cube_type) : Prop := t = Five \/ t = Reflectional \/ t = Rotational.
Lemma patterns_sum t : tet_type t -> sumf (fun p => IZR (zvol p)) (patterns t) = 6%R.
Proof. intros [ -> | [ -> | -> ] ]; cbn; lra. Qed.
Lemma cube_inv nx ny nz t V T : regular_cube_mesh nx ny nz t = Ok (V, T) -> tet_type t /\ V = map (cube_vertex nx ny nz) (zseq (nx * ny * nz)) /\
  T = flat_map (fun pat => map (tet_of nx nz pat) (cubes nx ny nz)) (patterns t).
Proof. unfold regular_cube_mesh, tet_type. destruct t; try discriminate; intros Q; injection Q as <- <-; auto. Qed.
Lemma tets_in nx ny nz t T : T = flat_map (fun pat => map (tet_of nx nz pat) (cubes nx ny nz)) (patterns t) ->
  forall s, In s T <-> exists pat cell, In pat (patterns t) /\ In cell (cubes nx ny nz) /\ s = tet_of nx nz pat cell.
Proof.
  intros -> s. rewrite in_flat_map. split.
  - intros (pat & I & J). apply in_map_iff in J as (cell & <- & J). eauto.
  - intros (pat & cell & I & J & ->). exists pat. split; auto. apply in_map. auto.
Qed.
Lemma cube_volumes nx ny nz t V T d : 2 <= nx -> 2 <= ny -> 2 <= nz -> regular_cube_mesh nx ny nz t = Ok (V, T) ->
  (forall s, In s T -> 0 < volume (fun i => nth (Z.to_nat i) V d) s)%R /\ sumf (volume (fun i => nth (Z.to_nat i) V d)) T = 1%R.
Proof.
  intros Hx Hy Hz Q. apply cube_inv in Q as (TT & -> & QT).
  assert (P : (0 < 6 * (IZR nx - 1) * (IZR ny - 1) * (IZR nz - 1))%R).
  { apply IZR_le in Hx, Hy, Hz. repeat apply Rmult_lt_0_compat; lra. }
  split.
  - intros s I. rewrite (tets_in _ _ _ _ _ QT) in I. destruct I as (pat & cell & I & J & ->). rewrite tet_volume by auto.
    apply Rdiv_lt_0_compat; auto. apply IZR_lt. eapply patterns_pos; eauto.
  - rewrite QT, sumf_flat_map. 
    rewrite (sumf_ext _ (fun pat => IZR (zvol pat) * (1 / 6))%R).
    + rewrite sumf_scal_r, patterns_sum by auto. lra.
    + intros pat I. rewrite sumf_map. rewrite (sumf_const_list _ (IZR (zvol pat) / (6 * (IZR nx - 1) * (IZR ny - 1) * (IZR nz - 1)))%R) by (intros; apply tet_volume; auto).
      rewrite cubes_length, !mult_INR, !INR_IZR_INZ, !Z2Nat.id, !minus_IZR by lia. apply IZR_le in Hx, Hy, Hz. field. lra.
Qed.
Lemma cube_indices nx ny nz t V T : regular_cube_mesh nx ny nz t = Ok (V, T) ->
  forall s, In s T -> let '(a, b, c, d) := s in 0 <= a < nx * ny * nz /\ 0 <= b < nx * ny * nz /\ 0 <= c < nx * ny * nz /\ 0 <= d < nx * ny * nz.
Proof.
  intros Q s I. apply cube_inv in Q as (_ & _ & QT). rewrite (tets_in _ _ _ _ _ QT) in I. destruct I as ([[[a b] c] d] & cell & I & J & ->). cbn.
  repeat split; eapply cidx_range, corner_in; eauto.
Qed.

(** ** conformity *)
Definition pos := (Z * Z * Z)%type.
Definition peqb (p q : pos) : bool := tri_eqb p q.
Lemma peqb_eq p q : peqb p q = true <-> p = q.
Proof. destruct p as [[a b] c], q as [[a' b'] c']. unfold peqb, tri_eqb. rewrite !andb_true_iff, !Z.eqb_eq. split; [intros [[-> ->] ->]; auto | intros Q; injection Q as -> -> ->; auto]. Qed.
Definition pos_dec (p q : pos) : {p = q} + {p <> q}.
Proof. repeat decide equality. Defined.
Definition t3eqb (s t : pos * pos * pos) : bool := let '(a, b, c) := s in let '(a', b', c') := t in peqb a a' && peqb b b' && peqb c c'.
Lemma t3eqb_eq s t : t3eqb s t = true <-> s = t.
Proof. destruct s as [[a b] c], t as [[a' b'] c']. unfold t3eqb. rewrite !andb_true_iff, !peqb_eq. split; [intros [[-> ->] ->]; auto | intros Q; injection Q as -> -> ->; auto]. Qed.
Definition map3 {A B} (f : A -> B) (t : A * A * A) : B * B * B := let '(a, b, c) := t in (f a, f b, f c).
Definition rots3 {A} (t : A * A * A) : list (A * A * A) := let '(a, b, c) := t in [(a, b, c); (b, c, a); (c, a, b)].
Definition flip3 {A} (t : A * A * A) : A * A * A := let '(a, b, c) := t in (b, a, c).
Lemma map3_map3 {A B C} (f : A -> B) (g : B -> C) t : map3 g (map3 f t) = map3 (fun x => g (f x)) t.
Proof. destruct t as [[a b] c]. auto. Qed.
Lemma rot_eq_in s t : rot_eq s t <-> In s (rots3 t).
Proof. destruct t as [[a b] c]. cbn. intuition. Qed.
Lemma rots3_map {A B} (f : A -> B) t : rots3 (map3 f t) = map (map3 f) (rots3 t).
Proof. destruct t as [[a b] c]. auto. Qed.
Lemma flip3_map {A B} (f : A -> B) t : flip3 (map3 f t) = map3 f (flip3 t).
Proof. destruct t as [[a b] c]. auto. Qed.
Lemma bdry_tet nx nz pat cell : bdry_facets (tet_of nx nz pat cell) = map (map3 (fun w => cidx nx nz (addp cell (voff w)))) (bdry_facets pat).
Proof. destruct pat as [[[a b] c] d]. auto. Qed.

(** finite check: a facet [g] of a pattern has, in the cell shifted by [dl], a partner facet with opposite orientation *)
Definition partner (t : cube_type) (dl : pos) (g : Z * Z * Z) : bool :=
  existsb (fun pat => existsb (fun g' => existsb (t3eqb (map3 (fun w => addp dl (voff w)) g')) (rots3 (flip3 (map3 voff g)))) (bdry_facets pat)) (patterns t).
Definition comp (ax : nat) (p : pos) : Z := let '(k, i, j) := p in match ax with 0%nat => k | 1%nat => i | _ => j end.
Definition unitp (ax : nat) (s : Z) : pos := match ax with 0%nat => (s, 0, 0) | 1%nat => (0, s, 0) | _ => (0, 0, s) end.
Definition on_side (ax : nat) (s : Z) (g : Z * Z * Z) : bool := let '(a, b, c) := g in (comp ax (voff a) =? s) && (comp ax (voff b) =? s) && (comp ax (voff c) =? s).
Definition facet_ok (t : cube_type) (g : Z * Z * Z) : bool :=
  partner t (0,0,0) g || existsb (fun ax => existsb (fun s => on_side ax s g && partner t (unitp ax (2 * s - 1)) g) [0; 1]) [0; 1; 2]%nat.
Definition conf_check (t : cube_type) : bool := forallb (fun pat => forallb (facet_ok t) (bdry_facets pat)) (patterns t).
Lemma conf_refl : conf_check Reflectional = true. Proof. vm_compute. reflexivity. Qed.
Lemma conf_rot : conf_check Rotational = true. Proof. vm_compute. reflexivity. Qed.

Lemma addp_assoc p q r : addp (addp p q) r = addp p (addp q r).
Proof. destruct p as [[a b] c], q as [[a' b'] c'], r as [[a'' b''] c'']. cbn. f_equal; [f_equal|]; lia. Qed.
Lemma partner_lift nx ny nz t T cell dl g : T = flat_map (fun pat => map (tet_of nx nz pat) (cubes nx ny nz)) (patterns t) ->
  partner t dl g = true -> In (addp cell dl) (cubes nx ny nz) ->
  exists s', In s' T /\ exists h, In h (bdry_facets s') /\ rot_eq h (flip3 (map3 (fun w => cidx nx nz (addp cell (voff w))) g)).
Proof.
  intros QT P I. unfold partner in P. apply existsb_exists in P as (pat & Ip & P). apply existsb_exists in P as (g' & Ig & P). apply existsb_exists in P as (h & Ih & P).
  apply t3eqb_eq in P. exists (tet_of nx nz pat (addp cell dl)). split; [rewrite (tets_in _ _ _ _ _ QT); eauto|].
  exists (map3 (fun w => cidx nx nz (addp (addp cell dl) (voff w))) g'). split.
  - rewrite bdry_tet. apply in_map. auto.
  - rewrite rot_eq_in. 
    replace (map3 (fun w => cidx nx nz (addp (addp cell dl) (voff w))) g') with (map3 (fun p => cidx nx nz (addp cell p)) h).
    + rewrite <- (map3_map3 voff (fun p => cidx nx nz (addp cell p))), flip3_map, rots3_map. apply in_map. auto.
    + rewrite <- P, map3_map3. destruct g' as [[a b] c]. cbn. rewrite !addp_assoc. auto.
Qed.
(** a triple of vertices on the plane [coordinate ax = s * (n-1)] *)
Definition lo_hi (n s : Z) : Z := s * (n - 1).
Lemma cube_conform nx ny nz t V T : (t = Reflectional \/ t = Rotational) -> 2 <= nx -> 2 <= ny -> 2 <= nz -> regular_cube_mesh nx ny nz t = Ok (V, T) ->
  forall s g, In s T -> In g (bdry_facets s) ->
  (exists s' h, In s' T /\ In h (bdry_facets s') /\ rot_eq h (flip3 g))
  \/ (exists ax b, (b = 0%R \/ b = 1%R) /\ (ax = X \/ ax = Y \/ ax = Zc) /\ let p i := nth (Z.to_nat i) V zero3 in
      ax (p (fst (fst g))) = b /\ ax (p (snd (fst g))) = b /\ ax (p (snd g)) = b).
Proof.
  intros Ht Hx Hy Hz Q. apply cube_inv in Q as (_ & QV & QT). intros s g I J.
  rewrite (tets_in _ _ _ _ _ QT) in I. destruct I as (pat & cell & Ip & Ic & ->). rewrite bdry_tet in J. apply in_map_iff in J as (g0 & <- & J).
  assert (C : facet_ok t g0 = true).
  { assert (CC : conf_check t = true) by (destruct Ht as [ -> | -> ]; [apply conf_refl | apply conf_rot]).
    unfold conf_check in CC. rewrite forallb_forall in CC. specialize (CC pat Ip). rewrite forallb_forall in CC. auto. }
  unfold facet_ok in C. apply orb_prop in C as [C|C].
  - left. destruct (partner_lift nx ny nz t T cell (0,0,0) g0 QT C) as (s' & Is & h & Ih & R); eauto.
    destruct cell as [[k i] j]. cbn. rewrite !Z.add_0_r. auto.
  - apply existsb_exists in C as (ax & Ia & C). apply existsb_exists in C as (b & Ib & C). apply andb_true_iff in C as [C1 C2].
    assert (B : b = 0 \/ b = 1) by (cbn in Ib; lia). clear Ib.
    destruct (in_dec pos_dec (addp cell (unitp ax (2 * b - 1))) (cubes nx ny nz)) as [W|W].
    + left. destruct (partner_lift nx ny nz t T cell _ g0 QT C2 W) as (s' & Is & h & Ih & R); eauto.
    + right. 
      assert (K : comp ax cell + b = match ax with 0%nat => lo_hi nz b | 1%nat => lo_hi nx b | _ => lo_hi ny b end).
      { rewrite in_cubes in W. apply in_cubes in Ic. destruct cell as [[k i] j]. cbn in Ia. unfold lo_hi. destruct Ia as [<-|[<-|[<-|[]]]], B as [ -> | -> ]; cbn [comp addp unitp] in *; lia. }
      exists (match ax with 0%nat => Zc | 1%nat => X | _ => Y end), (IZR b). split; [destruct B as [ -> | -> ]; auto|]. split; [destruct ax as [|[|ax]]; auto|].
      cbv zeta. rewrite QV.
      assert (G : forall w, comp ax (voff w) = b -> match ax with 0%nat => Zc | 1%nat => X | _ => Y end (nth (Z.to_nat (cidx nx nz (addp cell (voff w)))) (map (cube_vertex nx ny nz) (zseq (nx * ny * nz))) zero3) = IZR b).
      { intros w Hw. pose proof (corner_in _ _ _ _ w Ic) as Bx. rewrite cube_V_nth by (eapply cidx_range; eauto).
        assert (M : comp ax (addp cell (voff w)) = comp ax cell + b) by (rewrite <- Hw; destruct cell as [[k i] j], (voff w) as [[u v] x], ax as [|[|ax]]; auto).
        rewrite K in M. clear K. destruct (addp cell (voff w)) as [[k' i'] j']. rewrite cube_pos by auto.
        apply IZR_le in Hx, Hy, Hz. unfold lo_hi in M.
        destruct ax as [|[|ax]]; unfold X, Y, Zc; cbn [comp fst snd] in *; rewrite M; unfold lin; rewrite mult_IZR, minus_IZR; field; lra. }
      destruct g0 as [[w1 w2] w3]. cbn in C1. rewrite !andb_true_iff, !Z.eqb_eq in C1. destruct C1 as [[E1 E2] E3]. cbn [map3 fst snd]. rewrite !G by auto. auto.
Qed.

(** no oriented facet is used twice *)
Definition deltas : list pos := flat_map (fun a => flat_map (fun b => map (fun c => (a,b,c)) [-1;0;1]) [-1;0;1]) [-1;0;1].
Definition p4eqb (s t : Z*Z*Z*Z) : bool := peqb (fst s) (fst t) && (snd s =? snd t).
Definition uniq_check (t : cube_type) : bool :=
  forallb (fun pat => forallb (fun g => forallb (fun pat' => forallb (fun g' => forallb (fun dl => forallb (fun h =>
    negb (t3eqb (map3 (fun w => addp dl (voff w)) g) h) || (peqb dl (0,0,0) && p4eqb pat pat' && tri_eqb g g')) (rots3 (map3 voff g'))) deltas)
    (bdry_facets pat')) (patterns t)) (bdry_facets pat)) (patterns t).
Lemma uniq_ok t : uniq_check t = true.
Proof. destruct t; vm_compute; reflexivity. Qed.
Lemma in_deltas a b c : -1 <= a <= 1 -> -1 <= b <= 1 -> -1 <= c <= 1 -> In (a,b,c) deltas.
Proof. intros. unfold deltas. apply in_flat_map. exists a. split; [cbn; lia|]. apply in_flat_map. exists b. split; [cbn; lia|]. apply in_map_iff. exists c. split; auto. cbn; lia. Qed.
Lemma cube_facets_unique nx ny nz t V T : regular_cube_mesh nx ny nz t = Ok (V, T) ->
  forall s g s' g', In s T -> In g (bdry_facets s) -> In s' T -> In g' (bdry_facets s') -> rot_eq g g' -> s = s' /\ g = g'.
Proof.
  intros Q. apply cube_inv in Q as (_ & _ & QT). intros s g s' g' I J I' J' R.
  rewrite (tets_in _ _ _ _ _ QT) in I, I'. destruct I as (pat & cell & Ip & Ic & ->). destruct I' as (pat' & cell' & Ip' & Ic' & ->).
  rewrite bdry_tet in J, J'. apply in_map_iff in J as (h & <- & J). apply in_map_iff in J' as (h' & <- & J').
  rewrite rot_eq_in, rots3_map in R. apply in_map_iff in R as (r & E & R).
  assert (F : forall w w', cidx nx nz (addp cell' (voff w)) = cidx nx nz (addp cell (voff w')) -> addp (psub cell cell') (voff w') = voff w).
  { intros w w' Q. apply (cidx_inj nx ny nz) in Q; [|apply corner_in; auto|apply corner_in; auto].
    destruct cell as [[k i] j], cell' as [[k' i'] j'], (voff w) as [[a b] c], (voff w') as [[a' b'] c']. cbn in *. injection Q as Q1 Q2 Q3. f_equal; [f_equal|]; lia. }
  assert (E' : map3 (fun w => addp (psub cell cell') (voff w)) h = map3 voff r).
  { destruct h as [[a b] c], r as [[a' b'] c']. cbn in E. injection E as Q1 Q2 Q3. cbn. rewrite (F a' a), (F b' b), (F c' c) by auto. auto. }
  assert (DL : In (psub cell cell') deltas).
  { destruct h as [[a b] c], r as [[a' b'] c']. cbn [map3] in E'. injection E' as Q1 _ _. pose proof (voff01 a). pose proof (voff01 a').
    rewrite <- Q1 in H0. clear - H H0. destruct (psub cell cell') as [[u v] x], (voff a) as [[u' v'] x']. cbv [inbox addp] in H, H0. apply in_deltas; lia. }
  pose proof (uniq_ok t) as U. unfold uniq_check in U.
  rewrite forallb_forall in U. specialize (U pat Ip). rewrite forallb_forall in U. specialize (U h J). rewrite forallb_forall in U. specialize (U pat' Ip').
  rewrite forallb_forall in U. specialize (U h' J'). rewrite forallb_forall in U. specialize (U _ DL). rewrite forallb_forall in U.
  specialize (U (map3 voff r) ltac:(rewrite rots3_map; apply in_map; auto)). rewrite E' in U.
  rewrite (proj2 (t3eqb_eq _ _) eq_refl) in U. cbn [negb orb] in U. rewrite !andb_true_iff in U. destruct U as [[U1 U2] U3].
  apply peqb_eq in U1. apply andb_true_iff in U2 as [U2 U2']. apply peqb_eq in U2. apply Z.eqb_eq in U2'. apply peqb_eq in U3.
  assert (pat = pat') by (destruct pat, pat'; cbn in *; congruence). subst pat' h'.
  assert (cell = cell'). { destruct cell as [[k i] j], cell' as [[k' i'] j']. cbn in U1. injection U1 as Q1 Q2 Q3. f_equal; [f_equal|]; lia. }
  subst. auto.
Qed.
