From Coq Require Import Reals Lra Psatz.
From Verif Require Import NumpyModel NumpyProofs PyExn TopoModel TopoSpec TopoProofs HemProofs MatModel MatProofs Vec GeomSpec SubdivModel SubdivSpec SubdivProofs Subdiv2Proofs Subdiv3Proofs IcoModel.
From Coq Require Import Permutation.
Open Scope Z_scope.

(** ** closedness and counting *)
Definition closed (F : list tri) : Prop := forall e, In e (all_sides F) -> In (rev_edge e) (all_sides F).
Definition referenced (n : nat) (F : list tri) : Prop := forall i, 0 <= i < Z.of_nat n -> exists j, In (i, j) (all_sides F).

Lemma upsample_inv {P} (mid : P -> P -> P) V F Vu Fu E : F <> [] -> good_mesh F -> upsample_triangle_mesh mid V F = Ok (Vu, Fu, E) ->
  exists h2e e2h, HemResult F E h2e e2h /\ Fu = upF (midx (Z.of_nat (length V)) E) F.
Proof.
  intros NE GM U. destruct (hem_ok F NE (proj1 GM)) as (E' & h2e & e2h & Q & HR). unfold upsample_triangle_mesh in U.
  destruct F as [|t0 F0] eqn:EF; [congruence|]. rewrite <- EF in *. rewrite Q in U.
  destruct (Nat.leb (length V) 1); [discriminate|]. destruct (append_mids mid V E'); cbn in U; [|discriminate].
  injection U as <- <- <-. exists h2e, e2h. split; auto. apply (upsample_faces_eq F E' h2e e2h _ HR).
Qed.
Lemma rev_same e : same_edge e (rev_edge e). Proof. right. auto. Qed.
Lemma upF_closed F n M : (forall e f, In e (all_sides F) -> In f (all_sides F) -> (M e = M f <-> same_edge e f)) ->
  closed F -> closed (upF M F) /\ (referenced n F -> forall i, 0 <= i < Z.of_nat n -> exists j, In (i, j) (all_sides (upF M F)))
  /\ (forall e, In e (all_sides F) -> exists j, In (M e, j) (all_sides (upF M F))).
Proof.
  intros MI CL. set (A := map (fun e : edge => (fst e, M e)) (all_sides F)). set (B := map (fun e : edge => (M e, snd e)) (all_sides F)).
  set (C := flat_map (fun t : tri => let '(a,b,c) := t in [(M (a,b), M (c,a)); (M (b,c), M (a,b)); (M (c,a), M (b,c))]) F).
  assert (PM : forall e, In e (all_sides (upF M F)) <-> In e A \/ In e B \/ In e C \/ In e (map rev_edge C)).
  { intros e. assert (PP : Permutation (all_sides (upF M F)) (A ++ B ++ C ++ map rev_edge C)) by (apply upF_sides_perm).
    split; intros I.
    - apply (Permutation_in _ PP) in I. rewrite !in_app_iff in I. tauto.
    - apply (Permutation_in _ (Permutation_sym PP)). rewrite !in_app_iff. tauto. }
  split; [|split].
  - intros e I. apply PM. apply PM in I. destruct I as [I|[I|[I|I]]].
    + right. left. unfold A in I. apply in_map_iff in I as (s & <- & I). unfold B. apply in_map_iff. exists (rev_edge s). split; [|apply CL, I].
      unfold rev_edge at 2 3. cbn [fst snd]. f_equal. symmetry. apply MI; [exact I|apply CL, I|apply rev_same].
    + left. unfold B in I. apply in_map_iff in I as (s & <- & I). unfold A. apply in_map_iff. exists (rev_edge s). split; [|apply CL, I].
      unfold rev_edge at 2 3. cbn [fst snd]. f_equal. symmetry. apply MI; [exact I|apply CL, I|apply rev_same].
    + right; right; right. apply in_map. auto.
    + right; right; left. apply in_map_iff in I as ([x y] & <- & I). exact I.
  - intros RF i Hi. destruct (RF i Hi) as (j & I). exists (M (i, j)). apply PM. left. unfold A. apply in_map_iff. exists (i, j). auto.
  - intros e I. exists (snd e). apply PM. right; left. unfold B. apply in_map_iff. exists e. auto.
Qed.
Lemma sides_length F : length (all_sides F) = (3 * length F)%nat.
Proof. induction F as [|[[a b] c] F IH]; cbn in *; auto. unfold all_sides in IH. rewrite IH. lia. Qed.
(** on a closed oriented mesh every edge is used twice *)
Lemma closed_edges F E h2e e2h : HemResult F E h2e e2h -> good_mesh F -> closed F -> (2 * length E = 3 * length F)%nat.
Proof.
  intros HR (OM & PR & _) CL. rewrite <- sides_length.
  assert (PP : Permutation (all_sides F) (E ++ map rev_edge E)).
  { apply NoDup_Permutation; [exact OM| |].
    - assert (NE : NoDup E).
      { apply NoDup_nth_error. intros i j Hi Q. destruct (nth_error E i) as [e|] eqn:X; [|apply nth_error_Some in Hi; congruence].
        destruct HR as (_ & U & _). eapply U; eauto using same_edge_refl. }
      apply NoDup_app_iff. split; [auto|]. split.
      + apply FinFun.Injective_map_NoDup; auto. intros [a b] [c d] Q. unfold rev_edge in Q. cbn in Q. congruence.
      + intros e I1 I2. apply in_map_iff in I2 as (f & Qf & I2).
        assert (e <> f).
        { intros ->. assert (In f (all_sides F)) by (eapply E_sides; eauto). unfold all_sides in H. apply in_flat_map in H as ([[a b] c] & It & Is).
          apply PR in It. cbn in It, Is. destruct Is as [<-|[<-|[<-|[]]]]; unfold rev_edge in Qf; cbn in Qf; injection Qf; intuition congruence. }
        apply H. apply In_nth_error in I1 as [k Hk], I2 as [l Hl]. assert (k = l). { destruct HR as (_ & U & _). eapply U; eauto. subst e. apply same_edge_sym, rev_same. } congruence.
    - intros e. rewrite in_app_iff, in_map_iff. split.
      + intros I. destruct (eidx_side F E h2e e2h HR e I) as (e' & He & Se). apply nth_error_In in He.
        apply same_edge_cases in Se as [->| ->]; auto. right. exists (flip e). split; auto. destruct e; auto.
      + intros [I|(f & <- & I)]; [eapply E_sides; eauto|]. apply CL. eapply E_sides; eauto. }
  apply Permutation_length in PP. rewrite app_length, map_length in PP. lia.
Qed.

(** ** geometry *)
Open Scope R_scope.
Definition det3 (x y z : vec3) : R := dot3 x (cross3 y z).
Definition comb (a b c : R) (x y z : vec3) : vec3 := add3 (add3 (scal3 a x) (scal3 b y)) (scal3 c z).
Definition face_ok (x y z : vec3) : Prop := dot3 x x = 1 /\ dot3 y y = 1 /\ dot3 z z = 1 /\ 0 <= dot3 x y /\ 0 <= dot3 y z /\ 0 <= dot3 z x /\ 0 < det3 x y z.
Ltac vx := unfold det3, comb, mid3, dot3, cross3, scal3, add3, sub3, zero3, X, Y, Zc in *; cbn [fst snd] in *.

(** [u] points along x + y *)
Definition along (x y u : vec3) : Prop := exists s, 0 < s /\ u = scal3 s (add3 x y) /\ dot3 u u = 1.
Lemma norm3_pos v : 0 < dot3 v v -> 0 < norm3 v /\ norm3 v * norm3 v = dot3 v v.
Proof. intros H. unfold norm3. split; [apply sqrt_lt_R0; auto|apply sqrt_sqrt; lra]. Qed.
Lemma unit_norm v : 0 < dot3 v v -> dot3 (scal3 (/ norm3 v) v) (scal3 (/ norm3 v) v) = 1.
Proof.
  intros H. destruct (norm3_pos v H) as (P & Q). replace (dot3 (scal3 (/ norm3 v) v) (scal3 (/ norm3 v) v)) with (/ norm3 v * / norm3 v * dot3 v v) by (vx; ring).
  rewrite <- Q. field. lra.
Qed.
Lemma unit_same v : dot3 v v = 1 -> scal3 (/ norm3 v) v = v.
Proof. intros H. unfold norm3. rewrite H, sqrt_1. apply vec3_eq; vx; field. Qed.
Lemma mid_along x y : dot3 x x = 1 -> dot3 y y = 1 -> 0 <= dot3 x y -> 0 < dot3 (mid3 x y) (mid3 x y) /\ along x y (scal3 (/ norm3 (mid3 x y)) (mid3 x y)).
Proof.
  intros H1 H2 H3. assert (Q : dot3 (mid3 x y) (mid3 x y) = 1/4 * (dot3 x x + dot3 y y + 2 * dot3 x y)) by (vx; field).
  assert (P : 0 < dot3 (mid3 x y) (mid3 x y)) by lra. split; auto. exists (/ norm3 (mid3 x y) * (1/2)). destruct (norm3_pos _ P) as (N & _).
  split; [|split].
  - assert (0 < / norm3 (mid3 x y)) by (apply Rinv_0_lt_compat; auto). lra.
  - unfold mid3. apply vec3_eq; vx; ring.
  - apply unit_norm; auto.
Qed.

(** child number i of the triangle x y z, with edge points u (on xy), v (on yz), w (on zx) *)
Definition child (i : nat) (x y z u v w : vec3) : vec3 * vec3 * vec3 :=
  match i with 0%nat => (x, u, w) | 1%nat => (u, y, v) | 2%nat => (w, v, z) | _ => (w, u, v) end.
Lemma child_ok i x y z u v w p q r : face_ok x y z -> along x y u -> along y z v -> along z x w -> child i x y z u v w = (p, q, r) -> face_ok p q r.
Proof.
  intros (X1 & Y1 & Z1 & XY & YZ & ZX & D) (s & Ps & Eu & Nu) (s' & Ps' & Ev & Nv) (s'' & Ps'' & Ew & Nw) C.
  assert (S1 : 0 <= s * s') by nra. assert (S2 : 0 <= s * s'') by nra. assert (S3 : 0 <= s' * s'') by nra.
  assert (A1 : dot3 x u = s * (dot3 x x + dot3 x y)) by (rewrite Eu; vx; ring).
  assert (A2 : dot3 u y = s * (dot3 y y + dot3 x y)) by (rewrite Eu; vx; ring).
  assert (A3 : dot3 y v = s' * (dot3 y y + dot3 y z)) by (rewrite Ev; vx; ring).
  assert (A4 : dot3 v z = s' * (dot3 z z + dot3 y z)) by (rewrite Ev; vx; ring).
  assert (A5 : dot3 z w = s'' * (dot3 z z + dot3 z x)) by (rewrite Ew; vx; ring).
  assert (A6 : dot3 w x = s'' * (dot3 x x + dot3 z x)) by (rewrite Ew; vx; ring).
  assert (A7 : dot3 u w = s * s'' * (dot3 x x + dot3 x y + dot3 y z + dot3 z x)) by (rewrite Eu, Ew; vx; ring).
  assert (A8 : dot3 v u = s * s' * (dot3 y y + dot3 x y + dot3 y z + dot3 z x)) by (rewrite Eu, Ev; vx; ring).
  assert (A9 : dot3 w v = s' * s'' * (dot3 z z + dot3 x y + dot3 y z + dot3 z x)) by (rewrite Ev, Ew; vx; ring).
  assert (SW : forall a b, dot3 a b = dot3 b a) by (intros; vx; ring).
  assert (B1 : det3 x u w = s * s'' * det3 x y z) by (rewrite Eu, Ew; vx; ring).
  assert (B2 : det3 u y v = s * s' * det3 x y z) by (rewrite Eu, Ev; vx; ring).
  assert (B3 : det3 w v z = s' * s'' * det3 x y z) by (rewrite Ev, Ew; vx; ring).
  assert (B4 : det3 w u v = 2 * (s * s' * s'') * det3 x y z) by (rewrite Eu, Ev, Ew; vx; ring).
  assert (P1 : 0 < s * s') by nra. assert (P2 : 0 < s * s'') by nra. assert (P3 : 0 < s' * s'') by nra. assert (P4 : 0 < s * s' * s'') by nra.
  unfold child in C. destruct i as [|[|[|i]]]; injection C as <- <- <-; unfold face_ok; rewrite ?A1, ?A2, ?A3, ?A4, ?A5, ?A6, ?A7, ?A8, ?A9, ?B1, ?B2, ?B3, ?B4;
    (repeat split; try assumption; try (apply Rmult_le_pos; lra); try (apply Rmult_lt_0_compat; lra)).
  all: try (rewrite SW, ?A1, ?A2, ?A3, ?A4, ?A5, ?A6, ?A7, ?A8, ?A9; apply Rmult_le_pos; lra).
Qed.

(** coefficients of a point in the children *)
Definition pos3b (strict : bool) (a b c : R) : Prop := if strict then 0 < a /\ 0 < b /\ 0 < c else 0 <= a /\ 0 <= b /\ 0 <= c.
Definition in_cone (strict : bool) (x y z d : vec3) : Prop := exists a b c, pos3b strict a b c /\ d = comb a b c x y z.
Lemma cover_child x y z u v w d : along x y u -> along y z v -> along z x w -> in_cone false x y z d ->
  exists i p q r, (i < 4)%nat /\ child i x y z u v w = (p, q, r) /\ in_cone false p q r d.
Proof.
  intros (s & Ps & Eu & Nu) (s' & Ps' & Ev & Nv) (s'' & Ps'' & Ew & Nw) (a & b & c & (Pa & Pb & Pc) & Ed). cbn in Pa, Pb, Pc.
  assert (DV : forall t k, 0 < k -> 0 <= t -> 0 <= t / k) by (intros; apply Rmult_le_pos; [auto|left; apply Rinv_0_lt_compat; auto]).
  destruct (Rle_dec (b + c) a).
  { exists 0%nat. do 3 eexists. split; [lia|]. split; [reflexivity|]. exists (a - b - c), (b / s), (c / s''). split.
    - cbn; repeat split; try lra; apply DV; lra.
    - rewrite Ed, Eu, Ew. apply vec3_eq; vx; field; lra. }
  destruct (Rle_dec (a + c) b).
  { exists 1%nat. do 3 eexists. split; [lia|]. split; [reflexivity|]. exists (a / s), (b - a - c), (c / s'). split.
    - cbn; repeat split; try lra; apply DV; lra.
    - rewrite Ed, Eu, Ev. apply vec3_eq; vx; field; lra. }
  destruct (Rle_dec (a + b) c).
  { exists 2%nat. do 3 eexists. split; [lia|]. split; [reflexivity|]. exists (a / s''), (b / s'), (c - a - b). split.
    - cbn; repeat split; try lra; apply DV; lra.
    - rewrite Ed, Ew, Ev. apply vec3_eq; vx; field; lra. }
  exists 3%nat. do 3 eexists. split; [lia|]. split; [reflexivity|]. exists ((a + c - b) / 2 / s''), ((a + b - c) / 2 / s), ((b + c - a) / 2 / s'). split.
  - cbn; repeat split; apply DV; lra.
  - rewrite Ed, Eu, Ev, Ew. apply vec3_eq; vx; field; lra.
Qed.
Lemma coeffs_unique x y z a b c a' b' c' : 0 < det3 x y z -> comb a b c x y z = comb a' b' c' x y z -> a = a' /\ b = b' /\ c = c'.
Proof.
  intros D Q.
  assert (K : forall a b c, det3 (comb a b c x y z) y z = a * det3 x y z /\ det3 x (comb a b c x y z) z = b * det3 x y z /\ det3 x y (comb a b c x y z) = c * det3 x y z)
    by (intros; repeat split; vx; ring).
  destruct (K a b c) as (K1 & K2 & K3), (K a' b' c') as (K1' & K2' & K3'). rewrite Q in K1, K2, K3.
  repeat split; apply (Rmult_eq_reg_r (det3 x y z)); lra.
Qed.
(** the coefficients with respect to the parent, and which child they belong to *)
Definition child_coeffs (i : nat) (a b c : R) : Prop := match i with 0%nat => b + c < a | 1%nat => a + c < b | 2%nat => a + b < c | _ => a < b + c /\ b < a + c /\ c < a + b end.
Lemma strict_child i x y z u v w p q r d : (i < 4)%nat -> along x y u -> along y z v -> along z x w -> child i x y z u v w = (p, q, r) -> in_cone true p q r d ->
  exists a b c, pos3b true a b c /\ d = comb a b c x y z /\ child_coeffs i a b c.
Proof.
  intros Hi (s & Ps & Eu & Nu) (s' & Ps' & Ev & Nv) (s'' & Ps'' & Ew & Nw) C (a & b & c & (Pa & Pb & Pc) & Ed).
  assert (SA : 0 < a * s) by nra. assert (SB : 0 < b * s) by nra. assert (SC : 0 < c * s) by nra.
  assert (SA' : 0 < a * s') by nra. assert (SB' : 0 < b * s') by nra. assert (SC' : 0 < c * s') by nra.
  assert (SA'' : 0 < a * s'') by nra. assert (SB'' : 0 < b * s'') by nra. assert (SC'' : 0 < c * s'') by nra.
  destruct i as [|[|[|[|i]]]]; [..|lia]; injection C as <- <- <-.
  - exists (a + b * s + c * s''), (b * s), (c * s''). split; [cbn; lra|]. split; [rewrite Ed, Eu, Ew; apply vec3_eq; vx; ring|cbn; lra].
  - exists (a * s), (b + a * s + c * s'), (c * s'). split; [cbn; lra|]. split; [rewrite Ed, Eu, Ev; apply vec3_eq; vx; ring|cbn; lra].
  - exists (a * s''), (b * s'), (c + a * s'' + b * s'). split; [cbn; lra|]. split; [rewrite Ed, Ew, Ev; apply vec3_eq; vx; ring|cbn; lra].
  - exists (a * s'' + b * s), (b * s + c * s'), (a * s'' + c * s'). split; [cbn; lra|]. split; [rewrite Ed, Ew, Eu, Ev; apply vec3_eq; vx; ring|cbn; lra].
Qed.
Lemma child_coeffs_unique i j a b c : (i < 4)%nat -> (j < 4)%nat -> pos3b true a b c -> child_coeffs i a b c -> child_coeffs j a b c -> i = j.
Proof.
  intros Hi Hj (Pa & Pb & Pc) H1 H2. destruct i as [|[|[|[|i]]]]; [..|lia]; (destruct j as [|[|[|[|j]]]]; [..|lia]); cbn in *; try reflexivity; exfalso; lra.
Qed.

Definition hit (strict : bool) (V : list vec3) (F : list tri) (d : vec3) (f : nat) : Prop :=
  exists t x y z, nth_error F f = Some t /\ at3 V t x y z /\ in_cone strict x y z d.
Record Inv (V : list vec3) (F : list tri) : Prop := {
  i_ne : F <> []; i_len : (2 <= length V)%nat; i_good : good_mesh F; i_rng : in_range (Z.of_nat (length V)) F; i_closed : closed F;
  i_ref : referenced (length V) F; i_unit : forall v, In v V -> dot3 v v = 1;
  i_face : forall t x y z, In t F -> at3 V t x y z -> face_ok x y z;
  i_cover : forall d, exists f, hit false V F d f;
  i_disj : forall d f g, hit true V F d f -> hit true V F d g -> f = g }.

Lemma at_fun {P} (V : list P) i x y : at_ V i x -> at_ V i y -> x = y.
Proof. intros [_ A] [_ B]. congruence. Qed.
Lemma at3_fun {P} (V : list P) t x y z x' y' z' : at3 V t x y z -> at3 V t x' y' z' -> x = x' /\ y = y' /\ z = z'.
Proof. destruct t as [[a b] c]. intros (A & B & C) (A' & B' & C'). repeat split; eapply at_fun; eauto. Qed.
Lemma at_map {P Q} (g : P -> Q) V i x : at_ V i x -> at_ (map g V) i (g x).
Proof. intros [A B]. split; auto. rewrite nth_error_map, B. auto. Qed.
Lemma at3_map {P Q} (g : P -> Q) V t x y z : at3 V t x y z -> at3 (map g V) t (g x) (g y) (g z).
Proof. destruct t as [[a b] c]. intros (A & B & C). split; [|split]; apply at_map; auto. Qed.
Lemma range_at (V : list vec3) i : (0 <= i < Z.of_nat (length V))%Z -> exists x, at_ V i x /\ In x V.
Proof. intros H. destruct (nth_error V (Z.to_nat i)) as [x|] eqn:E; [|apply nth_error_None in E; lia]. exists x. split; [split; [lia|auto]|eapply nth_error_In; eauto]. Qed.

Lemma normalize_ok V : (forall v, In v V -> 0 < dot3 v v) -> normalize_rows V = Ok (map (fun v => scal3 (/ norm3 v) v) V).
Proof.
  intros H. unfold normalize_rows. destruct (existsb _ V) eqn:E; auto. apply existsb_exists in E as (v & I & Q). destruct (norm3_pos v (H v I)) as (P & _).
  destruct (Req_EM_T (norm3 v) 0); [lra|discriminate].
Qed.

Lemma step_ok V F : Inv V F -> exists Vu Fu E Vn, upsample_triangle_mesh mid3 V F = Ok (Vu, Fu, E) /\ normalize_rows Vu = Ok Vn /\ Inv Vn Fu
  /\ length Fu = (4 * length F)%nat /\ (2 * length Vn = 2 * length V + 3 * length F)%nat.
Proof.
  intros I. destruct I as [NE LV GM RG CL RF UN FC CV DJ].
  destruct (upsample_ok mid3 mid3_comm V F NE LV GM RG) as (Vu & Fu & E & U & LVu & LFu & OLD & GM' & RG' & EC & EU & NEW & CH).
  destruct (upsample_inv mid3 V F Vu Fu E NE GM U) as (h2e & e2h & HR & EFu).
  pose proof (closed_edges F E h2e e2h HR GM CL) as LE.
  set (g := fun v => scal3 (/ norm3 v) v). set (n := Z.of_nat (length V)) in *.
  (* every side of F has unit ends with a non-negative product *)
  assert (SD : forall e x y, In e (all_sides F) -> at_ V (fst e) x -> at_ V (snd e) y -> dot3 x x = 1 /\ dot3 y y = 1 /\ 0 <= dot3 x y).
  { intros e x y Ie Ax Ay. unfold all_sides in Ie. apply in_flat_map in Ie as ([[a b] c] & It & Is). pose proof (RG _ It) as (Ra & Rb & Rc).
    destruct (range_at V a Ra) as (xa & Aa & _), (range_at V b Rb) as (xb & Ab & _), (range_at V c Rc) as (xc & Ac & _).
    assert (A3 : at3 V (a,b,c) xa xb xc) by (exact (conj Aa (conj Ab Ac))). destruct (FC _ _ _ _ It A3) as (H1 & H2 & H3 & H4 & H5 & H6 & _). cbn in Is.
    destruct Is as [<-|[<-|[<-|[]]]]; cbn [fst snd] in *.
    - rewrite (at_fun _ _ _ _ Ax Aa), (at_fun _ _ _ _ Ay Ab). auto.
    - rewrite (at_fun _ _ _ _ Ax Ab), (at_fun _ _ _ _ Ay Ac). auto.
    - rewrite (at_fun _ _ _ _ Ax Ac), (at_fun _ _ _ _ Ay Aa). auto. }
  assert (PV : forall v, In v Vu -> 0 < dot3 v v).
  { intros v Iv. apply In_nth_error in Iv as [i Hi]. destruct (Nat.lt_ge_cases i (length V)) as [L|L].
    - rewrite OLD in Hi by auto. rewrite (UN v (nth_error_In _ _ Hi)). lra.
    - assert (L' : (i < length Vu)%nat) by (apply nth_error_Some; congruence).
      destruct (nth_error E (i - length V)) as [e|] eqn:He; [|apply nth_error_None in He; lia].
      destruct (NEW _ _ He) as (x & y & Ax & Ay & Am). destruct (SD e x y) as (H1 & H2 & H3); auto. { eapply E_sides; eauto. eapply nth_error_In; eauto. }
      destruct Am as [_ Am]. rewrite Nat2Z.id in Am. replace (length V + (i - length V))%nat with i in Am by lia. rewrite Hi in Am. injection Am as ->. apply mid_along; auto. }
  exists Vu, Fu, E, (map g Vu). split; [auto|]. split; [apply normalize_ok; auto|]. split; [|rewrite map_length; lia].
  (* faces *)
  assert (FW : forall f t x y z, nth_error F f = Some t -> at3 V t x y z -> exists u v w, along x y u /\ along y z v /\ along z x w /\
      forall i, (i < 4)%nat -> exists s p q r, nth_error Fu (i * length F + f) = Some s /\ child i x y z u v w = (p, q, r) /\ at3 (map g Vu) s p q r).
  { intros f t x y z Hf A3. destruct (CH f t x y z Hf A3) as (s0 & s1 & s2 & s3 & (C0 & C1 & C2 & C3) & A0 & A1 & A2 & A4).
    destruct (FC t x y z (nth_error_In _ _ Hf) A3) as (H1 & H2 & H3 & H4 & H5 & H6 & H7).
    exists (g (mid3 x y)), (g (mid3 y z)), (g (mid3 z x)). split; [apply mid_along; auto|]. split; [apply mid_along; auto|]. split; [apply mid_along; auto|].
    apply (at3_map g) in A0, A1, A2, A4. unfold g in A0 at 2. unfold g in A1 at 3. unfold g in A2 at 4.
    rewrite (unit_same x H1) in A0. rewrite (unit_same y H2) in A1. rewrite (unit_same z H3) in A2.
    intros i Hi. destruct i as [|[|[|[|i]]]]; [..|lia].
    - exists s0. do 3 eexists. split; [exact C0|]. split; [reflexivity|exact A0].
    - exists s1. do 3 eexists. split; [replace (1 * length F + f)%nat with (length F + f)%nat by lia; exact C1|]. split; [reflexivity|exact A1].
    - exists s2. do 3 eexists. split; [exact C2|]. split; [reflexivity|exact A2].
    - exists s3. do 3 eexists. split; [exact C3|]. split; [reflexivity|exact A4]. }
  assert (PT : forall t, In t F -> exists x y z, at3 V t x y z) by (intros t It; eapply in_range_at3; eauto).
  assert (BW : forall k s, nth_error Fu k = Some s -> exists f i t x y z u v w p q r, (i < 4)%nat /\ k = (i * length F + f)%nat /\ nth_error F f = Some t /\ at3 V t x y z /\
      along x y u /\ along y z v /\ along z x w /\ child i x y z u v w = (p, q, r) /\ at3 (map g Vu) s p q r).
  { intros k s Hk. assert (Lk : (k < 4 * length F)%nat) by (rewrite <- LFu; apply nth_error_Some; congruence).
    assert (M0 : length F <> 0%nat) by (destruct F; [congruence|discriminate]).
    pose proof (Nat.div_mod k (length F) M0) as DM. pose proof (Nat.mod_upper_bound k (length F) M0) as MB.
    assert (DL : (k / length F < 4)%nat) by (apply Nat.div_lt_upper_bound; lia).
    destruct (nth_error F (k mod length F)) as [t|] eqn:Hf; [|apply nth_error_None in Hf; lia].
    destruct (PT t (nth_error_In _ _ Hf)) as (x & y & z & A3). destruct (FW _ _ _ _ _ Hf A3) as (u & v & w & Au & Av & Aw & H).
    destruct (H _ DL) as (s' & p & q & r & Hs & Hc & Ha). replace (k / length F * length F + k mod length F)%nat with k in Hs by lia.
    rewrite Hk in Hs. injection Hs as <-. exists (k mod length F)%nat, (k / length F)%nat, t, x, y, z, u, v, w, p, q, r. repeat (split; [first [assumption|lia]|]). auto. }
  assert (MI : forall e f, In e (all_sides F) -> In f (all_sides F) -> (midx n E e = midx n E f <-> same_edge e f)) by (intros; eapply midx_inj; eauto).
  destruct (upF_closed F (length V) (midx n E) MI CL) as (CL' & RF1 & RF2). rewrite <- EFu in CL', RF1, RF2.
  constructor.
  - intros ->. destruct F; [congruence|]. cbn in LFu. lia.
  - rewrite map_length. lia.
  - auto.
  - rewrite map_length. auto.
  - auto.
  - rewrite map_length. intros i Hi. destruct (Z.lt_ge_cases i n) as [L|L]; [apply RF1; auto; lia|].
    destruct (nth_error E (Z.to_nat (i - n))) as [e|] eqn:He; [|apply nth_error_None in He; lia].
    assert (Ie : In e (all_sides F)) by (eapply E_sides; eauto; eapply nth_error_In; eauto).
    destruct (eidx_side F E h2e e2h HR e Ie) as (e' & He' & Se).
    assert (Q : eidx E e = Z.to_nat (i - n)). { eapply EU; eauto. apply same_edge_sym; auto. }
    destruct (RF2 e Ie) as (j & Ij). exists j. unfold midx in Ij. rewrite Q in Ij. replace (n + Z.of_nat (Z.to_nat (i - n)))%Z with i in Ij by lia. auto.
  - intros v Iv. apply in_map_iff in Iv as (v' & <- & Iv). apply unit_norm, PV, Iv.
  - intros s p q r Is As. apply In_nth_error in Is as [k Hk]. destruct (BW k s Hk) as (f & i & t & x & y & z & u & v & w & p' & q' & r' & Hi & _ & Hf & A3 & Au & Av & Aw & Hc & As').
    destruct (at3_fun _ _ _ _ _ _ _ _ As As') as (-> & -> & ->). eapply child_ok; [eapply FC; [eapply nth_error_In; eauto|eauto]| | | |]; eauto.
  - intros d. destruct (CV d) as (f & t & x & y & z & Hf & A3 & Hd). destruct (FW _ _ _ _ _ Hf A3) as (u & v & w & Au & Av & Aw & H).
    destruct (cover_child x y z u v w d Au Av Aw Hd) as (i & p & q & r & Hi & Hc & Hp). destruct (H i Hi) as (s & p' & q' & r' & Hs & Hc' & As).
    rewrite Hc in Hc'. injection Hc' as <- <- <-. exists (i * length F + f)%nat, s, p, q, r. auto.
  - assert (K : forall d k, hit true (map g Vu) Fu d k -> exists f i t x y z a b c, (i < 4)%nat /\ k = (i * length F + f)%nat /\ nth_error F f = Some t /\ at3 V t x y z
       /\ pos3b true a b c /\ d = comb a b c x y z /\ child_coeffs i a b c).
    { intros d k (s & p & q & r & Hk & As & Hd). destruct (BW k s Hk) as (f & i & t & x & y & z & u & v & w & p' & q' & r' & Hi & Ek & Hf & A3 & Au & Av & Aw & Hc & As').
      destruct (at3_fun _ _ _ _ _ _ _ _ As As') as (-> & -> & ->). destruct (strict_child i x y z u v w p' q' r' d Hi Au Av Aw Hc Hd) as (a & b & c & Pp & Ed & Cc).
      exists f, i, t, x, y, z, a, b, c. auto 10. }
    intros d k l Hk Hl. destruct (K d k Hk) as (f & i & t & x & y & z & a & b & c & Hi & -> & Hf & A3 & Pp & Ed & Cc).
    destruct (K d l Hl) as (f' & i' & t' & x' & y' & z' & a' & b' & c' & Hi' & -> & Hf' & A3' & Pp' & Ed' & Cc').
    assert (Q : f = f').
    { apply (DJ d). - exists t, x, y, z. split; [auto|]. split; [auto|]. exists a, b, c. auto.
      - exists t', x', y', z'. split; [auto|]. split; [auto|]. exists a', b', c'. auto. }
    subst f'. rewrite Hf in Hf'. injection Hf' as <-. destruct (at3_fun _ _ _ _ _ _ _ _ A3 A3') as (<- & <- & <-).
    destruct (FC t x y z (nth_error_In _ _ Hf) A3) as (_ & _ & _ & _ & _ & _ & D). rewrite Ed in Ed'. destruct (coeffs_unique _ _ _ _ _ _ _ _ _ D Ed') as (<- & <- & <-).
    f_equal. f_equal. eapply child_coeffs_unique; eauto.
Qed.

Lemma loop_ok n : forall V F, Inv V F -> exists V' F', ico_loop n V F = Ok (V', F') /\ Inv V' F' /\ length F' = (4 ^ n * length F)%nat
  /\ (2 * length V' + length F = 2 * length V + length F')%nat.
Proof.
  induction n as [|n IH]; intros V F I; cbn [ico_loop].
  - exists V, F. split; [auto|]. split; [auto|]. split; [cbn [Nat.pow]; lia|lia].
  - destruct (step_ok V F I) as (Vu & Fu & E & Vn & -> & Q & In & LF & LV). cbn [bind]. rewrite Q. cbn [bind].
    destruct (IH Vn Fu In) as (V' & F' & -> & I' & LF' & LV'). exists V', F'. split; auto. split; auto. split; [rewrite LF', LF; cbn [Nat.pow]; lia|lia].
Qed.
