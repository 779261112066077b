(** C16, and the matrix / area parts of C17 *)
From Verif Require Import NumpyModel NumpyProofs PyExn TopoModel TopoSpec TopoProofs HemProofs MatModel MatProofs Vec GeomSpec SubdivModel SubdivSpec SubdivProofs Subdiv2Proofs.
From Coq Require Import Permutation Psatz.
Open Scope Z_scope.

Lemma firstn_app_exact {A} (l1 l2 : list A) k : length l1 = k -> firstn k (l1 ++ l2) = l1.
Proof. intros <-. rewrite firstn_app, Nat.sub_diag, firstn_all. cbn. apply app_nil_r. Qed.
Lemma skipn_app_exact {A} (l1 l2 : list A) k : length l1 = k -> skipn k (l1 ++ l2) = l2.
Proof. intros <-. rewrite skipn_app, Nat.sub_diag, skipn_all. reflexivity. Qed.
Lemma reshape2F_ok l1 l2 : length l1 = length l2 -> reshape2F (l1 ++ l2) = Ok (combine l1 l2).
Proof.
  intros L. unfold reshape2F. rewrite app_length, <- L. replace (length l1 + length l1)%nat with (2 * length l1)%nat by lia.
  rewrite Nat.even_mul. cbn [orb Nat.even]. rewrite Nat.div2_double, firstn_app_exact, skipn_app_exact; auto.
Qed.
Lemma combine_map2 {A B C} (f : A -> B) (g : A -> C) l : combine (map f l) (map g l) = map (fun x => (f x, g x)) l.
Proof. induction l; cbn; congruence. Qed.
Lemma combine_app {A B} (a1 a2 : list A) (b1 b2 : list B) : length a1 = length b1 -> combine (a1 ++ a2) (b1 ++ b2) = combine a1 b1 ++ combine a2 b2.
Proof. revert b1. induction a1; intros [|b b1] L; cbn in *; try lia; auto. rewrite IHa1; auto. Qed.

Lemma edge_indices_open n : 1 <= n -> edge_indices n false = Ok (map (fun i => (Z.of_nat i, Z.of_nat i + 1)) (seq 0 (Z.to_nat (n - 1)))).
Proof.
  intros H. unfold edge_indices, linspace_int. destruct (Z.ltb_spec (n-1) 0); [lia|]. cbn [bind].
  rewrite reshape2F_ok by (rewrite !map_length; auto). rewrite combine_map2. f_equal. apply map_ext. intros a. f_equal; lia.
Qed.
Lemma edge_indices_closed n : 1 <= n -> edge_indices n true = Ok (map (fun i => (Z.of_nat i, Z.of_nat i + 1)) (seq 0 (Z.to_nat (n - 1))) ++ [(n - 1, 0)]).
Proof.
  intros H. unfold edge_indices, linspace_int. destruct (Z.ltb_spec (n-1) 0); [lia|]. destruct (Z.ltb_spec n 0); [lia|]. cbn [bind].
  rewrite reshape2F_ok by (rewrite app_length, !map_length, !seq_length; cbn; lia). f_equal.
  replace (Z.to_nat n) with (Z.to_nat (n-1) + 1)%nat by lia. rewrite seq_app, map_app, combine_app by (rewrite !map_length; auto).
  rewrite combine_map2. f_equal; [apply map_ext; intros; f_equal; lia|]. cbn [seq map combine]. match goal with |- [(?x, _)] = [(?y, _)] => replace x with y by lia; reflexivity end.
Qed.

(** upsampling matrix *)
Open Scope R_scope.
Lemma getZ_sumf_enum_none (n : Z) (E : list edge) (g : Z * edge -> R) i : (0 <= i < n)%Z ->
  sumf (fun p => if (n + fst p =? i)%Z then g p else 0) (enum E) = 0.
Proof.
  intros Hi. apply sumf_zero. intros p I. apply enum_nth in I as (k & E' & _). destruct (Z.eqb_spec (n + fst p) i); auto. lia.
Qed.
Lemma sumf_enum_pick {A} (E : list A) (n : Z) (g : Z * A -> R) k e : nth_error E k = Some e ->
  sumf (fun p => if (n + fst p =? n + Z.of_nat k)%Z then g p else 0) (enum E) = g (Z.of_nat k, e).
Proof.
  intros Hk. unfold enum.
  assert (G : forall s (E : list A) k, nth_error E k = Some e ->
    sumf (fun p => if (n + fst p =? n + Z.of_nat (s + k))%Z then g p else 0) (combine (map Z.of_nat (seq s (length E))) E) = g (Z.of_nat (s + k), e)).
  { clear. intros s E; revert s. induction E as [|x E IH]; intros s k Hk; [destruct k; discriminate|]. cbn [length seq map combine sumf fst].
    destruct k as [|k]; cbn in Hk.
    - injection Hk as ->. rewrite Nat.add_0_r, Z.eqb_refl.
      enough (sumf (fun p => if (n + fst p =? n + Z.of_nat s)%Z then g p else 0) (combine (map Z.of_nat (seq (S s) (length E))) E) = 0) by lra.
      apply sumf_zero. intros p I. assert (In (fst p) (map Z.of_nat (seq (S s) (length E)))) as J by (destruct p; eapply in_combine_l; eauto).
      apply in_map_iff in J as (q & Q & J). apply in_seq in J. destruct (Z.eqb_spec (n + fst p) (n + Z.of_nat s)); auto; lia.
    - destruct (Z.eqb_spec (n + Z.of_nat s) (n + Z.of_nat (s + S k))); [lia|]. replace (s + S k)%nat with (S s + k)%nat by lia. rewrite IH; auto. lra. }
  exact (G 0%nat E k Hk).
Qed.
Lemma upsample_matrix_ok n E : (forall e, In e E -> (0 <= fst e < Z.of_nat n /\ 0 <= snd e < Z.of_nat n)%Z) ->
  exists M, upsample_matrix (Z.of_nat n) E = Ok M
   /\ (forall x i, (i < n)%nat -> mulv n M x (Z.of_nat i) = x (Z.of_nat i))
   /\ (forall x k e, nth_error E k = Some e -> mulv n M x (Z.of_nat (n + k)) = / 2 * (x (fst e) + x (snd e))).
Proof.
  intros B. unfold upsample_matrix. rewrite Nat2Z.id.
  match goal with |- context [csr _ _ ?l] => set (M := l) end.
  assert (OK : forall t, In t M -> (0 <= trow t < Z.of_nat n + Z.of_nat (length E))%Z /\ (0 <= tcol t < Z.of_nat n)%Z).
  { intros t I. unfold M in I. rewrite !in_app_iff, !in_map_iff in I.
    destruct I as [(i & <- & I)|[(p & <- & I)|(p & <- & I)]].
    - apply in_seq in I. unfold trow, tcol; cbn. lia.
    - apply enum_nth in I as (k & E1 & Hk). assert (k < length E)%nat by (apply nth_error_Some; congruence).
      destruct (B _ (nth_error_In _ _ Hk)). unfold trow, tcol; cbn. lia.
    - apply enum_nth in I as (k & E1 & Hk). assert (k < length E)%nat by (apply nth_error_Some; congruence).
      destruct (B _ (nth_error_In _ _ Hk)). unfold trow, tcol; cbn. lia. }
  exists M. split; [apply csr_ok; auto|].
  assert (CI : cols_in n M) by (intros t I; apply OK; auto).
  split.
  - intros x i Hi. rewrite mulv_trip by auto. unfold M. rewrite !sumf_app, !sumf_map. unfold trow, tcol, tval. cbn [fst snd].
    rewrite !getZ_sumf_enum_none by lia.
    pose proof (sumn_pick n (Z.of_nat i) (fun j => 1 * x j) ltac:(lia)) as P. unfold sumn in P.
    rewrite (sumf_ext _ (fun j => if (Z.of_nat i =? Z.of_nat j)%Z then 1 * x (Z.of_nat j) else 0)); [rewrite P; lra|].
    intros j _. rewrite Z.eqb_sym. auto.
  - intros x k e Hk. rewrite mulv_trip by auto. unfold M. rewrite !sumf_app, !sumf_map. unfold trow, tcol, tval. cbn [fst snd].
    rewrite Nat2Z.inj_add.
    rewrite (sumf_enum_pick E (Z.of_nat n) (fun p => 0.5 * x (fst (snd p))) k e Hk), (sumf_enum_pick E (Z.of_nat n) (fun p => 0.5 * x (snd (snd p))) k e Hk).
    cbn [fst snd]. rewrite sumf_zero; [lra|].
    intros j I. apply in_seq in I. destruct (Z.eqb_spec (Z.of_nat j) (Z.of_nat n + Z.of_nat k)); auto. lia.
Qed.


Lemma subdivide_matrix_gen k : forall (n0 : nat) (V0 V : list R) F (S : Z -> Z -> R),
  F <> [] -> (2 <= length V)%nat -> good_mesh F -> in_range (Z.of_nat (length V)) F ->
  (forall i, (i < length V)%nat -> col V (Z.of_nat i) = sumn n0 (fun j => S (Z.of_nat i) (Z.of_nat j) * col V0 (Z.of_nat j))) ->
  (forall i, (i < length V)%nat -> sumn n0 (fun j => S (Z.of_nat i) (Z.of_nat j)) = 1) ->
  (forall i j, (i < length V)%nat -> (j < n0)%nat -> 0 <= S (Z.of_nat i) (Z.of_nat j)) ->
  exists Vu Fu S', subdivide_upsample hmid k V F = Ok (Vu, Fu) /\ subdivide_matrix k (length V) F S = Ok (length Vu, S')
   /\ (forall i, (i < length Vu)%nat -> col Vu (Z.of_nat i) = sumn n0 (fun j => S' (Z.of_nat i) (Z.of_nat j) * col V0 (Z.of_nat j)))
   /\ (forall i, (i < length Vu)%nat -> sumn n0 (fun j => S' (Z.of_nat i) (Z.of_nat j)) = 1)
   /\ (forall i j, (i < length Vu)%nat -> (j < n0)%nat -> 0 <= S' (Z.of_nat i) (Z.of_nat j)).
Proof.
  induction k as [|k IH]; intros n0 V0 V F S NE LV GM RG HV HS HP.
  - cbn. exists V, F, S. auto.
  - destruct (upsample_ok hmid (fun x y => ltac:(unfold hmid; lra)) V F NE LV GM RG) as (Vu & Fu & E & UP & LVu & LFu & Old & GM' & RG' & _ & _ & HN & _).
    cbn [subdivide_upsample subdivide_matrix]. rewrite UP. cbn [bind].
    unfold upsample_triangle_mesh in UP. destruct F as [|t0 F0] eqn:EF; [congruence|]. rewrite <- EF in *.
    destruct (hem_ok F NE (proj1 GM)) as (E' & h2e & e2h & Q & HR). rewrite Q in UP |- *.
    destruct (Nat.leb_spec (length V) 1); [lia|]. destruct (append_mids hmid V E') as [Vu'|]; [|discriminate]. cbn [lift bind] in UP.
    injection UP as -> <- ->.
    assert (BE : forall e, In e E -> (0 <= fst e < Z.of_nat (length V) /\ 0 <= snd e < Z.of_nat (length V))%Z).
    { intros e I. apply (sides_range F _ RG), (E_sides F E h2e e2h HR), I. }
    destruct (upsample_matrix_ok (length V) E BE) as (M & -> & M1 & M2). cbn [bind]. rewrite <- LVu.
    assert (NF : upsample_faces (Z.of_nat (length V)) F h2e <> []) by (intros N; rewrite N in LFu; rewrite EF in LFu; cbn in LFu; lia).
    set (S1 := fun i j => sumn (length V) (fun l => entry M i (Z.of_nat l) * S (Z.of_nat l) j)).
    assert (V1 : forall i, (i < length Vu)%nat -> col Vu (Z.of_nat i) = mulv (length V) M (col V) (Z.of_nat i)).
    { intros i Hi. unfold col at 1. rewrite Nat2Z.id. destruct (Nat.lt_ge_cases i (length V)) as [Hl|Hl].
      - rewrite M1 by auto. unfold col. rewrite Nat2Z.id. apply nth_error_nth. rewrite Old by auto. apply nth_error_nth'; auto.
      - replace i with (length V + (i - length V))%nat by lia. set (k' := (i - length V)%nat).
        destruct (nth_error E k') as [e|] eqn:Ek; [|apply nth_error_None in Ek; unfold k' in Ek; lia].
        rewrite (M2 _ _ _ Ek). destruct (HN _ _ Ek) as (x & y & [_ Hx] & [_ Hy] & [_ Hm]). rewrite Nat2Z.id in Hm.
        unfold col. rewrite (nth_error_nth _ _ 0 Hm), (nth_error_nth _ _ 0 Hx), (nth_error_nth _ _ 0 Hy). unfold hmid. lra. }
    assert (V2 : forall i, sumn n0 (fun j => S1 i (Z.of_nat j) * col V0 (Z.of_nat j)) = mulv (length V) M (fun l => sumn n0 (fun j => S l (Z.of_nat j) * col V0 (Z.of_nat j))) i).
    { intros i. unfold S1, mulv, sumn. rewrite (sumf_ext _ (fun j => sumf (fun l => entry M i (Z.of_nat l) * (S (Z.of_nat l) (Z.of_nat j) * col V0 (Z.of_nat j))) (seq 0 (length V)))).
      - rewrite sumf_swap. apply sumf_ext. intros l _. rewrite sumf_scal. auto.
      - intros j _. rewrite <- sumf_scal_r. apply sumf_ext. intros; ring. }
    assert (V3 : forall i, sumn n0 (fun j => S1 i (Z.of_nat j)) = mulv (length V) M (fun l => sumn n0 (fun j => S l (Z.of_nat j))) i).
    { intros i. unfold S1, mulv, sumn. rewrite sumf_swap. apply sumf_ext. intros l _. rewrite sumf_scal. auto. }
    assert (MX : forall i x y, (forall l, (l < length V)%nat -> x (Z.of_nat l) = y (Z.of_nat l)) -> mulv (length V) M x i = mulv (length V) M y i).
    { intros i x y H'. unfold mulv, sumn. apply sumf_ext. intros l I. apply in_seq in I. rewrite H'; auto. lia. }
    destruct (IH n0 V0 Vu _ S1 NF ltac:(lia) GM' RG') as (Vw & Fw & Sw & E1 & E2 & R).
    + intros i Hi. rewrite V1, V2 by auto. apply MX. auto.
    + intros i Hi. rewrite V3. rewrite (MX _ _ (fun _ => 1)); [|intros; apply HS; auto].
      destruct (Nat.lt_ge_cases i (length V)) as [Hl|Hl]; [rewrite M1; auto|].
      replace i with (length V + (i - length V))%nat by lia. set (k' := (i - length V)%nat).
      destruct (nth_error E k') as [e|] eqn:Ek; [|apply nth_error_None in Ek; unfold k' in Ek; lia].
      rewrite (M2 _ _ _ Ek). lra.
    + intros i j Hi Hj. 
      assert (V4 : S1 (Z.of_nat i) (Z.of_nat j) = mulv (length V) M (fun l => S l (Z.of_nat j)) (Z.of_nat i)) by reflexivity.
      rewrite V4. destruct (Nat.lt_ge_cases i (length V)) as [Hl|Hl]; [rewrite M1; auto|].
      replace i with (length V + (i - length V))%nat by lia. set (k' := (i - length V)%nat).
      destruct (nth_error E k') as [e|] eqn:Ek; [|apply nth_error_None in Ek; unfold k' in Ek; lia].
      rewrite (M2 _ _ _ Ek). destruct (BE _ (nth_error_In _ _ Ek)) as [B1 B2].
      pose proof (HP (Z.to_nat (fst e)) j ltac:(lia) Hj) as P1. pose proof (HP (Z.to_nat (snd e)) j ltac:(lia) Hj) as P2.
      rewrite Z2Nat.id in P1, P2 by lia. lra.
    + exists Vw, Fw, Sw. auto.
Qed.

(** areas *)
Lemma mid3_comm a b : mid3 a b = mid3 b a.
Proof. apply vec3_eq; unfold mid3, scal3, add3, X, Y, Zc; cbn; ring. Qed.
Lemma child_normals x y z : let N := scal3 (1/4) (tri_normal x y z) in
  tri_normal x (mid3 x y) (mid3 z x) = N /\ tri_normal (mid3 x y) y (mid3 y z) = N
  /\ tri_normal (mid3 z x) (mid3 y z) z = N /\ tri_normal (mid3 z x) (mid3 x y) (mid3 y z) = N.
Proof.
  destruct x as [[x1 x2] x3], y as [[y1 y2] y3], z as [[z1 z2] z3].
  repeat split; apply vec3_eq; unfold tri_normal, mid3, scal3, add3, sub3, cross3, X, Y, Zc; cbn [fst snd]; field.
Qed.

Lemma norm3_scal s a : 0 <= s -> norm3 (scal3 s a) = s * norm3 a.
Proof.
  intros H. unfold norm3. replace (dot3 (scal3 s a) (scal3 s a)) with ((s * s) * dot3 a a) by (unfold dot3, scal3, X, Y, Zc; cbn; ring).
  rewrite sqrt_mult_alt by nra. rewrite sqrt_square; auto.
Qed.
Lemma sumf_nth {A} (g : A -> R) d l : sumf g l = sumn (length l) (fun i => g (nth i l d)).
Proof.
  unfold sumn. induction l as [|x l IH]; cbn; auto. rewrite IH. f_equal. rewrite <- seq_shift, sumf_map. apply sumf_ext. auto.
Qed.
Lemma sumf_seq_shift g s n : sumf g (seq s n) = sumn n (fun i => g (s + i)%nat).
Proof.
  unfold sumn. revert s. induction n as [|n IH]; intros s; cbn [seq sumf]; auto. rewrite Nat.add_0_r. f_equal. rewrite IH.
  unfold sumn. rewrite <- (seq_shift n 0), sumf_map. apply sumf_ext. intros. f_equal. lia.
Qed.
Lemma sumn_app n m g : sumn (n + m) g = sumn n g + sumn m (fun i => g (n + i)%nat).
Proof. unfold sumn at 1. rewrite seq_app, sumf_app. cbn [Nat.add]. rewrite (sumf_seq_shift g n m). reflexivity. Qed.

Lemma at3_area V t x y z : at3 V t x y z -> face_area V t = norm3 (tri_normal x y z) / 2.
Proof.
  destruct t as [[a b] c]. intros ((_ & Ha) & (_ & Hb) & (_ & Hc)). unfold face_area, pos3.
  rewrite (nth_error_nth _ _ zero3 Ha), (nth_error_nth _ _ zero3 Hb), (nth_error_nth _ _ zero3 Hc). auto.
Qed.
Lemma in_range_at3 (V : list vec3) F t : in_range (Z.of_nat (length V)) F -> In t F -> exists x y z, at3 V t x y z.
Proof.
  intros R I. apply R in I. destruct t as [[a b] c]. destruct I as (Ha & Hb & Hc).
  exists (pos3 V a), (pos3 V b), (pos3 V c). unfold at3, at_, pos3. repeat split; try lia; apply nth_error_nth'; lia.
Qed.
Lemma upsample_area V F Vu Fu : length Fu = (4 * length F)%nat -> in_range (Z.of_nat (length V)) F ->
  (forall f t x y z, nth_error F f = Some t -> at3 V t x y z -> exists s0 s1 s2 s3,
           children (length F) f Fu s0 s1 s2 s3
           /\ at3 Vu s0 x (mid3 x y) (mid3 z x) /\ at3 Vu s1 (mid3 x y) y (mid3 y z)
           /\ at3 Vu s2 (mid3 z x) (mid3 y z) z /\ at3 Vu s3 (mid3 z x) (mid3 x y) (mid3 y z)) ->
  total_area Vu Fu = total_area V F.
Proof.
  intros L RG H. unfold total_area. set (d := (0,0,0)%Z). rewrite !(sumf_nth _ d). rewrite L.
  set (m := length F) in *. replace (4 * m)%nat with (m + (m + (m + m)))%nat by lia. rewrite !sumn_app.
  unfold sumn. rewrite <- !sumf_plus. apply sumf_ext. intros f I. apply in_seq in I.
  assert (Hf : nth_error F f = Some (nth f F d)) by (apply nth_error_nth'; unfold m in I; lia).
  set (t := nth f F d) in *. destruct (in_range_at3 V F t RG (nth_error_In _ _ Hf)) as (x & y & z & A3).
  destruct (H f t x y z Hf A3) as (s0 & s1 & s2 & s3 & (C0 & C1 & C2 & C3) & A0 & A1 & A2 & A4).
  fold m in C1, C2, C3.
  replace (m + (m + (m + f)))%nat with (3 * m + f)%nat by lia. replace (m + (m + f))%nat with (2 * m + f)%nat by lia. 
  rewrite (nth_error_nth _ _ d C0), (nth_error_nth _ _ d C1), (nth_error_nth _ _ d C2), (nth_error_nth _ _ d C3).
  rewrite (at3_area _ _ _ _ _ A0), (at3_area _ _ _ _ _ A1), (at3_area _ _ _ _ _ A2), (at3_area _ _ _ _ _ A4), (at3_area _ _ _ _ _ A3).
  pose proof (child_normals x y z) as CN. cbv zeta in CN. destruct CN as (-> & -> & -> & ->).
  rewrite norm3_scal by lra. field.
Qed.
Lemma subdivide_area k : forall V F, F <> [] -> (2 <= length V)%nat -> good_mesh F -> in_range (Z.of_nat (length V)) F ->
  exists Vu Fu, subdivide_upsample mid3 k V F = Ok (Vu, Fu) /\ total_area Vu Fu = total_area V F.
Proof.
  induction k as [|k IH]; intros V F NE LV GM RG; cbn [subdivide_upsample].
  - exists V, F. auto.
  - destruct (upsample_ok mid3 mid3_comm V F NE LV GM RG) as (Vu & Fu & E & -> & LVu & LFu & Old & GM' & RG' & _ & _ & _ & CH). cbn [bind].
    assert (NF : Fu <> []) by (destruct F; [congruence|]; intros ->; cbn in LFu; lia).
    destruct (IH Vu Fu NF ltac:(lia) GM' RG') as (Vw & Fw & -> & A). exists Vw, Fw. split; auto. rewrite A. apply upsample_area; auto.
Qed.

(** C16 circle *)
Lemma circle_ok n : (3 <= n)%Z -> exists V E, regular_circle_polyline n = Ok (V, E)
  /\ length V = Z.to_nat n /\ (forall p, In p V -> fst p * fst p + snd p * snd p = 1)
  /\ E = map (fun i => (Z.of_nat i, Z.of_nat i + 1)%Z) (seq 0 (Z.to_nat (n - 1))) ++ [((n - 1)%Z, 0%Z)]
  /\ nth_error V 0 = Some (1, 0) /\ nth_error V (Z.to_nat (n - 1)) = Some (1, 0).
Proof.
  intros H. unfold regular_circle_polyline. destruct (Z.ltb_spec n 3); [lia|]. do 2 eexists. split; [reflexivity|].
  split; [rewrite map_length, seq_length; auto|]. split; [|split; [|split]].
  - intros p I. apply in_map_iff in I as (i & <- & _). cbn [fst snd]. set (t := INR i * _). pose proof (sin2_cos2 t) as S. unfold Rsqr in S. lra.
  - replace (Z.to_nat n) with (Z.to_nat (n-1) + 1)%nat by lia. replace (Z.to_nat (n-1) + 1 - 1)%nat with (Z.to_nat (n-1)) by lia.
    rewrite seq_app, map_app, combine_app by (rewrite !map_length, !seq_length; auto).
    rewrite <- (seq_shift (Z.to_nat (n-1)) 0), map_map, combine_map2. f_equal; [apply map_ext; intros; f_equal; lia|].
    cbn [seq map combine]. match goal with |- [(?x, _)] = [(?y, _)] => replace x with y by lia; reflexivity end.
  - rewrite nth_error_map. replace (Z.to_nat n) with (S (Z.to_nat (n-1))) by lia. cbn. rewrite Rmult_0_l, cos_0, sin_0. auto.
  - rewrite nth_error_map.
    assert (E : nth_error (seq 0 (Z.to_nat n)) (Z.to_nat (n-1)) = Some (Z.to_nat (n-1))).
    { rewrite (nth_error_nth' _ 0%nat) by (rewrite seq_length; lia). rewrite seq_nth by lia. auto. }
    rewrite E. cbn [option_map]. rewrite INR_IZR_INZ, Z2Nat.id by lia. rewrite minus_IZR.
    replace ((IZR n - 1) * (2 * PI / (IZR n - 1))) with (2 * PI); [rewrite cos_2PI, sin_2PI; auto|].
    field. apply IZR_le in H. lra.
Qed.
