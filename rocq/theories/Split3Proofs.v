(** Lemmas for P_Split: the loop over all edges, the surface and its area *)
From Coq Require Import Reals Lra List Arith Bool Lia.
From Verif Require Import Vec MatModel MatProofs BiharmProofs SplitModel SplitProofs Split2Proofs.
Import ListNotations.
Open Scope nat_scope.

(** -- specification -- *)
Definition edge (F : nat -> nat -> nat) (M x y : nat) : Prop := exists f c, f < M /\ c < 3 /\ he F f c = (x, y).
Definition in_tri (A B C p : vec3) : Prop := exists a b c : R, (0 <= a /\ 0 <= b /\ 0 <= c /\ a + b + c = 1 /\ p = add3 (add3 (scal3 a A) (scal3 b B)) (scal3 c C))%R.
Definition face_pt (V : nat -> vec3) (F : nat -> nat -> nat) (f : nat) (p : vec3) : Prop := in_tri (V (F f 0)) (V (F f 1)) (V (F f 2)) p.
(** the surface as a set of points, twice the area of a face, and the sum of these *)
Definition surface (V : nat -> vec3) (F : nat -> nat -> nat) (M : nat) (p : vec3) : Prop := exists f, f < M /\ face_pt V F f p.
Definition tri_area2 (A B C : vec3) : R := norm3 (cross3 (sub3 B A) (sub3 C A)).
Definition area2 (V : nat -> vec3) (F : nat -> nat -> nat) (f : nat) : R := tri_area2 (V (F f 0)) (V (F f 1)) (V (F f 2)).
Definition total_area2 (V : nat -> vec3) (F : nat -> nat -> nat) (M : nat) : R := sumn M (area2 V F).

(** no edge is listed twice *)
Definition once (K : nat) (e : edges) : Prop := forall u u', u < K -> u' < K -> uE e u = uE e u' \/ uE e u = swap (uE e u') -> u = u'.

(** -- triangles -- *)
Ltac ex3v := unfold in_tri, add3, scal3, mid3, X, Y, Zc in *; cbn [fst snd] in *.
Lemma tri_rot A B C p : in_tri A B C p <-> in_tri B C A p.
Proof. split; intros (a & b & c & H1 & H2 & H3 & H4 & ->); [exists b, c, a|exists c, a, b]; repeat split; try lra; apply vec3_eq; unfold add3, scal3, X, Y, Zc; cbn [fst snd]; ring. Qed.
Lemma tri_split A B C p : in_tri A B C p <-> in_tri A B (mid3 B C) p \/ in_tri C A (mid3 B C) p.
Proof.
  split.
  - intros (a & b & c & H1 & H2 & H3 & H4 & ->). destruct (Rle_dec c b).
    + left. exists a, (b - c)%R, (2 * c)%R. repeat split; try lra. apply vec3_eq; unfold add3, scal3, mid3, X, Y, Zc; cbn [fst snd add3 scal3 X Y Zc]; unfold X, Y, Zc; cbn [fst snd]; field.
    + right. exists (c - b)%R, a, (2 * b)%R. repeat split; try lra. apply vec3_eq; unfold add3, scal3, mid3, X, Y, Zc; cbn [fst snd add3 scal3 X Y Zc]; unfold X, Y, Zc; cbn [fst snd]; field.
  - intros [(a & b & c & H1 & H2 & H3 & H4 & ->)|(a & b & c & H1 & H2 & H3 & H4 & ->)].
    + exists a, (b + c / 2)%R, (c / 2)%R. repeat split; try lra. apply vec3_eq; unfold add3, scal3, mid3, X, Y, Zc; cbn [fst snd add3 scal3 X Y Zc]; unfold X, Y, Zc; cbn [fst snd]; field.
    + exists b, (c / 2)%R, (a + c / 2)%R. repeat split; try lra. apply vec3_eq; unfold add3, scal3, mid3, X, Y, Zc; cbn [fst snd add3 scal3 X Y Zc]; unfold X, Y, Zc; cbn [fst snd]; field.
Qed.
Lemma area_rot A B C : tri_area2 A B C = tri_area2 B C A.
Proof. unfold tri_area2. f_equal. apply vec3_eq; unfold cross3, sub3, X, Y, Zc; cbn [fst snd]; ring. Qed.
Lemma norm3_scal s v : (0 <= s)%R -> norm3 (scal3 s v) = (s * norm3 v)%R.
Proof. intros H. unfold norm3. replace (dot3 (scal3 s v) (scal3 s v)) with ((s * s) * dot3 v v)%R by (unfold dot3, scal3, X, Y, Zc; cbn [fst snd]; ring). rewrite sqrt_mult_alt by nra. rewrite sqrt_square; auto. Qed.
(** both halves have half the normal of the whole *)
Lemma area_split A B C : tri_area2 A B (mid3 B C) = (tri_area2 A B C / 2)%R /\ tri_area2 C A (mid3 B C) = (tri_area2 A B C / 2)%R.
Proof.
  unfold tri_area2. split.
  - replace (cross3 (sub3 B A) (sub3 (mid3 B C) A)) with (scal3 (/ 2) (cross3 (sub3 B A) (sub3 C A))) by (apply vec3_eq; unfold cross3, sub3, mid3, scal3, add3, X, Y, Zc; cbn [fst snd]; field). rewrite norm3_scal by lra. field.
  - replace (cross3 (sub3 A C) (sub3 (mid3 B C) C)) with (scal3 (/ 2) (cross3 (sub3 B A) (sub3 C A))) by (apply vec3_eq; unfold cross3, sub3, mid3, scal3, add3, X, Y, Zc; cbn [fst snd]; field). rewrite norm3_scal by lra. field.
Qed.
Lemma mid3_comm A B : mid3 A B = mid3 B A. Proof. apply vec3_eq; unfold mid3, scal3, add3, X, Y, Zc; cbn [fst snd]; ring. Qed.
Lemma face_rot V F f c p : c < 3 -> (face_pt V F f p <-> in_tri (V (F f c)) (V (F f ((c + 1) mod 3))) (V (F f ((c + 2) mod 3))) p).
Proof. intros L. unfold face_pt. assert (c = 0 \/ c = 1 \/ c = 2) as [->|[->| ->]] by lia; cbn -[in_tri]; [tauto|apply tri_rot|]. rewrite (tri_rot _ (V (F f 1))). rewrite (tri_rot (V (F f 1))). tauto. Qed.
Lemma area_face_rot V F f c : c < 3 -> area2 V F f = tri_area2 (V (F f c)) (V (F f ((c + 1) mod 3))) (V (F f ((c + 2) mod 3))).
Proof. intros L. unfold area2. assert (c = 0 \/ c = 1 \/ c = 2) as [->|[->| ->]] by lia; cbn -[tri_area2]; [auto|apply area_rot|]. rewrite (area_rot (V (F f 0))), (area_rot (V (F f 1))). auto. Qed.

(** -- sums -- *)
Lemma sumn_S M g : sumn (S M) g = (sumn M g + g M)%R.
Proof. unfold sumn. rewrite seq_S. cbn [plus]. rewrite sumf_app. unfold sumf at 2. cbn. lra. Qed.
Lemma sumn_two M g g' a b : a < M -> b < M -> a <> b -> (forall f, f < M -> f <> a -> f <> b -> g' f = g f) -> (sumn M g' + g a + g b = sumn M g + g' a + g' b)%R.
Proof.
  intros A B NE E. assert (K : forall k, k <= M -> (sumn k g' + (if a <? k then g a else 0) + (if b <? k then g b else 0) = sumn k g + (if a <? k then g' a else 0) + (if b <? k then g' b else 0))%R).
  { induction k as [|k IH]; intros Hk; [unfold sumn, sumf; cbn; lra|]. rewrite !sumn_S. specialize (IH ltac:(lia)).
    destruct (Nat.eq_dec k a) as [->|Na]; [|destruct (Nat.eq_dec k b) as [->|Nb]].
    - destruct (Nat.ltb_spec a a), (Nat.ltb_spec a (S a)), (Nat.ltb_spec b a), (Nat.ltb_spec b (S a)); try lia; lra.
    - destruct (Nat.ltb_spec b b), (Nat.ltb_spec b (S b)), (Nat.ltb_spec a b), (Nat.ltb_spec a (S b)); try lia; lra.
    - rewrite (E k) by lia. destruct (Nat.ltb_spec a k), (Nat.ltb_spec a (S k)), (Nat.ltb_spec b k), (Nat.ltb_spec b (S k)); try lia; lra. }
  specialize (K M (le_n M)). destruct (Nat.ltb_spec a M), (Nat.ltb_spec b M); try lia. lra.
Qed.

(** -- one step, all facts -- *)
Record step_facts (n m k H i uei : nat) (st st' : state) (v1 v2 : nat) : Prop := {
  sf_omesh : omesh (F st') (m + 2 * S i) (n + S i);
  sf_coh : coherent (F st') (m + 2 * S i) (k + 3 * S i) H (ed st');
  sf_size : size (ed st') = size (ed st);
  sf_end : uE (ed st) uei = (v1, v2) \/ uE (ed st) uei = (v2, v1);
  sf_old : edge (F st) (m + 2 * i) v1 v2 /\ edge (F st) (m + 2 * i) v2 v1;
  sf_uE : forall u, u < k + 3 * i -> u <> uei -> uE (ed st') u = uE (ed st) u;
  sf_once : once (k + 3 * i) (ed st) -> once (k + 3 * S i) (ed st');
  sf_edges : forall x y, x < n + i -> y < n + i -> (edge (F st') (m + 2 * S i) x y <-> edge (F st) (m + 2 * i) x y /\ (x, y) <> (v1, v2) /\ (x, y) <> (v2, v1));
  sf_new : edge (F st') (m + 2 * S i) v1 (n + i) /\ edge (F st') (m + 2 * S i) (n + i) v2 /\ edge (F st') (m + 2 * S i) v2 (n + i) /\ edge (F st') (m + 2 * S i) (n + i) v1;
  sf_V : V st' = set1 (V st) (n + i) (mid3 (V st v1) (V st v2));
  sf_high : high st' = set1 (high st) (n + i) ((high st v1 + high st v2) / 2)%R; sf_low : low st' = set1 (low st) (n + i) ((low st v1 + low st v2) / 2)%R;
  sf_surface : forall p, surface (V st') (F st') (m + 2 * S i) p <-> surface (V st) (F st) (m + 2 * i) p;
  sf_area : total_area2 (V st') (F st') (m + 2 * S i) = total_area2 (V st) (F st) (m + 2 * i) }.
Lemma step_all n m k H i uei st : omesh (F st) (m + 2 * i) (n + i) -> coherent (F st) (m + 2 * i) (k + 3 * i) H (ed st) -> m + 2 * S i <= H -> uei < k + 3 * i -> size (ed st) uei = 2 ->
  (forall u, k + 3 * i <= u -> size (ed st) u = 2) -> exists v1 v2, step_facts n m k H i uei st (split_one n m k H i uei st) v1 v2.
Proof.
  intros HO HC HH HU HS HZ. assert (HH' : m + 2 * i + 2 <= H) by lia. destruct (co_two _ _ _ _ _ HC uei HU HS) as (f0 & c0 & f1 & c1 & Lf0 & Lc0 & Lf1 & Lc1 & S0 & S1 & E1 & HR).
  destruct (co_one _ _ _ _ _ HC uei HU) as (f0' & c0' & Lf0' & Lc0' & S0' & E0 & UE). rewrite S0 in S0'. apply enc_inj in S0'; [|lia|lia]. destruct S0' as (<- & <-).
  pose (st' := split_one n m k H i uei st). assert (HST : st' = split_one n m k H i uei st) by reflexivity. clearbody st'. rewrite <- HST.
  set (a' := (c0 + 1) mod 3). set (a'' := (c0 + 2) mod 3). set (b' := (c1 + 1) mod 3). set (b'' := (c1 + 2) mod 3).
  pose (v1 := F st f0 a'). pose (v2 := F st f0 a''). pose (v4 := F st f0 c0). pose (v3 := F st f1 c1).
  pose proof (Fn n m k H i uei st HO HH' HU HS f0 c0 f1 c1 Lf0 Lc0 Lf1 Lc1 S0 S1 E0 E1 HR a' a'' b' b'' v1 v2 v3 v4 eq_refl eq_refl eq_refl eq_refl eq_refl eq_refl eq_refl eq_refl st' HST) as FN.
  pose proof (step_omesh n m k H i uei st HO HH' HU HS f0 c0 f1 c1 Lf0 Lc0 Lf1 Lc1 S0 S1 E0 E1 HR a' a'' b' b'' v1 v2 v3 v4 eq_refl eq_refl eq_refl eq_refl eq_refl eq_refl eq_refl eq_refl st' HST) as OM.
  pose proof (step_coherent n m k H i uei st HO HC HH' HU HS HZ f0 c0 f1 c1 Lf0 Lc0 Lf1 Lc1 S0 S1 E0 E1 HR a' a'' b' b'' v1 v2 v3 v4 eq_refl eq_refl eq_refl eq_refl eq_refl eq_refl eq_refl eq_refl st' HST) as CO.
  pose proof (step_edges n m k H i uei st HO HH' HU HS f0 c0 f1 c1 Lf0 Lc0 Lf1 Lc1 S0 S1 E0 E1 HR a' a'' b' b'' v1 v2 v3 v4 eq_refl eq_refl eq_refl eq_refl eq_refl eq_refl eq_refl eq_refl st' HST) as ED.
  pose proof (Un n m k H i uei st HH' HU HS f0 c0 f1 c1 Lf0 Lc0 Lf1 Lc1 S0 S1 E0 E1 a' a'' b' b'' v1 v2 v3 v4 eq_refl eq_refl eq_refl eq_refl eq_refl eq_refl eq_refl eq_refl st' HST) as UN.
  pose proof (v21 st f0 c0 f1 c1 HR) as (VB1 & VB2). fold a' a'' b' b'' in VB1, VB2. fold v1 in VB2. fold v2 in VB1.
  pose proof (vs n m i st HO f0 c0 f1 c1 Lf0 Lc0 Lf1 Lc1 HR) as VS. fold a' a'' in VS. fold v1 v2 v3 v4 in VS. destruct VS as (Z1 & Z2 & Z3 & Z4 & Z5 & Z6 & L1 & L2 & L3 & L4).
  pose proof (f01 n m H i uei st HO f0 c0 f1 c1 Lc0 Lf1 Lc1 S1 E1 HR) as NE.
  assert (HF0 : he (F st) f0 c0 = (v1, v2)) by reflexivity. assert (HF1 : he (F st) f1 c1 = (v2, v1)) by (unfold he; fold b' b''; rewrite VB1, VB2; reflexivity).
  assert (EM : m + 2 * S i = m + 2 * i + 2) by lia. assert (EK : k + 3 * S i = k + 3 * i + 3) by lia. assert (EN : n + S i = n + i + 1) by lia.
  assert (EV : V st' = set1 (V st) (n + i) (mid3 (V st v1) (V st v2))) by (rewrite HST; unfold split_one; cbn [V]; rewrite S0, !enc_mod, !enc_div by lia; reflexivity).
  assert (Vo : forall v, v < n + i -> V st' v = V st v) by (intros v Hv; rewrite EV; unfold set1; destruct (Nat.eqb_spec v (n + i)); [lia|auto]).
  assert (Vw : V st' (n + i) = mid3 (V st v1) (V st v2)) by (rewrite EV; unfold set1; rewrite Nat.eqb_refl; auto).
  destruct FN as (A1 & A2 & A3 & A4 & A5 & A6 & A7 & A8 & A9 & A10 & A11 & A12 & AO).
  assert (OT : forall f, f < m + 2 * i -> f <> f0 -> f <> f1 -> forall c, c < 3 -> V st' (F st' f c) = V st (F st f c)) by (intros f Lf X1 X2 c Lc; rewrite AO by auto; apply Vo; apply (om_range _ _ _ HO); auto).
  exists v1, v2. rewrite <- EM in OM, CO. rewrite <- EK in CO. rewrite <- EN in OM. constructor.
  - exact OM.
  - exact CO.
  - rewrite HST. reflexivity.
  - destruct UE as [UE|UE]; rewrite UE; [left|right]; reflexivity.
  - split; [exists f0, c0|exists f1, c1]; auto.
  - destruct UN as (_ & _ & _ & _ & UO). exact UO.
  - intros ON u u' Lu Lu' E. assert (LE : forall x, x < k + 3 * i -> fst (uE (ed st) x) < n + i /\ snd (uE (ed st) x) < n + i).
    { intros x Lx. destruct (co_one _ _ _ _ _ HC x Lx) as (f & c & Lf & Lc & _ & _ & Ex). destruct (mod3 c Lc) as (M1 & M2 & _). pose proof (om_range _ _ _ HO f _ Lf M1). pose proof (om_range _ _ _ HO f _ Lf M2). destruct Ex as [Ex|Ex]; rewrite Ex; unfold swap, he; cbn [fst snd]; lia. }
    destruct UN as (U0 & U1 & U2 & U3 & UO). set (w := n + i) in *. set (K := k + 3 * i) in *.
    assert (CL : forall x, x < k + 3 * S i -> (x < K /\ x <> uei /\ uE (ed st') x = uE (ed st) x) \/ (exists y, In (x, y) [(uei, v1); (K, v3); (K + 1, v4); (K + 2, v2)] /\ uE (ed st') x = (w, y))).
    { intros x Lx. assert (x = uei \/ x = K \/ x = K + 1 \/ x = K + 2 \/ (x < K /\ x <> uei)) as [->|[->|[->|[->|(X1 & X2)]]]] by (clear -Lx HU; subst K; lia); [right; exists v1|right; exists v3|right; exists v4|right; exists v2|left; auto]; (split; [cbn [In]; tauto|auto]). }
    destruct (CL u Lu) as [(P1 & P2 & P3)|(y & P2 & P3)], (CL u' Lu') as [(R1 & R2 & R3)|(y' & R2 & R3)]; rewrite P3, R3 in E.
    + apply ON; auto.
    + exfalso. pose proof (LE u P1) as Q. unfold swap in E. cbn [fst snd] in E. destruct E as [E|E]; rewrite E in Q; cbn [fst snd] in Q; clear -Q; lia.
    + exfalso. pose proof (LE u' R1) as Q. unfold swap in E. destruct E as [E|E]; [rewrite <- E in Q|injection E as Ea Eb; rewrite <- Ea, <- ?Eb in Q]; cbn [fst snd] in Q; clear -Q; lia.
    + assert (EY : y = y') by (unfold swap in E; cbn [fst snd] in E; destruct E as [E|E]; congruence).
      clear -EY P2 R2 Z1 Z2 Z3 Z4 Z5 Z6. cbn [In] in P2, R2. destruct P2 as [P|[P|[P|[P|[]]]]], R2 as [R|[R|[R|[R|[]]]]]; injection P as; injection R as; congruence.
  - intros x y Hx Hy. unfold edge. rewrite EM, ED. split; [intros [Q|Q]; [auto|]|auto]. exfalso. cbn [In] in Q. decompose [or] Q; try tauto; match goal with X : (_, _) = _ |- _ => injection X as; lia end.
  - unfold edge. rewrite EM. repeat split; apply ED; right; cbn [In]; auto 10.
  - exact EV.
  - rewrite HST; unfold split_one; cbn [high]; rewrite S0, !enc_mod, !enc_div by lia; reflexivity.
  - rewrite HST; unfold split_one; cbn [low]; rewrite S0, !enc_mod, !enc_div by lia; reflexivity.
  - intros p. rewrite EM.
    assert (P0 : face_pt (V st) (F st) f0 p <-> face_pt (V st') (F st') f0 p \/ face_pt (V st') (F st') (m + 2 * i + 1) p).
    { rewrite (face_rot _ (F st) f0 c0), (face_rot _ (F st') f0 c0) by auto. fold a' a''. rewrite A1, A2, A3. unfold face_pt at 1. rewrite A10, A11, A12, Vw, !Vo by auto. fold v1 v2 v4. apply tri_split. }
    assert (P1 : face_pt (V st) (F st) f1 p <-> face_pt (V st') (F st') f1 p \/ face_pt (V st') (F st') (m + 2 * i) p).
    { rewrite (face_rot _ (F st) f1 c1), (face_rot _ (F st') f1 c1) by auto. fold b' b''. rewrite A4, A5, A6, VB1, VB2. unfold face_pt at 1. rewrite A7, A8, A9, Vw, !Vo by auto. fold v3. rewrite tri_split.
      rewrite (mid3_comm (V st v1)). rewrite (tri_rot (V st v3) (mid3 _ _)), (tri_rot (mid3 _ _) (V st v1)). rewrite (tri_rot (V st v2) (mid3 _ _)), (tri_rot (mid3 _ _) (V st v3)), (tri_rot (V st v3) (V st v2)), (tri_rot (V st v2)), (tri_rot (mid3 _ _) (V st v3) (V st v2)). tauto. }
    split.
    + intros (f & Lf & FP). assert (f = f0 \/ f = f1 \/ f = m + 2 * i \/ f = m + 2 * i + 1 \/ (f < m + 2 * i /\ f <> f0 /\ f <> f1)) as [->|[->|[->|[->|(X1 & X2 & X3)]]]] by lia.
      * exists f0. tauto. * exists f1. tauto. * exists f1. tauto. * exists f0. tauto.
      * exists f. split; [auto|]. unfold face_pt in *. rewrite !OT in FP by (auto; lia). auto.
    + intros (f & Lf & FP). destruct (Nat.eq_dec f f0) as [->|X1]; [|destruct (Nat.eq_dec f f1) as [->|X2]].
      * apply P0 in FP. destruct FP as [FP|FP]; [exists f0|exists (m + 2 * i + 1)]; (split; [lia|auto]).
      * apply P1 in FP. destruct FP as [FP|FP]; [exists f1|exists (m + 2 * i)]; (split; [lia|auto]).
      * exists f. split; [lia|]. unfold face_pt in *. rewrite !OT by (auto; lia). auto.
  - rewrite EM. unfold total_area2. replace (m + 2 * i + 2) with (S (S (m + 2 * i))) by lia. rewrite !sumn_S.
    pose proof (sumn_two (m + 2 * i) (area2 (V st) (F st)) (area2 (V st') (F st')) f0 f1 Lf0 Lf1 NE) as SU. cbv beta in SU. 
    assert (SU' : (sumn (m + 2 * i) (area2 (V st') (F st')) + area2 (V st) (F st) f0 + area2 (V st) (F st) f1 = sumn (m + 2 * i) (area2 (V st) (F st)) + area2 (V st') (F st') f0 + area2 (V st') (F st') f1)%R) by (apply SU; intros f Lf X1 X2; unfold area2; rewrite !OT by (auto; lia); reflexivity).
    destruct (area_split (V st v4) (V st v1) (V st v2)) as (B1 & B2). destruct (area_split (V st v3) (V st v2) (V st v1)) as (B3 & B4).
    assert (Q1 : area2 (V st) (F st) f0 = tri_area2 (V st v4) (V st v1) (V st v2)) by (rewrite (area_face_rot _ _ f0 c0) by auto; reflexivity).
    assert (Q2 : area2 (V st) (F st) f1 = tri_area2 (V st v3) (V st v2) (V st v1)) by (rewrite (area_face_rot _ _ f1 c1) by auto; fold b' b''; rewrite VB1, VB2; reflexivity).
    assert (Q3 : area2 (V st') (F st') f0 = tri_area2 (V st v4) (V st v1) (mid3 (V st v1) (V st v2))) by (rewrite (area_face_rot _ _ f0 c0) by auto; fold a' a''; rewrite A1, A2, A3, Vw, !Vo by auto; reflexivity).
    assert (Q4 : area2 (V st') (F st') f1 = tri_area2 (V st v1) (V st v3) (mid3 (V st v2) (V st v1))) by (rewrite (area_face_rot _ _ f1 c1) by auto; fold b' b''; rewrite A4, A5, A6, Vw, !Vo by auto; rewrite (mid3_comm (V st v1)), (area_rot (V st v3)), (area_rot (mid3 _ _)); reflexivity).
    assert (Q5 : area2 (V st') (F st') (m + 2 * i) = tri_area2 (V st v3) (V st v2) (mid3 (V st v2) (V st v1))) by (unfold area2; rewrite A7, A8, A9, Vw, !Vo by auto; rewrite (mid3_comm (V st v1)), (area_rot (V st v2)), (area_rot (mid3 _ _)); reflexivity).
    assert (Q6 : area2 (V st') (F st') (S (m + 2 * i)) = tri_area2 (V st v2) (V st v4) (mid3 (V st v1) (V st v2))) by (replace (S (m + 2 * i)) with (m + 2 * i + 1) by lia; unfold area2; rewrite A10, A11, A12, Vw, !Vo by auto; reflexivity).
    lra.
Qed.
