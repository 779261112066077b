(** C73: linear_elasticity is one implicit Euler step of linear elasticity.  Vocabulary of P_Elast.v (jacobian, density, weight, rigid, nondegenerate). *)
From Coq Require Import List Arith ZArith Lia Bool Reals Lra Psatz.
From Verif Require Import PyExn MatModel NumpyModel TopoSpec TopoModel Vec GeomModel GeomSpec MatProofs GeomProofs Geom2Proofs Subdiv3Proofs ElastModel ElastProofs BiharmProofs Biharm2Proofs SolveModel SolveProofs P_Solve P_Elast ElDynModel ElDynProofs.
From Verif Require GpProofs P_Biharm.
Import ListNotations.
Open Scope R_scope.

(** -- specification -- *)
(** the n x n mass matrix in use: the caller's, or the lumped Voronoi one *)
Definition mass_in_use (V : Z -> vec2) (n : nat) (F : list tri) (mass : option mat) (M0 : mat) : Prop :=
  match mass with Some M => M0 = M | None => exists Mt, massmatrix (fun i => row_of2 (V i)) (Z.of_nat n) F Voronoi = Ok Mt /\ M0 = of_trips n n Mt end.
(** mass inner product of two displacement vectors (x components first, then y components) *)
Definition minner (n : nat) (M0 : mat) (u w : nat -> R) : R :=
  sumn n (fun i => sumn n (fun j => at_ M0 i j * (u i * w j + u (n + i)%nat * w (n + j)%nat))).
Definition mass_psd (n : nat) (M0 : mat) : Prop :=
  nr M0 = n /\ nc M0 = n /\ (forall i j, (i < n)%nat -> (j < n)%nat -> at_ M0 i j = at_ M0 j i) /\ forall u, 0 <= minner n M0 u u.
Definition mass_pd (n : nat) (M0 : mat) : Prop := mass_psd n M0 /\ forall u, minner n M0 u u = 0 -> forall i, (i < 2 * n)%nat -> u i = 0.
(** component i of a displacement array stacked as x's, then y's; a missing array is zero *)
Definition comp (n : nat) (U : list vec2) (i : nat) : R := if Nat.ltb i n then fst (nth i U (0, 0)) else snd (nth (i - n) U (0, 0)).
Definition ocomp (n : nat) (U : option (list vec2)) (i : nat) : R := match U with Some u => comp n u i | None => 0 end.
(** where the body would be after the step without elasticity *)
Definition free_flight (n : nat) (dt : R) (U0 : list vec2) (Ud0 fext : option (list vec2)) (i : nat) : R := comp n U0 i + dt * ocomp n Ud0 i + dt ^ 2 * ocomp n fext i.
(** elastic bilinear form *)
Definition elastic (V : Z -> vec2) (F : list tri) (volumes : option (list R)) (Kb mu : R) (D D' : nat -> vec2 * vec2) : R :=
  sumn (length F) (fun r => weight V F volumes r * density (Kb - 2 / 3 * mu) mu (D r) (D' r)).
(** degrees of freedom of prescribed vertices *)
Definition pinned (n : nat) (bb : option (list Z)) (i : nat) : Prop := exists b, In b (fixed_list bb) /\ (i = Z.to_nat b \/ i = (n + Z.to_nat b)%nat).
(** Hooke's law: (s11, s22, s12) of a displacement Jacobian *)
Definition stress (l mu : R) (D : vec2 * vec2) : R * R * R :=
  let e11 := fst (fst D) in let e22 := snd (snd D) in let e12 := (snd (fst D) + fst (snd D)) / 2 in
  (l * (e11 + e22) + 2 * mu * e11, l * (e11 + e22) + 2 * mu * e22, 2 * mu * e12).
Definition von_mises (s : R * R * R) : R := let '(s11, s22, s12) := s in sqrt (s11 ^ 2 - s11 * s22 + s22 ^ 2 + 3 * s12 ^ 2).
(** meaningful input *)
Record input_ok (V : Z -> vec2) (n : nat) (F : list tri) (U0 : list vec2) (Ud0 fext : option (list vec2)) (Kb mu : R) (volumes : option (list R)) (mass : option mat) (M0 : mat) : Prop := {
  i_valid : valid (Z.of_nat n) F; i_nd : nondegenerate V F; i_many : (n <= 2 * length F)%nat;
  i_vol : match volumes with None => True | Some v => length v = length F /\ Forall (fun x => 0 <= x) v end;
  i_mu : 0 <= mu; i_K : 0 <= Kb + mu / 3;
  i_mass : mass_in_use V n F mass M0; i_psd : mass_psd n M0;
  i_U0 : length U0 = n; i_Ud : match Ud0 with Some u => length u = n | None => True end; i_f : match fext with Some u => length u = n | None => True end }.

(** -- proofs -- *)
Lemma flatF_comp n U i : length U = n -> (i < n + n)%nat -> nth i (flatF U) 0 = comp n U i.
Proof.
  unfold vec2. intros L H. unfold flatF, comp, vec2. destruct (Nat.ltb_spec i n).
  - rewrite app_nth1 by (rewrite map_length; lia). change 0 with (fst (0, 0)). apply (map_nth fst).
  - rewrite app_nth2 by (rewrite map_length; lia). rewrite map_length, L. change 0 with (snd (0, 0)). apply (map_nth snd).
Qed.
Lemma flatF_len U : length (flatF U) = (length U + length U)%nat.
Proof. unfold flatF. rewrite app_length, !map_length. auto. Qed.
Lemma comp_rep n i : comp n (repeat (0, 0) n) i = 0.
Proof.
  assert (E : forall j, nth j (repeat ((0, 0) : vec2) n) (0, 0) = (0, 0)) by (intros j; destruct (Nat.lt_ge_cases j n); [apply nth_repeat|apply nth_overflow; rewrite repeat_length; auto]).
  unfold comp. rewrite !E. destruct (Nat.ltb i n); auto.
Qed.
Lemma nth_vadd a b i : length a = length b -> (i < length a)%nat -> nth i (map (fun p => fst p + snd p) (combine a b)) 0 = nth i a 0 + nth i b 0.
Proof.
  intros L H. rewrite (nth_indep _ 0 ((fun p => fst p + snd p) (0, 0))) by (rewrite map_length, combine_length; lia). rewrite (map_nth (fun p => fst p + snd p)), combine_nth by auto. auto.
Qed.
Lemma nth_scale c l i : nth i (map (Rmult c) l) 0 = c * nth i l 0.
Proof. replace 0 with (c * 0) at 1 by ring. apply (map_nth (Rmult c)). Qed.
Lemma nth_mapseq (f : nat -> R) k i : (i < k)%nat -> nth i (map f (seq 0 k)) 0 = f i.
Proof. intros H. rewrite (nth_indep _ 0 (f 0%nat)) by (rewrite map_length, seq_length; auto). rewrite (map_nth f), seq_nth by auto. auto. Qed.

(** the assembled system *)
Lemma assembled V n F U0 Ud0 fext Kb mu volumes mass M0 dt : input_ok V n F U0 Ud0 fext Kb mu volumes mass M0 ->
  exists KK C S Ar M A s1 s2 B CS, linear_elasticity_stiffness V n F Kb mu volumes mass = Ok (KK, C, S, Ar, M)
   /\ madd M (mscale (dt ^ 2) KK) = Ok A /\ nr A = (n + n)%nat /\ nc A = (n + n)%nat
   /\ vadd (map (Rmult (dt ^ 2)) (flatF (match fext with Some f => f | None => repeat (0, 0) n end))) (flatF U0) = Ok s1
   /\ vadd s1 (map (Rmult dt) (flatF (match Ud0 with Some u => u | None => repeat (0, 0) n end))) = Ok s2
   /\ mulvec M s2 = Ok B /\ length B = (n + n)%nat
   /\ mul C S = Ok CS /\ nc CS = (n + n)%nat
   /\ (forall x y, B2 (n + n) (at_ A) x y = minner n M0 x y + dt ^ 2 * B2 (n + n) (at_ KK) x y)
   /\ (forall x, sumn (n + n) (fun i => nth i B 0 * x i) = minner n M0 x (free_flight n dt U0 Ud0 fext))
   /\ (forall u w Du Dw, jacobian V n F u Du -> jacobian V n F w Dw -> B2 (n + n) (at_ KK) u w = elastic V F volumes Kb mu Du Dw)
   /\ (forall i j, (i < n + n)%nat -> (j < n + n)%nat -> at_ A i j = at_ A j i)
   /\ (forall u, 0 <= B2 (n + n) (at_ KK) u u)
   /\ (forall U D r, length U = (n + n)%nat -> jacobian V n F (fun i => nth i U 0) D -> (r < length F)%nat ->
        exists fs, mulvec CS U = Ok fs /\ (nth r fs 0, nth (length F + r) fs 0, nth (2 * length F + r) fs 0) = stress (Kb - 2 / 3 * mu) mu (D r)).
Proof.
  intros [Va ND Hn HV Hmu HK HM (R1 & R2 & SY & PS) L0 LU LF].
  assert (HV' : match volumes with None => True | Some v => length v = length F end) by (destruct volumes; tauto).
  destruct (elast_full V n F Kb mu volumes mass Va Hn HV') as (Gr & KK & C & S & Ar & M & M0' & QG & QS & RK & CK & QM & EM & RC & CC & RS & CSS & SE & CE & KE).
  assert (M0' = M0). { unfold mass_in_use in HM. destruct mass as [Mm|]; [congruence|]. destruct HM as (Mt & E & ->). rewrite E in QM. cbn [bind] in QM. congruence. } subst M0'.
  destruct (C55_elastic_energy_partial V n F Kb mu volumes mass Va ND Hn HV') as (KK' & C' & S' & A' & M' & QS' & _ & _ & FORM & KSY & _ & KPS).
  rewrite QS in QS'. injection QS' as <- <- <- <- <-. replace (2 * n)%nat with (n + n)%nat in * by lia.
  assert (RM : nr M = (n + n)%nat) by (subst M; cbn; lia). assert (CM : nc M = (n + n)%nat) by (subst M; cbn; lia).
  set (fe := match fext with Some f => f | None => repeat (0, 0) n end). set (ud := match Ud0 with Some f => f | None => repeat (0, 0) n end).
  assert (Lfe : length fe = n) by (unfold fe; destruct fext; [auto|apply repeat_length]). assert (Lud : length ud = n) by (unfold ud; destruct Ud0; [auto|apply repeat_length]).
  set (s1 := map (fun p => fst p + snd p) (combine (map (Rmult (dt ^ 2)) (flatF fe)) (flatF U0))).
  assert (E1 : vadd (map (Rmult (dt ^ 2)) (flatF fe)) (flatF U0) = Ok s1). { unfold vadd. rewrite map_length, !flatF_len, Lfe, L0, Nat.eqb_refl. auto. }
  assert (Ls1 : length s1 = (n + n)%nat). { unfold s1. rewrite map_length, combine_length, map_length, !flatF_len. lia. }
  set (s2 := map (fun p => fst p + snd p) (combine s1 (map (Rmult dt) (flatF ud)))).
  assert (E2 : vadd s1 (map (Rmult dt) (flatF ud)) = Ok s2). { unfold vadd. rewrite map_length, !flatF_len, Ls1, Lud, Nat.eqb_refl. auto. }
  assert (Ls2 : length s2 = (n + n)%nat). { unfold s2. rewrite map_length, combine_length, map_length, !flatF_len. lia. }
  assert (NS : forall i, (i < n + n)%nat -> nth i s2 0 = free_flight n dt U0 Ud0 fext i).
  { intros i Hi. unfold s2. rewrite nth_vadd by (rewrite ?map_length, ?flatF_len; lia). unfold s1. rewrite nth_vadd by (rewrite ?map_length, ?flatF_len; lia). rewrite !nth_scale, !(flatF_comp n) by auto.
    unfold free_flight, fe, ud. destruct fext, Ud0; cbn [ocomp]; rewrite ?comp_rep; ring. }
  exists KK, C, S, Ar, M.
  unfold madd. cbn [mscale nr nc at_]. rewrite RM, CM, RK, CK, Nat.eqb_refl. cbn [andb].
  exists (mkmat (n + n) (n + n) (fun i j => at_ M i j + dt ^ 2 * at_ KK i j)), s1, s2. unfold mulvec at 1. rewrite CM, Ls2, RM, Nat.eqb_refl. eexists. unfold mul. rewrite CC, RS, Nat.eqb_refl. eexists.
  split; [exact QS|]. split; [reflexivity|]. split; [reflexivity|]. split; [reflexivity|]. split; [exact E1|]. split; [exact E2|]. split; [reflexivity|].
  split; [rewrite map_length, seq_length; auto|]. split; [reflexivity|]. split; [exact CSS|].
  assert (MB : forall x y, B2 (n + n) (at_ M) x y = minner n M0 x y) by (intros x y; subst M; apply bd_B2; auto).
  split; [|split; [|split; [|split; [|split]]]].
  - intros x y. cbn [at_]. rewrite B2_plus, B2_scalQ, MB. auto.
  - intros x. rewrite <- MB. unfold B2. apply sumn_ext. intros i Hi. rewrite nth_mapseq by auto. rewrite Rmult_comm. f_equal. apply sumn_ext. intros j Hj. rewrite NS by auto. auto.
  - intros u w Du Dw Ju Jw. apply FORM; auto.
  - intros i j Hi Hj. cbn [at_]. rewrite (KSY i j Hi Hj). f_equal. subst M. unfold block_diag2. cbn [at_]. rewrite R1, R2. ltbs; auto; apply SY; lia.
  - intros u. apply KPS; auto. intros r Hr. unfold weight. destruct volumes as [v|].
    + destruct HV as (_ & HF). rewrite Forall_forall in HF. destruct (Nat.lt_ge_cases r (length v)); [apply HF, nth_In; auto|rewrite nth_overflow by auto; lra].
    + apply (weight_default_nonneg V F r).
  - intros U D r LU2 J Hr. destruct (nth_error F r) as [t|] eqn:Et; [|apply nth_error_None in Et; lia]. set (m := length F) in *.
    unfold mulvec. cbn [nr nc at_]. rewrite CSS, LU2, Nat.eqb_refl. eexists. split; [reflexivity|]. rewrite RC, !nth_mapseq by lia.
    destruct (strain_of V n F Gr Va QG ND _ D r t J Et) as (U1 & U2 & U3). fold m in U1, U2, U3. set (s := smat n m (fun r j => entry Gr (Z.of_nat r) (Z.of_nat j))) in *.
    assert (ROW : forall b, (b < 3)%nat -> sumn (n + n) (fun j => sumn (m + m + m) (fun k => at_ C (b * m + r) k * at_ S k j) * nth j U 0)
       = cmat (Kb - 2 / 3 * mu) mu b 0 * fst (fst (D r)) + cmat (Kb - 2 / 3 * mu) mu b 1 * snd (snd (D r)) + cmat (Kb - 2 / 3 * mu) mu b 2 * (snd (fst (D r)) + fst (snd (D r)))).
    { intros b Hb. rewrite <- U1, <- U2, <- U3. rewrite <- !sumn_scal, <- !sumn_plus. apply sumn_ext. intros j Hj. rewrite !sumn_app.
      rewrite (sumn_ext m (fun k => at_ C (b * m + r) k * at_ S k j) (fun k => at_ S k j * (if Nat.eqb k r then cmat (Kb - 2 / 3 * mu) mu b 0 else 0))).
      2:{ intros k Hk. replace k with (0 * m + k)%nat at 1 by lia. rewrite CE by lia. rewrite Nat.eqb_sym. ring. }
      rewrite (sumn_ext m (fun k => at_ C (b * m + r) (m + k)%nat * at_ S (m + k)%nat j) (fun k => at_ S (m + k)%nat j * (if Nat.eqb k r then cmat (Kb - 2 / 3 * mu) mu b 1 else 0))).
      2:{ intros k Hk. replace (m + k)%nat with (1 * m + k)%nat at 1 by lia. rewrite CE by lia. rewrite Nat.eqb_sym. ring. }
      rewrite (sumn_ext m (fun k => at_ C (b * m + r) (m + m + k)%nat * at_ S (m + m + k)%nat j) (fun k => at_ S (m + m + k)%nat j * (if Nat.eqb k r then cmat (Kb - 2 / 3 * mu) mu b 2 else 0))).
      2:{ intros k Hk. replace (m + m + k)%nat with (2 * m + k)%nat at 1 by lia. rewrite CE by lia. rewrite Nat.eqb_sym. ring. }
      rewrite !pick with (f := fun k => at_ S k j) by auto. rewrite !pick with (f := fun k => at_ S (m + k)%nat j) by auto. rewrite !pick with (f := fun k => at_ S (m + m + k)%nat j) by auto.
      rewrite !SE by lia. unfold s. ring. }
    pose proof (ROW 0%nat ltac:(lia)) as W0. pose proof (ROW 1%nat ltac:(lia)) as W1. pose proof (ROW 2%nat ltac:(lia)) as W2.
    replace (0 * m + r)%nat with r in W0 by lia. replace (1 * m + r)%nat with (m + r)%nat in W1 by lia.
    rewrite W0, W1, W2. unfold cmat, stress. cbn. f_equal; [f_equal|]; try ring. field.
Qed.

Lemma minner_B2 n M0 : mass_psd n M0 -> forall x y, minner n M0 x y = B2 (n + n) (at_ (block_diag2 M0 M0)) x y.
Proof. intros (R1 & R2 & _) x y. symmetry. apply bd_B2; auto. Qed.
Lemma minner_sym n M0 : mass_psd n M0 -> forall x y, minner n M0 x y = minner n M0 y x.
Proof.
  intros H x y. rewrite !(minner_B2 n M0 H). apply B2_sym. destruct H as (R1 & R2 & SY & _). intros i j Hi Hj. unfold block_diag2. cbn [at_]. rewrite R1, R2. ltbs; auto; apply SY; lia.
Qed.
Lemma minner_sub n M0 : mass_psd n M0 -> forall x y z, minner n M0 x (fun i => y i - z i) = minner n M0 x y - minner n M0 x z.
Proof.
  intros H x y z. rewrite !(minner_B2 n M0 H). rewrite (B2_ext (n + n) _ x _ x (fun i => y i + (-1) * z i)) by (intros; auto; ring). rewrite B2_addr, B2_scalr. ring.
Qed.
Lemma minner_ext n M0 x y x' y' : (forall i, (i < n + n)%nat -> x i = x' i) -> (forall i, (i < n + n)%nat -> y i = y' i) -> minner n M0 x y = minner n M0 x' y'.
Proof. intros H G. apply sumn_ext. intros i Hi. apply sumn_ext. intros j Hj. rewrite !H, !G by lia. auto. Qed.

Definition bb_ok (n : nat) (bb : option (list Z)) : Prop := Forall (fun b => (0 <= b < Z.of_nat n)%Z) (fixed_list bb).
Lemma stack_pinned n bb bc k y : bb_ok n bb -> stack_constraints n bb bc = Ok (k, y) -> forall z, In z (fixed_list k) -> pinned n bb (Z.to_nat z).
Proof.
  intros HB E z I. unfold bb_ok in HB. rewrite Forall_forall in HB. destruct bb as [b|].
  - destruct bc as [c|]; [|discriminate]. cbn in E. injection E as <- <-. cbn [fixed_list] in *. apply in_app_or in I as [I|I]; [exists z; auto|]. apply in_map_iff in I as (b0 & <- & I). exists b0. split; auto. right. specialize (HB _ I). lia.
  - destruct bc; cbn in E; injection E as <- <-; destruct I.
Qed.
Lemma prescribed n b c u : Forall (fun b => (0 <= b < Z.of_nat n)%Z) b -> length c = length b ->
  honours_k (Some (b ++ map (fun i => (i + Z.of_nat n)%Z) b)) (AVec (map fst c ++ map snd c)) 0 u ->
  forall j z p, nth_error b j = Some z -> nth_error c j = Some p -> u (Z.to_nat z) = fst p /\ u (n + Z.to_nat z)%nat = snd p.
Proof.
  unfold vec2. intros F L H j z p Ez Ep. unfold honours_k in H. cbn [fixed_list value] in H. rewrite Forall_forall in F. pose proof (F z (nth_error_In _ _ Ez)) as Bz.
  assert (Lj : (j < length b)%nat) by (apply nth_error_Some; congruence). split.
  - rewrite (H j z) by (rewrite nth_error_app1 by auto; auto). rewrite app_nth1 by (rewrite map_length; lia). rewrite (nth_indep _ 0 (fst p)) by (rewrite map_length; lia). rewrite (map_nth fst). f_equal. apply nth_error_nth. auto.
  - replace (n + Z.to_nat z)%nat with (Z.to_nat (z + Z.of_nat n)) by lia. rewrite (H (length b + j)%nat (z + Z.of_nat n)%Z).
    + rewrite app_nth2; rewrite map_length; [|lia]. replace (length b + j - length c)%nat with j by lia. rewrite (nth_indep _ 0 (snd p)) by (rewrite map_length; lia). rewrite (map_nth snd). f_equal. apply nth_error_nth. auto.
    + rewrite nth_error_app2 by lia. replace (length b + j - length b)%nat with j by lia. apply (map_nth_error (fun i => (i + Z.of_nat n)%Z)). auto.
Qed.

(** one time step: prescribed displacements are met, the implicit Euler equation
       M (U - U0 - dt*Ud0 - dt^2*f) + dt^2 K U = 0
    holds in weak form against every virtual displacement w that leaves the prescribed vertices alone, and the reported stress is the
    von Mises stress of Hooke's law divided by sqrt 2 *)
Theorem C73_step : forall splu garbage V n F U0 dt bb bc Ud0 fext Kb mu volumes mass M0 U sv, solver_ok splu ->
  input_ok V n F U0 Ud0 fext Kb mu volumes mass M0 -> bb_ok n bb -> (forall b c, bb = Some b -> bc = Some c -> length c = length b) ->
  linear_elasticity splu garbage V n F U0 dt bb bc Ud0 fext Kb mu volumes mass = Ok (U, sv) ->
  length U = (2 * n)%nat
  /\ (forall b c j z p, bb = Some b -> bc = Some c -> nth_error b j = Some z -> nth_error c j = Some p -> nth (Z.to_nat z) U 0 = fst p /\ nth (n + Z.to_nat z) U 0 = snd p)
  /\ (forall w Dw DU, jacobian V n F w Dw -> jacobian V n F (fun i => nth i U 0) DU -> (forall i, pinned n bb i -> w i = 0) ->
       minner n M0 w (fun i => nth i U 0 - free_flight n dt U0 Ud0 fext i) + dt ^ 2 * elastic V F volumes Kb mu Dw DU = 0)
  /\ length sv = length F
  /\ (forall DU r, jacobian V n F (fun i => nth i U 0) DU -> (r < length F)%nat -> nth r sv 0 = von_mises (stress (Kb - 2 / 3 * mu) mu (DU r)) / sqrt 2).
Proof.
  intros splu garbage V n F U0 dt bb bc Ud0 fext Kb mu volumes mass M0 U sv SO IN HB HL H.
  destruct (assembled V n F U0 Ud0 fext Kb mu volumes mass M0 dt IN) as (KK & C & S & Ar & M & A & s1 & s2 & B & CS & E1 & E2 & RA & CA & E3 & E4 & E5 & LB & E6 & CCS & AB & BB & KB & ASY & KP & ST).
  unfold linear_elasticity in H. destruct (stack_constraints n bb bc) as [[k y]|] eqn:ES; [|discriminate]. cbn [bind] in H. rewrite E1 in H. cbn [bind] in H. rewrite E2 in H. cbn [bind] in H. rewrite E3 in H. cbn [bind] in H. rewrite E4 in H. cbn [bind] in H. rewrite E5 in H. cbn [bind] in H.
  unfold min_quad_with_fixed in H. destruct (min_quad_with_fixed_precompute splu (nr A) (nc A) (at_ A) None k) as [P|] eqn:EP; [|discriminate]. cbn [bind] in H.
  destruct (mqf_solve garbage P (AVec (map (Rmult (-1)) B)) ANone y) as [[p u]|] eqn:EQ; [|discriminate]. cbn [bind] in H. rewrite E6 in H. cbn [bind] in H.
  set (UU := map (fun i => u i 0%nat) (seq 0 (nr A))) in *. assert (LU : length UU = (n + n)%nat) by (unfold UU; rewrite map_length, seq_length; auto).
  assert (NU : forall i, (i < n + n)%nat -> nth i UU 0 = u i 0%nat) by (intros i Hi; unfold UU; rewrite nth_mapseq by lia; auto).
  destruct (mulvec CS UU) as [fs|] eqn:EF; [|discriminate]. cbn [bind] in H. injection H as <- <-.
  assert (IN' := IN). destruct IN' as [Va ND Hn _ _ _ _ PSD _ _ _].
  assert (PA : psd (nr A) (at_ A)).
  { intros d. rewrite RA. fold (B2 (n + n) (at_ A) d d). rewrite AB. pose proof (KP d). destruct PSD as (_ & _ & _ & PS). pose proof (PS d). pose proof (pow2_ge_0 dt). nra. }
  destruct (C43_min_quad splu garbage (nr A) (nc A) (at_ A) None k P SO PA EP _ _ _ p u EQ 0%nat) as (HK & _ & HM).
  split; [lia|]. split; [|split; [|split]].
  - intros b c j z q -> -> Ez Ep. cbn in ES. injection ES as <- <-. cbn in HB. unfold bb_ok in HB. cbn [fixed_list] in HB. pose proof HB as HB'. rewrite Forall_forall in HB'. pose proof (HB' z (nth_error_In _ _ Ez)).
    rewrite !NU by lia. apply (prescribed n b c (fun i => u i 0%nat) HB (HL b c eq_refl eq_refl) HK j z q Ez Ep).
  - intros w Dw DU Jw JU HW.
    assert (FO : B2 (n + n) (at_ A) w (fun i => u i 0%nat) + sumn (n + n) (fun i => value (AVec (map (Rmult (-1)) B)) i 0 * w i) = 0).
    { apply first_order; [rewrite RA in PA; exact PA|exact ASY|]. intros t. rewrite <- RA. apply HM.
      - intros r z Er. rewrite (HK r z Er). rewrite HW; [ring|]. eapply stack_pinned; eauto. eapply nth_error_In; eauto.
      - intros r Hr. cbn in Hr. lia. }
    rewrite AB in FO. rewrite (sumn_ext (n + n) _ (fun i => (-1) * (nth i B 0 * w i))) in FO by (intros i Hi; cbn [value]; rewrite nth_scale; ring). rewrite sumn_scal, BB in FO.
    rewrite minner_sub by auto. rewrite <- (KB w (fun i => nth i UU 0) Dw DU Jw JU).
    rewrite (minner_ext n M0 w (fun i => nth i UU 0) w (fun i => u i 0%nat)) by auto. rewrite (B2_ext (n + n) (at_ KK) w (fun i => nth i UU 0) w (fun i => u i 0%nat)) by auto. lra.
  - rewrite map_length, seq_length. auto.
  - intros DU r JU Hr. rewrite nth_mapseq by auto. destruct (ST UU DU r LU JU Hr) as (fs' & Ef & Es). rewrite EF in Ef. injection Ef as <-. unfold sigma_v, von_mises. rewrite <- Es.
    rewrite <- sqrt_div_alt by lra. f_equal. replace 0.5 with (/ 2) by lra. field.
Qed.

(** ** success *)
Definition pos_def (n : nat) (Q : matrix) : Prop := forall x, 0 <= sumn n (fun i => x i * sumn n (fun j => Q i j * x j)) /\ (sumn n (fun i => x i * sumn n (fun j => Q i j * x j)) = 0 -> forall i, (i < n)%nat -> x i = 0).
(** a factorisation that solves exactly and does not fail on symmetric positive definite matrices *)
Definition spd_solver (splu : solver_t) : Prop := solver_ok splu /\ forall N M, (forall i j, (i < N)%nat -> (j < N)%nat -> M i j = M j i) -> pos_def N M -> exists f, splu N M = Ok f.
Lemma sub_pd n Q ks : NoDup ks -> (forall i, In i ks -> (i < n)%nat) -> pos_def n Q -> pos_def (length (setdiff n ks)) (sub_mat Q (setdiff n ks) (setdiff n ks)).
Proof.
  intros NK RK PD x. set (ki := setdiff n ks). destruct (glue_ok n ks x (fun _ => 0) (fun _ => 0) NK RK) as (G1 & G2). set (u := assign ks _ _) in *. fold ki in G1, G2, u.
  pose proof (setdiff_perm n ks NK RK) as PM. fold ki in PM.
  assert (E : sumn n (fun i => u i * sumn n (fun j => Q i j * u j)) = sumn (length ki) (fun i => x i * sumn (length ki) (fun j => sub_mat Q ki ki i j * x j))).
  { rewrite (sumn_ext n _ (fun i => sumn n (fun j => Q i j * u j) * u i)) by (intros; ring). rewrite (rows_glued n ki ks (fun i => sumn n (fun j => Q i j * u j)) x (fun _ => 0) u PM G1 G2).
    replace (sumn (length ks) _) with 0 by (symmetry; unfold sumn; apply sumf_zero; intros; ring). rewrite Rplus_0_r. apply sumn_ext. intros i Hi. rewrite Rmult_comm. f_equal.
    rewrite (rows_glued n ki ks (Q (nth i ki 0%nat)) x (fun _ => 0) u PM G1 G2). replace (sumn (length ks) _) with 0 by (symmetry; unfold sumn; apply sumf_zero; intros; ring). rewrite Rplus_0_r. reflexivity. }
  rewrite <- E. destruct (PD u) as (P1 & P2). split; [exact P1|]. intros Z i Hi. rewrite <- (G1 i Hi). apply P2; auto.
  assert (I : In (nth i ki 0%nat) ki) by (apply nth_In; auto). apply setdiff_in in I. tauto.
Qed.
(** min_quad_with_fixed without linear constraints always succeeds on positive definite Q and well-shaped data *)
Theorem C43_min_quad_succeeds : forall splu garbage n Q k p (c y : arg), spd_solver splu -> (0 < n)%nat -> pos_def n Q -> k_ok n k ->
  p = Nat.max (cp c) (cp y) -> arg_ok n p c -> arg_ok (length (fixed_list k)) p y ->
  exists u, min_quad_with_fixed splu garbage n n Q None k c ANone y = Ok (p, u).
Proof.
  intros splu garbage n Q k p c y (_ & SP) Hn PD HK Hp Hc Hy. destruct (check_k_ok n k HK) as (ks & QK & LK). destruct (check_k_inv _ _ _ QK) as (_ & NK & RK & _).
  assert (LI : Nat.eqb (length (setdiff n ks)) (n - length ks) = true) by (apply Nat.eqb_eq, setdiff_len; auto). assert (E0 : Nat.eqb n 0 = false) by (apply Nat.eqb_neq; lia).
  assert (PDs : pos_def n (symmetrize n Q)). { intros x. pose proof (form_symmetrize n Q x) as E. unfold form in E. rewrite E. apply PD. }
  assert (SYs : forall i j, (i < n)%nat -> (j < n)%nat -> symmetrize n Q i j = symmetrize n Q j i) by (intros; apply symmetrize_sym; auto).
  assert (PRE : exists P, min_quad_with_fixed_precompute splu n n Q None k = Ok P /\ q_n P = n /\ q_m P = 0%nat /\ q_k P = ks).
  { unfold min_quad_with_fixed_precompute. rewrite Nat.eqb_refl. cbn [negb]. rewrite E0. cbn [bind]. rewrite QK. cbn [bind Nat.eqb]. destruct ks as [|k0 ks'].
    - destruct (SP n (symmetrize n Q) SYs PDs) as (f & ->). cbn [bind]. eexists. split; [reflexivity|]. cbn. auto.
    - rewrite LI. cbn [negb]. destruct (SP (length (setdiff n (k0 :: ks'))) (sub_mat (symmetrize n Q) (setdiff n (k0 :: ks')) (setdiff n (k0 :: ks')))) as (f & ->).
      + intros i j Hi Hj. unfold sub_mat. apply SYs; [assert (I : In (nth i (setdiff n (k0 :: ks')) 0%nat) (setdiff n (k0 :: ks'))) by (apply nth_In; auto)|assert (I : In (nth j (setdiff n (k0 :: ks')) 0%nat) (setdiff n (k0 :: ks'))) by (apply nth_In; auto)]; apply setdiff_in in I; tauto.
      + apply sub_pd; auto.
      + cbn [bind]. eexists. split; [reflexivity|]. cbn [q_n q_m q_k]. auto. }
  unfold min_quad_with_fixed. destruct PRE as (P & QP & EN & EM & EKS). rewrite QP. cbn [bind]. unfold mqf_solve. cbn [cp]. rewrite Nat.max_0_l, <- Hp, EN, EM, EKS, LK.
  rewrite (check_ok n p c true Hc) by auto. cbn [check bind]. rewrite (check_ok _ p y _ Hy) by auto. cbn [bind]. eexists. reflexivity.
Qed.
Lemma nodup_shift n b : NoDup b -> Forall (fun b => (0 <= b < Z.of_nat n)%Z) b -> NoDup (b ++ map (fun i => (i + Z.of_nat n)%Z) b).
Proof.
  intros N F. rewrite Forall_forall in F. apply nodup_app; auto.
  - apply FinFun.Injective_map_NoDup; auto. intros x y H. lia.
  - intros x I J. apply in_map_iff in J as (z & <- & J). apply F in I. apply F in J. lia.
Qed.
Theorem C73_succeeds : forall splu garbage V n F U0 dt bb bc Ud0 fext Kb mu volumes mass M0, spd_solver splu ->
  input_ok V n F U0 Ud0 fext Kb mu volumes mass M0 -> mass_pd n M0 -> (0 < n)%nat ->
  match bb, bc with None, None => True | Some b, Some c => b <> [] /\ NoDup b /\ Forall (fun b => (0 <= b < Z.of_nat n)%Z) b /\ length c = length b | _, _ => False end ->
  exists U sv, linear_elasticity splu garbage V n F U0 dt bb bc Ud0 fext Kb mu volumes mass = Ok (U, sv).
Proof.
  intros splu garbage V n F U0 dt bb bc Ud0 fext Kb mu volumes mass M0 SP IN (_ & MP) Hn HB.
  destruct (assembled V n F U0 Ud0 fext Kb mu volumes mass M0 dt IN) as (KK & C & S & Ar & M & A & s1 & s2 & B & CS & E1 & E2 & RA & CA & E3 & E4 & E5 & LB & E6 & CCS & AB & BB & KB & ASY & KP & ST).
  destruct IN as [Va ND Hm _ _ _ _ (_ & _ & _ & PS) _ _ _].
  unfold linear_elasticity.
  assert (SC : exists k y, stack_constraints n bb bc = Ok (k, y) /\ k_ok (n + n) k /\ cp y = 0%nat /\ arg_ok (length (fixed_list k)) 0 y).
  { destruct bb as [b|], bc as [c|]; try contradiction.
    - destruct HB as (B1 & B2 & B3 & B4). do 2 eexists. split; [reflexivity|]. cbn [fixed_list cp arg_ok]. split; [|split; [auto|split; [auto|rewrite !app_length, !map_length; unfold vec2 in *; lia]]].
      split; [destruct b; [congruence|discriminate]|]. split; [apply nodup_shift; auto|]. rewrite Forall_forall in B3. intros z I. apply in_app_or in I as [I|I]; [apply B3 in I; lia|]. apply in_map_iff in I as (x & <- & I). apply B3 in I. lia.
    - do 2 eexists. split; [reflexivity|]. cbn. auto. }
  destruct SC as (k & y & ES & KO & CY & AY). rewrite ES. cbn [bind]. rewrite E1. cbn [bind]. rewrite E2. cbn [bind]. rewrite E3. cbn [bind]. rewrite E4. cbn [bind]. rewrite E5. cbn [bind]. rewrite RA, CA.
  destruct (C43_min_quad_succeeds splu garbage (n + n) (at_ A) k 0 (AVec (map (Rmult (-1)) B)) y SP) as (u & Eu).
  - lia.
  - intros x. fold (B2 (n + n) (at_ A) x x). rewrite AB. pose proof (PS x) as P1. pose proof (KP x) as P2. pose proof (pow2_ge_0 dt) as P3. assert (0 <= dt ^ 2 * B2 (n + n) (at_ KK) x x) by nra. split; [lra|].
    intros Z i Hi. apply (MP x); [lra|lia].
  - exact KO.
  - rewrite CY. reflexivity.
  - cbn. split; auto. rewrite map_length. auto.
  - exact AY.
  - rewrite Eu. cbn [bind]. rewrite E6. cbn [bind]. unfold mulvec. rewrite CCS, map_length, seq_length, Nat.eqb_refl. cbn [bind]. do 2 eexists. reflexivity.
Qed.

(** elimination is such a solver *)
Definition elimination : solver_t := fun N M => match GpProofs.elim N M with Some f => Ok f | None => Err ZeroDivisionError end.
Lemma elimination_ok : spd_solver elimination.
Proof.
  split.
  - intros N M f H. unfold elimination in H. destruct (GpProofs.elim N M) as [g|] eqn:E; [|discriminate]. injection H as <-. apply (GpProofs.elim_ok N M g E).
  - intros N M SY PD. destruct (GpProofs.elim_pd N M SY PD) as (f & E). unfold elimination. rewrite E. eauto.
Qed.
Lemma sumf_ge_term {A} (f : A -> R) l x : (forall y, In y l -> 0 <= f y) -> In x l -> f x <= sumf f l.
Proof.
  induction l as [|y l IH]; intros H I; [destruct I|]. change (sumf f (y :: l)) with (f y + sumf f l). pose proof (H y (or_introl eq_refl)) as P.
  assert (Q : 0 <= sumf f l) by (apply sumf_nonneg; intros; apply H; right; auto). destruct I as [->|I]; [lra|]. specialize (IH (fun z J => H z (or_intror J)) I). lra.
Qed.
(** the default mass matrix qualifies *)
Theorem C73_default_mass : forall V n F, valid (Z.of_nat n) F -> nondegenerate V F -> exists M0, mass_in_use V n F None M0 /\ mass_psd n M0
  /\ ((forall v, (0 <= v < Z.of_nat n)%Z -> exists t i, In t F /\ corner t i = v) -> mass_pd n M0).
Proof.
  intros V n F Va ND. set (R2 := fun i => row_of2 (V i)).
  assert (NDl : forall p, In p (with_lsq R2 F) -> nondeg (snd p)).
  { intros p Hp. unfold with_lsq in Hp. apply in_map_iff in Hp as (t & <- & Ht). cbn [snd]. unfold nondeg. repeat split; try apply sqlen_nonneg. fold (doublearea R2 t). unfold R2. rewrite doublearea_2d. intro Q. apply (ND t Ht). destruct (Req_dec (det2 (sub2 (V (c1 t)) (V (c0 t))) (sub2 (V (c2 t)) (V (c0 t)))) 0); [assumption|]. exfalso. apply Rabs_no_R0 in H. contradiction. }
  assert (Va' : valid (Z.of_nat n) (map fst (with_lsq R2 F))) by (rewrite with_lsq_fst; exact Va).
  destruct (mass_total n (with_lsq R2 F) Voronoi Va' ltac:(discriminate) NDl) as (Mt & EM & _ & SY & NN & DG). specialize (DG ltac:(discriminate)).
  set (M0 := of_trips n n Mt).
  assert (MD : forall u, minner n M0 u u = sumn n (fun i => entry Mt (Z.of_nat i) (Z.of_nat i) * (u i * u i + u (n + i)%nat * u (n + i)%nat))).
  { intros u. unfold minner. apply sumn_ext. intros i Hi. cbn [M0 of_trips at_]. rewrite (sumn_ext n _ (fun j => (entry Mt (Z.of_nat i) (Z.of_nat j) * (u i * u j + u (n + i)%nat * u (n + j)%nat)) * (if Nat.eqb j i then 1 else 0))).
    - rewrite (pick n (fun j => entry Mt (Z.of_nat i) (Z.of_nat j) * (u i * u j + u (n + i)%nat * u (n + j)%nat)) i 1 Hi). ring.
    - intros j Hj. destruct (Nat.eqb_spec j i) as [->|N]; [ring|]. rewrite (DG (Z.of_nat i) (Z.of_nat j)) by lia. ring. }
  assert (PS : mass_psd n M0).
  { split; [reflexivity|]. split; [reflexivity|]. split; [intros; apply SY|]. intros u. rewrite MD. unfold sumn. apply sumf_nonneg. intros i _. apply Rmult_le_pos; [apply NN|nra]. }
  exists M0. split; [exists Mt; auto|]. split; auto. intros RF. split; auto. intros u Z0. rewrite MD in Z0.
  assert (EZ : forall i, (i < n)%nat -> u i = 0 /\ u (n + i)%nat = 0).
  { intros i Hi. destruct (RF (Z.of_nat i) ltac:(lia)) as (t & c & It & Ec). assert (P : 0 < entry Mt (Z.of_nat i) (Z.of_nat i)). { rewrite <- Ec. eapply (P_Biharm.voronoi_mass_pos (with_lsq R2 F)); eauto. rewrite with_lsq_fst. exact It. }
    assert (T : entry Mt (Z.of_nat i) (Z.of_nat i) * (u i * u i + u (n + i)%nat * u (n + i)%nat) = 0).
    { apply Rle_antisym; [|apply Rmult_le_pos; [lra|nra]]. rewrite <- Z0. unfold sumn. 
      match goal with |- ?x <= sumf ?f _ => change x with (f i) end. apply (sumf_ge_term _ _ i). - intros j _. apply Rmult_le_pos; [apply NN|nra]. - apply in_seq. lia. }
    apply Rmult_integral in T as [T|T]; [lra|]. split; nra. }
  intros i Hi. destruct (Nat.lt_ge_cases i n); [apply EZ; auto|]. replace i with (n + (i - n))%nat by lia. apply EZ. lia.
Qed.

(** ** consequences for free bodies (no prescribed vertices) *)
Lemma rigid_jac V n F a b w : valid (Z.of_nat n) F -> jacobian V n F (rigid V n a b w) (fun _ => ((0, - w), (w, 0))).
Proof.
  intros Va r' t' E' c Hc. destruct (Va t' (nth_error_In _ _ E')) as (V0 & V1 & V2). assert (Vc : (0 <= c < Z.of_nat n)%Z) by (destruct Hc; subst; auto).
  unfold rigid, dot2, sub2; cbn [fst snd]. ltbs. replace (n + Z.to_nat c - n)%nat with (Z.to_nat c) by lia. replace (n + Z.to_nat (c0 t') - n)%nat with (Z.to_nat (c0 t')) by lia.
  rewrite !Z2Nat.id by lia. split; ring.
Qed.
Lemma elastic_rigid V F volumes Kb mu D w : elastic V F volumes Kb mu (fun _ => ((0, - w), (w, 0))) D = 0.
Proof. unfold elastic, sumn. apply sumf_zero. intros r _. unfold density. destruct (D r) as [[x y] [z v]]. cbn [fst snd]. field. Qed.
Lemma elastic_nonneg V n F U0 Ud0 fext Kb mu volumes mass M0 D : input_ok V n F U0 Ud0 fext Kb mu volumes mass M0 -> 0 <= elastic V F volumes Kb mu D D.
Proof.
  intros [_ _ _ HV Hmu HK _ _ _ _ _]. unfold elastic, sumn. apply sumf_nonneg. intros r I. apply Rmult_le_pos.
  - unfold weight. destruct volumes as [v|]; [|apply (weight_default_nonneg V F r)]. destruct HV as (_ & HF). rewrite Forall_forall in HF. destruct (Nat.lt_ge_cases r (length v)); [apply HF, nth_In; auto|rewrite nth_overflow by auto; lra].
  - unfold density. destruct (D r) as [[x y] [z v]]; cbn [fst snd].
    match goal with |- 0 <= ?e => replace e with ((Kb + mu / 3) * ((x + v) * (x + v)) + mu * ((x - v) * (x - v)) + mu * ((y + z) * (y + z))) by field end.
    pose proof (Rle_0_sqr (x + v)). pose proof (Rle_0_sqr (x - v)). pose proof (Rle_0_sqr (y + z)). unfold Rsqr in *. repeat apply Rplus_le_le_0_compat; apply Rmult_le_pos; auto.
Qed.
Lemma free_bb n : bb_ok n None. Proof. constructor. Qed.
Section Free.
  Variables (splu : solver_t) (garbage : matrix) (V : Z -> vec2) (n : nat) (F : list tri) (U0 : list vec2) (dt : R) (Ud0 fext : option (list vec2)) (Kb mu : R) (volumes : option (list R)) (mass : option mat) (M0 : mat) (U sv : list R).
  Hypotheses (SO : solver_ok splu) (IN : input_ok V n F U0 Ud0 fext Kb mu volumes mass M0)
    (H : linear_elasticity splu garbage V n F U0 dt None None Ud0 fext Kb mu volumes mass = Ok (U, sv)).
  Let u := fun i => nth i U 0.
  Let ff := free_flight n dt U0 Ud0 fext.
  Lemma weak w Dw DU : jacobian V n F w Dw -> jacobian V n F u DU -> minner n M0 w u - minner n M0 w ff + dt ^ 2 * elastic V F volumes Kb mu Dw DU = 0.
  Proof using SO IN H.
    intros Jw JU. destruct (C73_step splu garbage V n F U0 dt None None Ud0 fext Kb mu volumes mass M0 U sv SO IN (free_bb n) ltac:(discriminate) H) as (_ & _ & W & _).
    rewrite <- minner_sub by (apply (i_psd _ _ _ _ _ _ _ _ _ _ _ IN)). apply (W w Dw DU Jw JU). intros i (b & [] & _).
  Qed.
  (** linear and angular momentum only change by the external forces *)
  Lemma momentum a b w : minner n M0 (rigid V n a b w) u = minner n M0 (rigid V n a b w) ff.
  Proof using SO IN H.
    pose proof (i_valid _ _ _ _ _ _ _ _ _ _ _ IN) as Va. destruct (jac_exists V n F u Va (i_nd _ _ _ _ _ _ _ _ _ _ _ IN)) as (DU & JU). pose proof (weak _ _ DU (rigid_jac V n F a b w Va) JU) as W. rewrite elastic_rigid in W. lra.
  Qed.
  (** the step is unconditionally stable *)
  Lemma stable : minner n M0 u u <= minner n M0 ff ff.
  Proof using SO IN H.
    pose proof (i_psd _ _ _ _ _ _ _ _ _ _ _ IN) as PS. destruct (jac_exists V n F u (i_valid _ _ _ _ _ _ _ _ _ _ _ IN) (i_nd _ _ _ _ _ _ _ _ _ _ _ IN)) as (DU & JU). pose proof (weak _ _ _ JU JU) as W.
    pose proof (elastic_nonneg V n F U0 Ud0 fext Kb mu volumes mass M0 DU IN) as E. pose proof (pow2_ge_0 dt) as D. assert (P : 0 <= dt ^ 2 * elastic V F volumes Kb mu DU DU) by nra.
    destruct PS as (S1 & S2 & S3 & NN). pose proof (NN (fun i => u i - ff i)) as Q. assert (PS : mass_psd n M0) by (split; auto). rewrite minner_sub in Q by auto. rewrite (minner_sym n M0 PS _ u), (minner_sym n M0 PS _ ff) in Q. rewrite !minner_sub in Q by auto.
    rewrite (minner_sym n M0 PS ff u) in Q. lra.
  Qed.
  Lemma rigid_step a b w : mass_pd n M0 -> (forall i, (i < 2 * n)%nat -> ff i = rigid V n a b w i) ->
    (forall i, (i < 2 * n)%nat -> u i = rigid V n a b w i) /\ forall r, (r < length F)%nat -> nth r sv 0 = 0.
  Proof using SO IN H.
    intros (PS & PD) HF. pose proof (i_valid _ _ _ _ _ _ _ _ _ _ _ IN) as Va. set (rho := rigid V n a b w) in *.
    destruct (jac_exists V n F u Va (i_nd _ _ _ _ _ _ _ _ _ _ _ IN)) as (DU & JU). pose proof (weak _ _ _ JU JU) as W1. pose proof (weak _ _ _ (rigid_jac V n F a b w Va) JU) as W2. fold rho in W2. rewrite elastic_rigid in W2.
    assert (MF : forall x, minner n M0 x ff = minner n M0 x rho) by (intros x; apply minner_ext; auto; intros i Hi; apply HF; lia). rewrite MF in W1, W2.
    pose proof (elastic_nonneg V n F U0 Ud0 fext Kb mu volumes mass M0 DU IN) as E. pose proof (pow2_ge_0 dt) as D. assert (P : 0 <= dt ^ 2 * elastic V F volumes Kb mu DU DU) by nra.
    assert (Z0 : minner n M0 (fun i => u i - rho i) (fun i => u i - rho i) = 0).
    { apply Rle_antisym; [|apply PS]. rewrite minner_sub by auto. rewrite (minner_sym n M0 PS _ u), (minner_sym n M0 PS _ rho). rewrite !minner_sub by auto. rewrite (minner_sym n M0 PS u rho) in *. lra. }
    assert (EU : forall i, (i < 2 * n)%nat -> u i = rho i) by (intros i Hi; pose proof (PD _ Z0 i Hi); cbn in *; lra). split; auto.
    destruct (C73_step splu garbage V n F U0 dt None None Ud0 fext Kb mu volumes mass M0 U sv SO IN (free_bb n) ltac:(discriminate) H) as (LU & _ & _ & _ & ST).
    intros r Hr. rewrite (ST (fun _ => ((0, - w), (w, 0))) r).
    - unfold von_mises, stress. cbn [fst snd]. replace (_ ^ 2 - _ + _ + _) with 0 by field. rewrite sqrt_0. unfold Rdiv. ring.
    - intros r' t E' c Hc. pose proof (rigid_jac V n F a b w Va r' t E' c Hc) as J. cbn zeta in J |- *. destruct (Va t (nth_error_In _ _ E')) as (V0 & V1 & V2). assert (Vc : (0 <= c < Z.of_nat n)%Z) by (destruct Hc; subst; auto).
      fold rho in J. rewrite <- !EU in J by lia. exact J.
    - exact Hr.
  Qed.
End Free.
Theorem C73_momentum : forall splu garbage V n F U0 dt Ud0 fext Kb mu volumes mass M0 U sv, solver_ok splu -> input_ok V n F U0 Ud0 fext Kb mu volumes mass M0 ->
  linear_elasticity splu garbage V n F U0 dt None None Ud0 fext Kb mu volumes mass = Ok (U, sv) ->
  forall a b w, minner n M0 (rigid V n a b w) (fun i => nth i U 0) = minner n M0 (rigid V n a b w) (free_flight n dt U0 Ud0 fext).
Proof. exact momentum. Qed.
Theorem C73_stable : forall splu garbage V n F U0 dt Ud0 fext Kb mu volumes mass M0 U sv, solver_ok splu -> input_ok V n F U0 Ud0 fext Kb mu volumes mass M0 ->
  linear_elasticity splu garbage V n F U0 dt None None Ud0 fext Kb mu volumes mass = Ok (U, sv) ->
  minner n M0 (fun i => nth i U 0) (fun i => nth i U 0) <= minner n M0 (free_flight n dt U0 Ud0 fext) (free_flight n dt U0 Ud0 fext).
Proof. exact stable. Qed.
(** rest stays at rest, and rigid motion stays rigid and stress-free *)
Theorem C73_rigid : forall splu garbage V n F U0 dt Ud0 fext Kb mu volumes mass M0 U sv, solver_ok splu -> input_ok V n F U0 Ud0 fext Kb mu volumes mass M0 ->
  linear_elasticity splu garbage V n F U0 dt None None Ud0 fext Kb mu volumes mass = Ok (U, sv) ->
  forall a b w, mass_pd n M0 -> (forall i, (i < 2 * n)%nat -> free_flight n dt U0 Ud0 fext i = rigid V n a b w i) ->
  (forall i, (i < 2 * n)%nat -> nth i U 0 = rigid V n a b w i) /\ forall r, (r < length F)%nat -> nth r sv 0 = 0.
Proof. exact rigid_step. Qed.

(** ** refutation: sigma_v is documented as the von Mises stress; it is too small by the factor sqrt 2 wherever there is stress (linear_elasticity.py:96) *)
Theorem C73_von_mises_refuted : forall splu garbage V n F U0 dt bb bc Ud0 fext Kb mu volumes mass M0 U sv, solver_ok splu ->
  input_ok V n F U0 Ud0 fext Kb mu volumes mass M0 -> bb_ok n bb -> (forall b c, bb = Some b -> bc = Some c -> length c = length b) ->
  linear_elasticity splu garbage V n F U0 dt bb bc Ud0 fext Kb mu volumes mass = Ok (U, sv) ->
  forall DU r, jacobian V n F (fun i => nth i U 0) DU -> (r < length F)%nat -> von_mises (stress (Kb - 2 / 3 * mu) mu (DU r)) <> 0 ->
  nth r sv 0 <> von_mises (stress (Kb - 2 / 3 * mu) mu (DU r)).
Proof.
  intros splu garbage V n F U0 dt bb bc Ud0 fext Kb mu volumes mass M0 U sv SO IN HB HL H DU r J Hr NZ E.
  destruct (C73_step splu garbage V n F U0 dt bb bc Ud0 fext Kb mu volumes mass M0 U sv SO IN HB HL H) as (_ & _ & _ & _ & ST). rewrite (ST DU r J Hr) in E. set (x := von_mises _) in *.
  assert (S2 : 1 < sqrt 2) by (rewrite <- sqrt_1; apply sqrt_lt_1; lra). apply NZ.
  clearbody x. assert (E2 : x / sqrt 2 * sqrt 2 = x) by (field; lra). rewrite E in E2. nra.
Qed.
(** prescribed vertices without displacements, or an empty list of them, raise *)
Theorem C73_errors : forall splu garbage V n F U0 dt b Ud0 fext Kb mu volumes mass M0,
  linear_elasticity splu garbage V n F U0 dt (Some b) None Ud0 fext Kb mu volumes mass = Err TypeError
  /\ (input_ok V n F U0 Ud0 fext Kb mu volumes mass M0 -> (0 < n)%nat -> forall c, linear_elasticity splu garbage V n F U0 dt (Some []) (Some c) Ud0 fext Kb mu volumes mass = Err ValueError).
Proof.
  intros. split; [reflexivity|]. intros IN Hn c.
  destruct (assembled V n F U0 Ud0 fext Kb mu volumes mass M0 dt IN) as (KK & C & S & Ar & M & A & s1 & s2 & B & CS & E1 & E2 & RA & CA & E3 & E4 & E5 & _).
  unfold linear_elasticity. cbn [stack_constraints map List.app bind]. rewrite E1. cbn [bind]. rewrite E2. cbn [bind]. rewrite E3. cbn [bind]. rewrite E4. cbn [bind]. rewrite E5. cbn [bind].
  unfold min_quad_with_fixed, min_quad_with_fixed_precompute. rewrite RA, CA, Nat.eqb_refl. cbn [negb]. destruct (Nat.eqb_spec (n + n) 0); [lia|]. reflexivity.
Qed.

(** ** a concrete body: the unit square of two triangles, stretched by a prescribed displacement of vertices 0 and 1 *)
Definition sqF : list tri := [(0,1,2)%Z; (0,2,3)%Z].
Theorem C73_example : exists M0 U sv DU, input_ok sqV 4 sqF (repeat (0,0) 4) None None 1 1 None None M0 /\ mass_pd 4 M0 /\ bb_ok 4 (Some [0%Z; 1%Z])
  /\ linear_elasticity elimination (fun _ _ => 7) sqV 4 sqF (repeat (0,0) 4) 1 (Some [0%Z; 1%Z]) (Some [(0,0); (1,0)]) None None 1 1 None None = Ok (U, sv)
  /\ jacobian sqV 4 sqF (fun i => nth i U 0) DU /\ von_mises (stress (1 - 2 / 3 * 1) 1 (DU 0%nat)) <> 0.
Proof.
  destruct C55_example as (Va & ND & Hn & _). destruct (C73_default_mass sqV 4 sqF Va ND) as (M0 & MU & PS & PD).
  assert (PD' : mass_pd 4 M0).
  { apply PD. intros v Hv. assert (v = 0 \/ v = 1 \/ v = 2 \/ v = 3)%Z as [ -> | [ -> | [ -> | -> ]]] by lia; [exists (0,1,2)%Z, 0%nat|exists (0,1,2)%Z, 1%nat|exists (0,1,2)%Z, 2%nat|exists (0,2,3)%Z, 2%nat]; cbn; auto. }
  assert (IN : input_ok sqV 4 sqF (repeat (0,0) 4) None None 1 1 None None M0) by (constructor; auto; try lra; cbn; auto).
  destruct (C73_succeeds elimination (fun _ _ => 7) sqV 4 sqF (repeat (0,0) 4) 1 (Some [0%Z; 1%Z]) (Some [(0,0); (1,0)]) None None 1 1 None None M0 elimination_ok IN PD' ltac:(lia)) as (U & sv & E).
  { split; [discriminate|]. split; [repeat constructor; cbn; intuition lia|]. split; [repeat constructor; lia|reflexivity]. }
  destruct (jac_exists sqV 4 sqF (fun i => nth i U 0) Va ND) as (DU & J). exists M0, U, sv, DU. split; auto. split; auto. split; [repeat constructor; lia|]. split; auto. split; auto.
  destruct (C73_step elimination (fun _ _ => 7) sqV 4 sqF (repeat (0,0) 4) 1 (Some [0%Z; 1%Z]) (Some [(0,0); (1,0)]) None None 1 1 None None M0 U sv (proj1 elimination_ok) IN ltac:(repeat constructor; lia)
    ltac:(intros b c H1 H2; injection H1 as <-; injection H2 as <-; reflexivity) E) as (_ & PR & _).
  destruct (PR _ _ 0%nat 0%Z (0,0) eq_refl eq_refl eq_refl eq_refl) as (P0 & P0'). destruct (PR _ _ 1%nat 1%Z (1,0) eq_refl eq_refl eq_refl eq_refl) as (P1 & P1'). cbn in P0, P0', P1, P1'.
  destruct (J 0%nat (0,1,2)%Z eq_refl 1%Z (or_introl eq_refl)) as (J1 & J2). cbv beta zeta in J1, J2. unfold dot2, sub2, sqV in J1, J2. cbn -[nth] in J1, J2. 
  change (Pos.to_nat 1) with 1%nat in *. change (Z.to_nat 0) with 0%nat in *. cbn [Nat.add] in *.
  intros VM. unfold von_mises, stress in VM. destruct (DU 0%nat) as [[x y] [z v]]. cbn [fst snd] in *.
  assert (X1 : x = 1) by lra. subst x. clear - VM. revert VM. set (a := _ + 2 * 1 * 1). set (b := _ + 2 * 1 * v). set (c := 2 * 1 * _). intros VM.
  assert (Q : a ^ 2 - a * b + b ^ 2 + 3 * c ^ 2 = (a - b / 2) ^ 2 + 3 / 4 * b ^ 2 + 3 * c ^ 2) by field. rewrite Q in VM. pose proof (pow2_ge_0 (a - b / 2)) as P1. pose proof (pow2_ge_0 b) as P2. pose proof (pow2_ge_0 c) as P3.
  apply sqrt_eq_0 in VM; [|lra]. assert (B0 : b = 0) by (apply Rsqr_0_uniq; unfold Rsqr; lra). assert (A0 : a - b / 2 = 0) by (apply Rsqr_0_uniq; unfold Rsqr; lra). unfold a, b in *. lra.
Qed.
Print Assumptions C73_step.
Print Assumptions C73_rigid.
Print Assumptions C73_example.
