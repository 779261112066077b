From Coq Require Import Reals Lra Psatz.
From Verif Require Import MatModel MatProofs Subdiv3Proofs BiharmProofs Biharm2Proofs NumpyModel PyExn ElastModel L1Model L1Proofs L1Spec L1ScsProofs.
Open Scope R_scope.

Lemma hs3_ok A B C : nr A = nr B -> nr A = nr C -> exists D, hstack3 A B C = Ok D /\ nr D = nr A /\ nc D = (nc A + nc B + nc C)%nat /\
  (forall x i, rowsum D x i = rowsum A x i + rowsum B (fun j => x (nc A + j)%nat) i + rowsum C (fun j => x (nc A + nc B + j)%nat) i).
Proof.
  intros H1 H2. unfold hstack3. destruct (hs_ok A B H1) as (D & -> & R1 & R2 & R3). cbn [bind]. destruct (hs_ok D C) as (E & -> & S1 & S2 & S3); [lia|]. exists E. split; auto. split; [lia|]. split; [lia|].
  intros x i. rewrite S3, R3, R2. auto.
Qed.
Definition qterm (a : l1_args) (u : list R) : R :=
  match aQ a, aL a with Some Q, _ => quadratic Q u | None, Some L => sumn (nc L) (fun j => (sumn (nr L) (fun i => at_ L i j * nth i u 0)) ^ 2) | None, None => 0 end.
Definition lterm (a : l1_args) (n : nat) (u : list R) : R := match ac a with Some c => sumn n (fun i => nth i c 0 * nth i u 0) | None => 0 end.
Lemma rest_split a n u : rest a n u = / 2 * qterm a u + lterm a n u. Proof. reflexivity. Qed.

Definition upd (vb : list vbound) (i : nat) (v : R) : list vbound := firstn i vb ++ Fixed v :: skipn (S i) vb.
Lemma upd_length vb i v : (i < length vb)%nat -> length (upd vb i v) = length vb.
Proof. intros H. unfold upd. rewrite app_length, firstn_length. cbn [length]. rewrite skipn_length. lia. Qed.
Lemma upd_nth vb i v j : (i < length vb)%nat -> nth j (upd vb i v) Free = if Nat.eqb i j then Fixed v else nth j vb Free.
Proof.
  intros H. unfold upd. revert vb j H. induction i as [|i IH]; intros [|b vb] j H; cbn [length] in H; try lia.
  - destruct j; reflexivity.
  - destruct j as [|j]; [reflexivity|]. cbn [firstn app nth skipn Nat.eqb]. apply IH. lia.
Qed.
Lemma fix_ok k : forall y vb, length k = length y -> Forall (fun i => (0 <= i < Z.of_nat (length vb))%Z) k -> NoDup k ->
  let r := fold_left (fun vb p => firstn (Z.to_nat (fst p)) vb ++ Fixed (snd p) :: skipn (S (Z.to_nat (fst p))) vb) (combine k y) vb in
  length r = length vb /\ (forall j, (j < length k)%nat -> nth (Z.to_nat (nth j k 0%Z)) r Free = Fixed (nth j y 0)) /\ (forall i, ~ In (Z.of_nat i) k -> nth i r Free = nth i vb Free).
Proof.
  induction k as [|k0 k IH]; intros [|y0 y] vb L F N; cbn [length] in L; try lia.
  - cbn. split; auto. split; [intros; lia|auto].
  - inversion F as [|? ? F0 F']; subst. inversion N as [|? ? N0 N']; subst. cbn [combine fold_left fst snd]. fold (upd vb (Z.to_nat k0) y0). assert (B : (Z.to_nat k0 < length vb)%nat) by lia.
    destruct (IH y (upd vb (Z.to_nat k0) y0)) as (L1 & L2 & L3); [lia|rewrite upd_length by auto; auto|auto|]. cbn zeta in L1, L2, L3 |- *. split; [rewrite L1; apply upd_length; auto|]. split.
    + intros [|j] Hj; cbn [nth]; [|cbn in Hj; apply L2; lia]. rewrite L3 by (rewrite Z2Nat.id by lia; auto). rewrite upd_nth, Nat.eqb_refl by auto. auto.
    + intros i Hi. rewrite L3 by (intros I; apply Hi; right; auto). rewrite upd_nth by auto. destruct (Nat.eqb_spec (Z.to_nat k0) i); auto. exfalso. apply Hi. left. lia.
Qed.
Lemma nth_vb n k i : nth i (repeat Free n ++ repeat (Low 0) k) Free = if Nat.ltb i n then Free else if Nat.ltb i (n + k) then Low 0 else Free.
Proof.
  destruct (Nat.ltb_spec i n).
  - rewrite app_nth1 by (rewrite repeat_length; auto). apply nth_repeat.
  - rewrite app_nth2, repeat_length by (rewrite repeat_length; auto). destruct (Nat.ltb_spec i (n + k)).
    + rewrite (nth_indep _ Free (Low 0)) by (rewrite repeat_length; lia). apply nth_repeat.
    + apply nth_overflow. rewrite repeat_length. lia.
Qed.
Lemma mv_first M x n i : nc M = n -> mv M x i = mv M (firstn n x) i.
Proof. intros E. rewrite mv_rowsum. apply rs_first; auto. Qed.
(** the factor handed to the rotated cone *)
Lemma factor_ok chol a n : valid a n -> (forall Q, aQ a = Some Q -> chol_contract chol Q) -> exists Lt0,
  (match aQ a with Some Q => do _ <- assert_ (is_none (aL a)); do l <- chol Q; Ok (Some l) | None => Ok None end) = Ok Lt0 /\
  let Lt := match aL a with Some L => Some (transpose L) | None => Lt0 end in
  (forall L, Lt = Some L -> nc L = n) /\ forall u, qterm a u = match Lt with Some L => sumn (nr L) (fun i => mv L u i * mv L u i) | None => 0 end.
Proof.
  intros [D _ VQ VQL VL _ _ _ _] CH. unfold qterm. destruct (aQ a) as [Q|].
  - destruct VQL as [?|NL]; [discriminate|]. rewrite NL. cbn [is_none assert_ bind]. destruct (CH Q eq_refl) as (Lt & -> & C1 & C2). destruct (VQ Q eq_refl) as (R1 & R2 & _). exists (Some Lt). split; [reflexivity|]. split.
    + intros L E. injection E as <-. lia.
    + intros u. unfold quadratic, mv. rewrite R1, R2, C1, R1. rewrite (sumn_ext (nr Lt) _ (fun k => (sumn n (fun i => at_ Lt k i * nth i u 0)) ^ 2)) by (intros; ring).
      rewrite <- (gram_form n (nr Lt) (fun i k => at_ Lt k i) (fun i => nth i u 0)). apply sumn_ext. intros i Hi. f_equal. apply sumn_ext. intros j Hj. rewrite C2 by lia. auto.
  - exists None. split; [reflexivity|]. destruct (aL a) as [L|]; cbn zeta.
    + split; [intros ? E; injection E as <-; cbn; auto|]. intros u. unfold mv, transpose. cbn [nr nc at_]. apply sumn_ext. intros; ring.
    + split; [discriminate|auto].
Qed.
Lemma msk_prog chol a n : valid a n -> (forall Q, aQ a = Some Q -> chol_contract chol Q) -> (forall k, ak a = Some k -> NoDup k) ->
  exists p e, msk_build chol a = Ok (n, p) /\ msk_well_formed p /\ k_n p = (n + gm a n + e)%nat /\ (e = 0 \/ e = 1)%nat /\ (e = 0%nat -> forall u, qterm a u = 0)
  /\ (forall x, length x = k_n p -> (msk_feasible p x <-> feasible a (firstn n x) /\ (forall i, (i < gm a n)%nat -> 0 <= nth (n + i) x 0 /\ gnorm a n (firstn n x) i <= nth (n + i) x 0)
        /\ (e = 1%nat -> qterm a (firstn n x) <= 2 * nth (n + gm a n) x 0)))
  /\ (forall x, length x = k_n p -> msk_value p x = lterm a n (firstn n x) + sumn (gm a n) (fun i => nth (n + i) x 0) + sumn e (fun i => nth (n + gm a n + i) x 0)).
Proof.
  intros V CH ND. pose proof (infer_ok a n V) as IN. pose proof (check_ok a n V) as CK. destruct (valid_G a n V) as (DG & RG). destruct (factor_ok chol a n V CH) as (Lt0 & EL0 & LC & QT).
  destruct V as [D (CG & _) VQ VQL VL VC VK VA VN].
  unfold msk_build. rewrite IN. cbn [bind]. rewrite DG. fold (gm a n). set (m := gm a n) in *. set (G := the_G a n) in *. set (d := ad a) in *.
  destruct (Nat.eqb_spec d 0); [lia|]. rewrite EL0. cbn [bind]. cbn zeta in LC, QT. set (Lt := match aL a with Some L => Some (transpose L) | None => Lt0 end) in *.
  set (lt := match Lt with Some L => nr L | None => 0%nat end). set (an := match aA a with Some A => nr A | None => 0%nat end).
  rewrite CK. cbn [bind].
  replace (sq_shape (aQ a) n) with true. 2:{ unfold sq_shape. destruct (aQ a) as [Q|]; auto. destruct (VQ Q eq_refl) as (-> & -> & _). rewrite Nat.eqb_refl. auto. }
  cbn [assert_ bind].
  replace (match Lt with Some L => Nat.eqb (nc L) n | None => true end) with true. 2:{ destruct Lt as [L|]; auto. rewrite (LC L eq_refl), Nat.eqb_refl. auto. }
  cbn [assert_ bind]. set (e := if Nat.eqb lt 0 then 0%nat else 1%nat).
  assert (EE : (lt = 0 /\ e = 0 \/ 0 < lt /\ e = 1)%nat) by (unfold e; destruct (Nat.eqb_spec lt 0); lia). clearbody e.
  set (A := match aA a with Some A => if Nat.eqb an 0 then zeros 0 n else A | None => zeros 0 n end).
  set (bl := match ab a with Some b => map (fun i => at_ b i 0%nat) (seq 0 an) | None => [] end).
  assert (AS : nr A = an /\ nc A = n /\ length bl = an).
  { unfold A, bl, an in *. destruct (aA a) as [A'|], (ab a) as [b|]; try contradiction; [|auto]. rewrite map_length, seq_length. destruct (Nat.eqb_spec (nr A') 0) as [E0|]; cbn; [rewrite E0; auto|tauto]. }
  destruct AS as (RA & CA & LB).
  destruct (hs_ok A (zeros (nr A) (m + e)) eq_refl) as (A1 & -> & R1 & C1 & S1). cbn [bind]. cbn [zeros nc] in C1.
  assert (EC : exists A2, (if Nat.eqb d 1 then do g0 <- hstack3 (neg G) (neg (ident 1 m)) (zeros (nr G) e); do g1 <- hstack3 G (neg (ident 1 m)) (zeros (nr G) e); vstack2 g0 g1 else Ok (zeros 0 (n + m + e))) = Ok A2
      /\ nc A2 = (n + m + e)%nat /\ (d = 1%nat -> nr A2 = (m + m)%nat /\ forall x i, (i < m)%nat -> rowsum A2 x i = - rowsum G x i - x (n + i)%nat /\ rowsum A2 x (m + i)%nat = rowsum G x i - x (n + i)%nat)
      /\ (d <> 1%nat -> nr A2 = 0%nat)).
  { destruct (Nat.eqb_spec d 1) as [D1|D1].
    - destruct (hs3_ok (neg G) (neg (ident 1 m)) (zeros (nr G) e)) as (g0 & -> & P1 & P2 & P3); [cbn; lia|auto|]. destruct (hs3_ok G (neg (ident 1 m)) (zeros (nr G) e)) as (g1 & -> & Q1 & Q2 & Q3); [cbn; lia|auto|].
      cbn [bind]. cbn [neg ident zeros nr nc] in P1, P2, Q1, Q2. destruct (vs_ok g0 g1) as (g & Eg & T1 & T2 & T3 & T4); [lia|]. exists g. split; [exact Eg|]. split; [lia|]. split; [|intros; lia]. intros _. split; [lia|]. intros x i Hi. split.
      + rewrite T3 by lia. rewrite P3, !rs_neg, rs_ident, rs_zeros by auto. cbn [neg nc]. rewrite CG. ring.
      + replace (m + i)%nat with (nr g0 + i)%nat by lia. rewrite T4, Q3, rs_neg, rs_ident, rs_zeros by auto. rewrite CG. ring.
    - eexists. split; [reflexivity|]. split; auto. split; [lia|auto]. }
  destruct EC as (A2 & -> & C2 & SD1 & SD2). cbn [bind]. destruct (vs_ok A1 A2) as (A3 & -> & R3 & C3 & S3 & S3'); [lia|]. cbn [bind].
  assert (EF : exists Fg, (if Nat.eqb d 1 then Ok (zeros 0 (n + m + e)) else do f0 <- hstack2 G (zeros (nr G) (m + e)); do f1 <- hstack3 (zeros m n) (ident 1 m) (zeros m e); vstack2 f0 f1) = Ok Fg
      /\ nc Fg = (n + m + e)%nat /\ (d = 1%nat -> nr Fg = 0%nat) /\ (d <> 1%nat -> nr Fg = (d * m + m)%nat /\ (forall x i, (i < d * m)%nat -> rowsum Fg x i = rowsum G x i) /\ forall x i, (i < m)%nat -> rowsum Fg x (d * m + i)%nat = x (n + i)%nat)).
  { destruct (Nat.eqb_spec d 1) as [D1|D1].
    - eexists. split; [reflexivity|]. split; auto. split; [auto|lia].
    - destruct (hs_ok G (zeros (nr G) (m + e)) eq_refl) as (f0 & -> & P1 & P2 & P3). destruct (hs3_ok (zeros m n) (ident 1 m) (zeros m e)) as (f1 & -> & Q1 & Q2 & Q3); auto. cbn [bind]. cbn [ident zeros nr nc] in P2, Q1, Q2.
      destruct (vs_ok f0 f1) as (g & Eg & T1 & T2 & T3 & T4); [lia|]. exists g. split; [exact Eg|]. split; [lia|]. split; [lia|]. intros _. split; [lia|]. split; intros x i Hi.
      + rewrite T3 by lia. rewrite P3, rs_zeros. ring.
      + replace (d * m + i)%nat with (nr f0 + i)%nat by lia. rewrite T4, Q3, !rs_zeros, rs_ident by auto. cbn [zeros nc]. ring. }
  destruct EF as (Fg & -> & CF & FD1 & FD2). cbn [bind].
  assert (EL : exists Fl, match Lt with
           | Some L => if Nat.eqb lt 0 then Ok (zeros 0 (n + m + e))
                       else do l0 <- hstack2 L (zeros (nr L) (m + e)); do l1 <- hstack2 (zeros 1 (n + m)) (ident 1 1); vstack3 l0 l1 (zeros 1 (n + m + e))
           | None => Ok (zeros 0 (n + m + e)) end = Ok Fl /\ nc Fl = (n + m + e)%nat /\ (e = 0%nat -> nr Fl = 0%nat) /\
           (e = 1%nat -> nr Fl = (lt + 2)%nat /\ exists L, Lt = Some L /\ nr L = lt /\ (forall x i, (i < lt)%nat -> rowsum Fl x i = rowsum L x i) /\ (forall x, rowsum Fl x lt = x (n + m)%nat) /\ forall x, rowsum Fl x (lt + 1)%nat = 0)).
  { assert (LN : Lt = None -> lt = 0%nat) by (unfold lt; intros ->; auto).
    destruct Lt as [L|] eqn:EqL.
    - destruct (Nat.eqb_spec lt 0) as [L0|L0].
      + eexists. split; [reflexivity|]. split; auto. split; [auto|lia].
      + destruct EE as [?|(_ & E1)]; [lia|]. subst e. destruct (hs_ok L (zeros (nr L) (m + 1)) eq_refl) as (l0 & -> & P1 & P2 & P3). destruct (hs_ok (zeros 1 (n + m)) (ident 1 1) eq_refl) as (l1 & -> & Q1 & Q2 & Q3). cbn [bind].
        cbn [ident zeros nr nc] in P2, Q1, Q2. rewrite (LC L eq_refl) in P2. unfold vstack3. destruct (vs_ok l0 l1) as (v1 & -> & T1 & T2 & T3 & T4); [lia|]. cbn [bind]. destruct (vs_ok v1 (zeros 1 (n + m + 1))) as (v2 & -> & U1 & U2 & U3 & U4); [cbn; lia|].
        cbn [zeros nr nc] in U1. assert (RL : nr L = lt) by reflexivity. exists v2. split; [reflexivity|]. split; [lia|]. split; [lia|]. intros _. split; [lia|]. exists L. split; auto. split; auto. split; [|split].
        * intros x i Hi. rewrite U3, T3 by lia. rewrite P3, rs_zeros. ring.
        * intros x. rewrite U3 by lia. replace lt with (nr l0 + 0)%nat by lia. rewrite T4, Q3, rs_zeros, rs_ident by lia. cbn [zeros nc]. rewrite Nat.add_0_r. ring.
        * intros x. replace (lt + 1)%nat with (nr v1 + 0)%nat by lia. rewrite U4. apply rs_zeros.
    - specialize (LN eq_refl). eexists. split; [reflexivity|]. split; auto. split; [auto|lia]. }
  destruct EL as (Fl & -> & CFl & FL0 & FL1). cbn [bind]. destruct (vs_ok Fg Fl) as (F & -> & RF & CFF & SF & SF'); [lia|]. cbn [bind].
  (* the variable bounds *)
  set (kl := match ak a with Some k => k | None => [] end). set (yl := match ay a with Some y => y | None => [] end).
  assert (EV : exists vb, match ak a, ay a with Some k, Some y => fix_vars n k y (repeat Free n ++ repeat (Low 0) (m + e)) | _, _ => Ok (repeat Free n ++ repeat (Low 0) (m + e)) end = Ok vb
     /\ length vb = (n + m + e)%nat /\ (forall j, (j < length kl)%nat -> nth (Z.to_nat (nth j kl 0%Z)) vb Free = Fixed (nth j yl 0)) /\ (forall i, (n <= i < n + m + e)%nat -> nth i vb Free = Low 0)
     /\ (forall i, (i < n)%nat -> ~ In (Z.of_nat i) kl -> nth i vb Free = Free) /\ Forall (fun i => (0 <= i < Z.of_nat n)%Z) kl).
  { assert (LV : length (repeat Free n ++ repeat (Low 0) (m + e)) = (n + m + e)%nat) by (rewrite app_length, !repeat_length; lia).
    unfold kl, yl. destruct (ak a) as [k|], (ay a) as [y|]; try contradiction.
    - destruct VK as (LK & FK). unfold fix_vars. replace (forallb _ k) with true.
      2:{ symmetry. apply forallb_forall. intros z I. rewrite Forall_forall in FK. apply FK in I. apply andb_true_intro. rewrite LV. split; [apply Z.leb_le|apply Z.ltb_lt]; lia. }
      destruct (fix_ok k y (repeat Free n ++ repeat (Low 0) (m + e)) LK) as (X1 & X2 & X3); [|apply ND; auto|].
      { rewrite LV. eapply Forall_impl; [|exact FK]. cbn. lia. }
      cbn zeta in X1, X2, X3. eexists. split; [reflexivity|]. split; [rewrite X1; auto|]. split; [exact X2|]. split; [|split; [|auto]].
      + intros i Hi. rewrite X3. { rewrite nth_vb. destruct (Nat.ltb_spec i n); [lia|]. destruct (Nat.ltb_spec i (n + (m + e))); [auto|lia]. } intros I. rewrite Forall_forall in FK. apply FK in I. lia.
      + intros i Hi NI. rewrite X3 by auto. rewrite nth_vb. destruct (Nat.ltb_spec i n); [auto|lia].
    - eexists. split; [reflexivity|]. split; [auto|]. cbn [length]. split; [intros; lia|]. split; [|split; [|constructor]].
      + intros i Hi. rewrite nth_vb. destruct (Nat.ltb_spec i n); [lia|]. destruct (Nat.ltb_spec i (n + (m + e))); [auto|lia].
      + intros i Hi _. rewrite nth_vb. destruct (Nat.ltb_spec i n); [auto|lia]. }
  destruct EV as (vb & -> & LV & VB1 & VB2 & VB3 & FK). cbn [bind].
  eexists. exists e. split; [reflexivity|]. set (p := {| k_n := _ |}).
  assert (LCC : length (def_c a n) = n) by (unfold def_c; destruct (ac a); [auto|apply repeat_length]).
  assert (GF : forall i, (i < nr F)%nat -> nth i (k_g p) 0 = if Nat.eqb e 1 && Nat.eqb i (nr F - 1) then 1 else 0).
  { intros i Hi. cbn [p k_g]. destruct (Nat.eqb_spec lt 0).
    - destruct EE as [(_ & ->)|?]; [|lia]. cbn [Nat.eqb andb]. apply nth_rep0.
    - destruct EE as [?|(_ & ->)]; [lia|]. cbn [Nat.eqb andb]. destruct (Nat.eqb_spec i (nr F - 1)) as [->|].
      + rewrite app_nth2; rewrite repeat_length; [|lia]. rewrite Nat.sub_diag. auto.
      + rewrite app_nth1 by (rewrite repeat_length; lia). apply nth_rep0. }
  assert (RD1 : d = 1%nat -> nr A2 = (m + m)%nat) by (intros X; apply SD1, X). assert (RD2 : d <> 1%nat -> nr Fg = (d * m + m)%nat) by (intros X; apply FD2, X).
  assert (RL1 : e = 1%nat -> nr Fl = (lt + 2)%nat) by (intros X; apply FL1, X).
  split; [|split; [reflexivity|split; [lia|split; [|split]]]].
  - unfold msk_well_formed. cbn [p k_c k_n k_vb k_A k_cb k_F k_g k_cones]. rewrite !app_length, !map_length, !repeat_length. split; [lia|]. split; [lia|]. split; [lia|]. split; [lia|]. split; [lia|]. split.
    + destruct (Nat.eqb_spec lt 0); [apply repeat_length|]. rewrite app_length, repeat_length. cbn. lia.
    + apply Forall_app. split.
      * destruct (Nat.eqb_spec lt 0); [constructor|]. constructor; [|constructor]. destruct EE as [?|(_ & E1)]; [lia|]. specialize (RL1 E1). constructor; [lia|]. constructor; [lia|]. apply Forall_forall. intros i I. apply in_seq in I. lia.
      * destruct (Nat.eqb_spec d 1) as [|N1]; [constructor|]. specialize (RD2 N1). apply Forall_forall. intros c I. apply in_map_iff in I as (i & <- & I). apply in_seq in I. constructor; [lia|].
        apply Forall_forall. intros j J. apply in_map_iff in J as (j' & <- & J). apply in_seq in J. nia.
  - intros E0 u. rewrite QT. unfold lt in EE. destruct Lt as [L|]; auto. destruct EE as [(-> & _)|?]; [reflexivity|lia].
  - intros x Lx. set (u := firstn n x). cbn [p k_n] in Lx.
    assert (GU : forall i, rowsum G (X x) i = mv G u i) by (intros; apply rs_first; auto).
    assert (T1 : forall i, (i < an)%nat -> exists A' b, aA a = Some A' /\ ab a = Some b /\ mv A3 x i = mv A' u i /\ nth i (k_cb p) (CFix 0) = CFix (at_ b i 0%nat)).
    { intros i Hi. cbn [p k_cb]. rewrite mv_rowsum, S3 by lia. rewrite S1, rs_zeros, Rplus_0_r. rewrite app_nth1 by (rewrite map_length; lia). unfold A, bl in *. destruct (aA a) as [A'|] eqn:EA; [|unfold an in Hi; lia].
      destruct (ab a) as [b|] eqn:EB; [|contradiction]. exists A', b. split; auto. split; auto. destruct VA as (VA1 & _ & _). assert (NA : nr A' = an) by (unfold an; auto). destruct (Nat.eqb_spec an 0); [lia|]. split; [apply rs_first; auto|].
      rewrite (map_nth CFix). f_equal. rewrite (nth_indep _ _ (at_ b 0%nat 0%nat)) by (rewrite map_length, seq_length; lia). rewrite (map_nth (fun i => at_ b i 0%nat)), seq_nth by lia. auto. }
    assert (T2 : forall i, (i < nr A2)%nat -> mv A3 x (an + i)%nat = rowsum A2 (X x) i /\ nth (an + i) (k_cb p) (CFix 0) = CUp 0).
    { intros i Hi. split; [rewrite mv_rowsum; replace (an + i)%nat with (nr A1 + i)%nat by lia; apply S3'|]. cbn [p k_cb]. rewrite app_nth2 by (rewrite map_length; lia). rewrite map_length, LB.
      rewrite (nth_indep _ _ (CUp 0)) by (rewrite repeat_length; lia). apply nth_repeat. }
    (* cones *)
    assert (TQ : e = 1%nat -> (in_cone (afe p x) (RQuad ((nr F - 1)%nat :: (nr F - 2)%nat :: seq (nr F - lt - 2) lt)) <-> 0 <= nth (n + m) x 0 /\ qterm a u <= 2 * nth (n + m) x 0)).
    { intros E1. specialize (RL1 E1). destruct (FL1 E1) as (_ & L & EqL & NL & H1 & H2 & H3). cbn [in_cone].
      assert (W1 : afe p x (nr F - 1)%nat = 1). { unfold afe. rewrite GF by lia. rewrite E1, Nat.eqb_refl. cbn [Nat.eqb andb p k_F]. rewrite mv_rowsum. replace (nr F - 1)%nat with (nr Fg + (lt + 1))%nat by lia. rewrite SF', H3, Nat.eqb_refl. ring. }
      assert (W2 : afe p x (nr F - 2)%nat = nth (n + m) x 0). { unfold afe. rewrite GF by lia. rewrite (proj2 (Nat.eqb_neq (nr F - 2) (nr F - 1))) by lia. rewrite andb_false_r. cbn [p k_F]. rewrite mv_rowsum. replace (nr F - 2)%nat with (nr Fg + lt)%nat by lia. rewrite SF', H2. unfold X. ring. }
      assert (W3 : forall j, (j < lt)%nat -> afe p x (nth j (seq (nr F - lt - 2) lt) 0%nat) = mv L u j).
      { intros j Hj. rewrite seq_nth by auto. unfold afe. rewrite GF by lia. rewrite (proj2 (Nat.eqb_neq (nr F - lt - 2 + j) (nr F - 1))) by lia. rewrite andb_false_r. cbn [p k_F]. rewrite mv_rowsum.
        replace (nr F - lt - 2 + j)%nat with (nr Fg + j)%nat by lia. rewrite SF', H1 by auto. rewrite (rs_first L x n) by auto. apply Rplus_0_r. }
      rewrite W1, W2, seq_length. rewrite (sumn_ext lt _ (fun j => mv L u j * mv L u j)) by (intros j Hj; rewrite W3; auto).
      assert (W4 : qterm a u = sumn lt (fun j => mv L u j * mv L u j)) by (rewrite QT, EqL; rewrite NL; auto). rewrite W4. lra. }
    assert (TC : d <> 1%nat -> forall i, (i < m)%nat -> (in_cone (afe p x) (Quad ((d * m + i)%nat :: map (fun j => (d * i + j)%nat) (seq 0 d))) <-> gnorm a n u i <= nth (n + i) x 0)).
    { intros N1 i Hi. specialize (RD2 N1). destruct (FD2 N1) as (_ & H1 & H2). cbn [in_cone]. rewrite map_length, seq_length.
      assert (NF : forall j, (j < d * m + m)%nat -> Nat.eqb e 1 && Nat.eqb j (nr F - 1) = false). { intros j Hj. destruct (Nat.eqb_spec e 1) as [E1|]; auto. specialize (RL1 E1). destruct (Nat.eqb_spec j (nr F - 1)); [lia|auto]. }
      assert (W1 : afe p x (d * m + i)%nat = nth (n + i) x 0). { unfold afe. rewrite GF, NF by lia. cbn [p k_F]. rewrite mv_rowsum, SF, H2 by lia. unfold X. ring. }
      rewrite W1. rewrite (enorm_ext d _ (fun j => mv G u (d * i + j)%nat)). { unfold gnorm. fold d G. tauto. }
      intros j Hj. rewrite (nth_indep _ _ (d * i + 0)%nat) by (rewrite map_length, seq_length; auto). rewrite (map_nth (fun j => (d * i + j)%nat)), seq_nth by auto. cbn [Nat.add].
      assert (d * i + j < d * m)%nat by nia. unfold afe. rewrite GF, NF by lia. cbn [p k_F]. rewrite mv_rowsum, SF, H1 by lia. rewrite GU. ring. }
    assert (EN : d = 1%nat -> forall i, gnorm a n u i = Rabs (mv G u i)). { intros E1 i. unfold gnorm. fold d G. rewrite E1, enorm_1. do 2 f_equal. lia. }
    unfold msk_feasible. cbn [p k_n k_vb k_A k_cones]. fold p.
    assert (UX : forall i, (i < n)%nat -> nth i u 0 = nth i x 0) by (intros; apply nth_firstn_lt; auto).
    split.
    + intros (_ & HV & HA & HC). apply Forall_app in HC as (HC1 & HC2). split; [split|split].
      * intros k y Ek Ey j Hj. assert (kl = k) by (unfold kl; rewrite Ek; auto). assert (yl = y) by (unfold yl; rewrite Ey; auto). subst k y. rewrite Forall_forall in FK. pose proof (FK _ (nth_In kl 0%Z Hj)) as B.
        specialize (HV (Z.to_nat (nth j kl 0%Z)) ltac:(lia)). rewrite (VB1 j Hj) in HV. cbn in HV. rewrite UX by lia. auto.
      * intros A' b EA EB i Hi. assert (Hi' : (i < an)%nat) by (unfold an; rewrite EA; auto). specialize (HA i ltac:(lia)). destruct (T1 i Hi') as (A'' & b' & Q1 & Q2 & Q3 & Q4). rewrite EA in Q1. rewrite EB in Q2. injection Q1 as <-. injection Q2 as <-.
        rewrite Q4, Q3 in HA. exact HA.
      * intros i Hi. assert (Z0 : 0 <= nth (n + i) x 0). { specialize (HV (n + i)%nat ltac:(lia)). rewrite VB2 in HV by lia. exact HV. } split; auto.
        destruct (Nat.eqb_spec d 1) as [D1|D1].
        -- rewrite EN by auto. destruct (SD1 D1) as (_ & SD). pose proof (HA (an + i)%nat ltac:(lia)) as H1. pose proof (HA (an + (m + i))%nat ltac:(lia)) as H2. destruct (T2 i ltac:(lia)) as (Q1 & Q2). destruct (T2 (m + i)%nat ltac:(lia)) as (Q3 & Q4).
           rewrite Q1, Q2 in H1. rewrite Q3, Q4 in H2. destruct (SD (X x) i Hi) as (Q5 & Q6). rewrite Q5, GU in H1. rewrite Q6, GU in H2. cbn [cb_ok] in H1, H2. unfold X in *. apply Rabs_le. lra.
        -- apply TC; auto. rewrite Forall_forall in HC2. apply HC2. apply in_map_iff. exists i. split; auto. apply in_seq. lia.
      * intros E1. destruct (Nat.eqb_spec lt 0); [lia|]. pose proof (Forall_inv HC1) as HQ. apply TQ in HQ; tauto.
    + intros ((FKK & FA) & HC & HQ). split; [auto|]. split; [|split].
      * intros i Hi. destruct (Nat.lt_ge_cases i n) as [L|L].
        -- destruct (in_dec Z.eq_dec (Z.of_nat i) kl) as [I|I].
           ++ apply (In_nth _ _ 0%Z) in I as (j & Hj & Ej). pose proof (VB1 j Hj) as Q. rewrite Ej, Nat2Z.id in Q. rewrite Q. cbn. rewrite <- UX by auto. unfold kl, yl in *. destruct (ak a) as [k|]; [|cbn in Hj; lia]. destruct (ay a) as [y|]; [|contradiction].
              rewrite <- (FKK k y eq_refl eq_refl j Hj). f_equal. rewrite Ej. lia.
           ++ rewrite VB3 by auto. exact Logic.I.
        -- rewrite VB2 by lia. cbn. destruct (Nat.lt_ge_cases i (n + m)) as [L2|L2]; [replace i with (n + (i - n))%nat by lia; apply HC; lia|].
           assert (E1 : e = 1%nat) by lia. specialize (HQ E1). replace i with (n + m)%nat by lia. rewrite QT in HQ. assert (P0 : 0 <= match Lt with Some L => sumn (nr L) (fun i => mv L u i * mv L u i) | None => 0 end); [|lra].
           destruct Lt as [L'|]; [|lra]. unfold sumn. apply sumf_nonneg. intros. nra.
      * intros i Hi. destruct (Nat.lt_ge_cases i an) as [L|L].
        -- destruct (T1 i L) as (A' & b & Q1 & Q2 & Q3 & Q4). rewrite Q3, Q4. cbn. apply (FA A' b Q1 Q2). unfold an in L. rewrite Q1 in L. auto.
        -- destruct (Nat.eqb_spec d 1) as [D1|D1]; [|pose proof (SD2 D1); lia]. specialize (RD1 D1). destruct (SD1 D1) as (_ & SD). destruct (T2 (i - an)%nat ltac:(lia)) as (Q1 & Q2). replace (an + (i - an))%nat with i in Q1, Q2 by lia. rewrite Q1, Q2. cbn [cb_ok].
           destruct (Nat.lt_ge_cases (i - an) m) as [L2|L2].
           ++ destruct (SD (X x) (i - an)%nat L2) as (-> & _). destruct (HC _ L2) as (_ & H). rewrite EN in H by auto. rewrite GU. unfold X. pose proof (Rle_abs (- mv G u (i - an))) as Q. rewrite Rabs_Ropp in Q. lra.
           ++ destruct (SD (X x) (i - an - m)%nat ltac:(lia)) as (_ & Q5). replace (m + (i - an - m))%nat with (i - an)%nat in Q5 by lia. rewrite Q5. destruct (HC (i - an - m)%nat ltac:(lia)) as (_ & H). rewrite EN in H by auto. rewrite GU. unfold X.
              pose proof (Rle_abs (mv G u (i - an - m))). lra.
      * apply Forall_app. split.
        -- destruct (Nat.eqb_spec lt 0); [constructor|]. destruct EE as [?|(_ & E1)]; [lia|]. constructor; [|constructor]. apply TQ; auto. split; [|auto]. specialize (HQ E1). rewrite QT in HQ.
           assert (P0 : 0 <= match Lt with Some L => sumn (nr L) (fun i => mv L u i * mv L u i) | None => 0 end); [|lra]. destruct Lt as [L'|]; [|lra]. unfold sumn. apply sumf_nonneg. intros. nra.
        -- destruct (Nat.eqb_spec d 1) as [D1|D1]; [constructor|]. apply Forall_forall. intros c I. apply in_map_iff in I as (i & <- & I). apply in_seq in I. apply TC; [auto|lia|]. apply HC. lia.
  - intros x Lx. unfold msk_value. cbn [p k_n k_c]. rewrite !sumn_app. rewrite app_assoc.
    assert (E2 : sumn n (fun i => nth i ((def_c a n ++ repeat 1 m) ++ repeat 1 e) 0 * nth i x 0) = lterm a n (firstn n x)).
    { unfold lterm, def_c. destruct (ac a) as [c|] eqn:Ec.
      - apply sumn_ext. intros i Hi. rewrite <- app_assoc, app_nth1 by (rewrite (VC c eq_refl); auto). rewrite nth_firstn_lt by auto. auto.
      - unfold sumn. apply sumf_zero. intros i I. apply in_seq in I. rewrite <- app_assoc, app_nth1 by (rewrite repeat_length; lia). rewrite nth_repeat. ring. }
    rewrite E2. f_equal; [f_equal|].
    + apply sumn_ext. intros i Hi. rewrite <- app_assoc. replace (n + i)%nat with (length (def_c a n) + i)%nat by lia. rewrite nth_app_add, app_nth1 by (rewrite repeat_length; auto). rewrite nth_rep1 by auto. ring.
    + apply sumn_ext. intros i Hi. replace (n + m + i)%nat with (length (def_c a n ++ repeat 1%R m) + i)%nat by (rewrite app_length, repeat_length; lia). rewrite nth_app_add, nth_rep1 by auto. ring.
Qed.
