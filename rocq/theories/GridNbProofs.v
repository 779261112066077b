From Verif Require Import NumpyModel NumpyProofs GridNbModel.
From Coq Require Import Psatz Permutation.
Open Scope Z_scope.

(** a walk of exactly n steps of relation R *)
Fixpoint walk {A} (R : A -> A -> Prop) (n : nat) (a b : A) : Prop :=
  match n with O => a = b | S n => exists m, R a m /\ walk R n m b end.
Lemma walk_app {A} (R : A -> A -> Prop) n m a b : walk R (n + m) a b <-> exists c, walk R n a c /\ walk R m c b.
Proof.
  revert a. induction n as [|n IH]; intros a; cbn.
  - split; [intros W; exists a; auto | intros (c & -> & W); auto].
  - split.
    + intros (x & H & W). apply IH in W as (c & W1 & W2). exists c. split; eauto.
    + intros (c & (x & H & W1) & W2). exists x. split; auto. apply IH. eauto.
Qed.
Definition hits (rows : list nrow) (c d : Z) : Prop := exists r, In r rows /\ r c = (d, false).
Lemma hits_double rows c d : hits (double rows) c d <-> hits rows c d \/ exists e, hits rows c e /\ hits rows e d.
Proof.
  unfold hits, double. split.
  - intros (r & I & Q). apply in_app_iff in I as [I|I]; [left; eauto|right].
    apply in_flat_map in I as (f & If & I). apply in_map_iff in I as (g & <- & Ig). unfold comp_row in Q.
    destruct (f c) as [e b] eqn:Ef. destruct (g e) as [d' b'] eqn:Eg. injection Q as -> Q. apply orb_false_iff in Q as [-> ->]. exists e. split; [exists f | exists g]; auto.
  - intros [(r & I & Q)|(e & (f & If & Qf) & (g & Ig & Qg))].
    + exists r. rewrite in_app_iff. auto.
    + exists (comp_row f g). split; [apply in_app_iff; right; apply in_flat_map; exists f; split; auto; apply in_map; auto|].
      unfold comp_row. rewrite Qf, Qg. auto.
Qed.
Lemma hits_iter rows k c d : hits (Nat.iter k double rows) c d <-> exists n, (1 <= n <= 2 ^ k)%nat /\ walk (hits rows) n c d.
Proof.
  revert c d. induction k as [|k IH]; intros c d.
  - cbn. split.
    + intros H. exists 1%nat. split; [lia|]. cbn. eauto.
    + intros (n & Hn & W). replace n with 1%nat in W by lia. cbn in W. destruct W as (m & H & ->). auto.
  - change (Nat.iter (S k) double rows) with (double (Nat.iter k double rows)). rewrite hits_double.
    assert (P : (2 ^ S k = 2 ^ k + 2 ^ k)%nat) by (cbn; lia). assert (0 < 2 ^ k)%nat by (apply Nat.neq_0_lt_0, Nat.pow_nonzero; lia). split.
    + intros [H1|(e & H1 & H2)].
      * apply IH in H1 as (n & Hn & W). exists n. split; [lia|auto].
      * apply IH in H1 as (n & Hn & W). apply IH in H2 as (m & Hm & W'). exists (n + m)%nat. split; [lia|]. apply walk_app. eauto.
    + intros (n & Hn & W). destruct (le_gt_dec n (2 ^ k)).
      * left. apply IH. exists n. split; [lia|auto].
      * right. replace n with (2 ^ k + (n - 2 ^ k))%nat in W by lia. apply walk_app in W as (e & W1 & W2). exists e.
        split; apply IH; [exists (2 ^ k)%nat | exists (n - 2 ^ k)%nat]; split; auto; lia.
Qed.
(** entries other than -1 *)
Lemma finish_hits order rows c d : 0 <= d -> (exists r, In r (finish order false rows) /\ r c = d) <-> hits (iterate order rows) c d.
Proof.
  intros Hd. unfold finish, hits. split.
  - intros (r & I & Q). apply in_map_iff in I as (f & <- & I). exists f. split; auto. unfold final in Q. destruct (f c) as [e b]. cbn in Q. destruct b; [lia|]. subst. auto.
  - intros (f & I & Q). exists (final f). split; [apply in_map; auto|]. unfold final. rewrite Q. auto.
Qed.

(** ** positions *)
Lemma ravel2_range g0 g1 p : 0 < g0 -> 0 < g1 -> 0 <= ravel2 g0 g1 p < g0 * g1.
Proof. intros. unfold ravel2. pose proof (Z.mod_pos_bound (fst p) g0). pose proof (Z.mod_pos_bound (snd p) g1). nia. Qed.
Lemma ravel3_range g0 g1 g2 p : 0 < g0 -> 0 < g1 -> 0 < g2 -> 0 <= ravel3 g0 g1 g2 p < g0 * g1 * g2.
Proof.
  intros. destruct p as [[z y] x]. unfold ravel3. pose proof (Z.mod_pos_bound z g0). pose proof (Z.mod_pos_bound y g1). pose proof (Z.mod_pos_bound x g2).
  assert (0 <= y mod g1 + g1 * (x mod g2) < g1 * g2) by nia. nia.
Qed.
Definition inside2 (g0 g1 : Z) (p : Z * Z) : Prop := 0 <= fst p < g0 /\ 0 <= snd p < g1.
Definition inside3 (g0 g1 g2 : Z) (p : Z * Z * Z) : Prop := let '(z, y, x) := p in 0 <= z < g0 /\ 0 <= y < g1 /\ 0 <= x < g2.
Lemma oob2_spec g0 g1 p : oob2 g0 g1 p = false <-> inside2 g0 g1 p.
Proof. unfold oob2, inside2. rewrite !orb_false_iff, !Z.ltb_ge, !Z.leb_gt. lia. Qed.
Lemma oob3_spec g0 g1 g2 p : oob3 g0 g1 g2 p = false <-> inside3 g0 g1 g2 p.
Proof. unfold oob3, inside3. destruct p as [[z y] x]. rewrite !orb_false_iff, !Z.ltb_ge, !Z.leb_gt. lia. Qed.
Lemma unravel2_inside g0 g1 c : 0 < g0 -> 0 < g1 -> 0 <= c < g0 * g1 -> inside2 g0 g1 (unravel2 g0 c).
Proof.
  intros H0 H1 Hc. unfold unravel2, inside2. cbn [fst snd]. pose proof (Z.mod_pos_bound c g0 H0). split; auto.
  split; [apply Z.div_pos; lia | apply Z.div_lt_upper_bound; lia].
Qed.
Lemma ravel_unravel2 g0 g1 c : 0 < g0 -> 0 < g1 -> 0 <= c < g0 * g1 -> ravel2 g0 g1 (unravel2 g0 c) = c.
Proof.
  intros H0 H1 Hc. pose proof (unravel2_inside g0 g1 c H0 H1 Hc) as [I J]. unfold ravel2. rewrite (Z.mod_small _ _ I), (Z.mod_small _ _ J). unfold unravel2. cbn [fst snd].
  pose proof (Z.div_mod c g0). lia.
Qed.
Lemma unravel_ravel2 g0 g1 p : 0 < g0 -> inside2 g0 g1 p -> unravel2 g0 (ravel2 g0 g1 p) = p.
Proof.
  intros H0 [I J]. unfold ravel2. rewrite (Z.mod_small _ _ I), (Z.mod_small _ _ J). unfold unravel2. rewrite (Z.mul_comm g0).
  rewrite Z.mod_add, Z.div_add, Z.mod_small, Z.div_small by lia. destruct p; auto.
Qed.
Lemma unravel3_inside g0 g1 g2 c : 0 < g0 -> 0 < g1 -> 0 < g2 -> 0 <= c < g0 * g1 * g2 -> inside3 g0 g1 g2 (unravel3 g0 g1 c).
Proof.
  intros H0 H1 H2 Hc. unfold unravel3, inside3. pose proof (Z.mod_pos_bound c g0 H0). pose proof (Z.mod_pos_bound (c / g0) g1 H1). split; auto. split; auto.
  assert (0 <= c / g0 < g1 * g2) by (split; [apply Z.div_pos; lia | apply Z.div_lt_upper_bound; nia]).
  split; [apply Z.div_pos; lia | apply Z.div_lt_upper_bound; lia].
Qed.
Lemma ravel_unravel3 g0 g1 g2 c : 0 < g0 -> 0 < g1 -> 0 < g2 -> 0 <= c < g0 * g1 * g2 -> ravel3 g0 g1 g2 (unravel3 g0 g1 c) = c.
Proof.
  intros H0 H1 H2 Hc. pose proof (unravel3_inside g0 g1 g2 c H0 H1 H2 Hc) as (I & J & K). unfold ravel3, unravel3. rewrite (Z.mod_small _ _ I), (Z.mod_small _ _ J), (Z.mod_small _ _ K).
  pose proof (Z.div_mod c g0 ltac:(lia)). pose proof (Z.div_mod (c / g0) g1 ltac:(lia)). nia.
Qed.
Lemma unravel_ravel3 g0 g1 g2 p : 0 < g0 -> 0 < g1 -> inside3 g0 g1 g2 p -> unravel3 g0 g1 (ravel3 g0 g1 g2 p) = p.
Proof.
  intros H0 H1. destruct p as [[z y] x]. intros (I & J & K). unfold ravel3. rewrite (Z.mod_small _ _ I), (Z.mod_small _ _ J), (Z.mod_small _ _ K). unfold unravel3. rewrite (Z.mul_comm g0).
  rewrite Z.mod_add, Z.div_add, Z.mod_small, Z.div_small by lia. rewrite Z.add_0_l, (Z.mul_comm g1).
  rewrite Z.mod_add, Z.div_add, Z.mod_small, Z.div_small by lia. auto.
Qed.

(** ** the neighbour relation *)
Definition near2 (diag self : bool) (p q : Z * Z) : Prop :=
  let dy := Z.abs (fst q - fst p) in let dx := Z.abs (snd q - snd p) in
  (dy + dx = 1 \/ (diag = true /\ Z.max dy dx = 1) \/ (self = true /\ p = q)).
Definition near3 (diag self : bool) (p q : Z * Z * Z) : Prop :=
  let '(z, y, x) := p in let '(z', y', x') := q in
  let dz := Z.abs (z' - z) in let dy := Z.abs (y' - y) in let dx := Z.abs (x' - x) in
  (dz + dy + dx = 1 \/ (diag = true /\ Z.max dz (Z.max dy dx) = 1) \/ (self = true /\ p = q)).
Lemma offs2_spec diag self p q : (exists o, In o (offs2 diag self) /\ q = add2z p o) <-> near2 diag self p q.
Proof.
  destruct p as [y x], q as [y' x']. unfold near2, offs2, add2z. cbn [fst snd]. split.
  - intros ([dy dx] & I & Q). cbn [fst snd] in Q. injection Q as -> ->.
    rewrite !in_app_iff in I. destruct I as [I|[I|I]].
    + destruct self; cbn in I; [|tauto]. destruct I as [I|[]]. injection I as <- <-. right. right. split; auto. f_equal; lia.
    + cbn in I. left. intuition; match goal with H : (_,_) = (_,_) |- _ => injection H as <- <- end; lia.
    + destruct diag; cbn in I; [|tauto]. right. left. split; auto. intuition; match goal with H : (_,_) = (_,_) |- _ => injection H as <- <- end; lia.
  - intros H. exists (y' - y, x' - x). split; [|cbn; f_equal; lia].
    rewrite !in_app_iff. destruct H as [H|[[-> H]|[-> H]]].
    + right. left. assert (C : (y' - y = 0 /\ x' - x = -1) \/ (y' - y = 0 /\ x' - x = 1) \/ (y' - y = -1 /\ x' - x = 0) \/ (y' - y = 1 /\ x' - x = 0)) by lia.
      destruct C as [[-> ->]|[[-> ->]|[[-> ->]|[-> ->]]]]; cbn; tauto.
    + right. assert (C : -1 <= y' - y <= 1 /\ -1 <= x' - x <= 1 /\ ~ (y' - y = 0 /\ x' - x = 0)) by lia.
      assert (E1 : y' - y = -1 \/ y' - y = 0 \/ y' - y = 1) by lia. assert (E2 : x' - x = -1 \/ x' - x = 0 \/ x' - x = 1) by lia.
      destruct C as (_ & _ & C). destruct E1 as [e1|[e1|e1]], E2 as [e2|[e2|e2]]; try (exfalso; lia); rewrite e1, e2; cbn; tauto.
    + left. injection H as -> ->. cbn. left. f_equal; lia.
Qed.
Lemma offs3_spec diag self p q : (exists o, In o (offs3 diag self) /\ q = add3z p o) <-> near3 diag self p q.
Proof.
  destruct p as [[z y] x], q as [[z' y'] x']. unfold near3, offs3, add3z. split.
  - intros ([[dz dy] dx] & I & Q). injection Q as -> -> ->.
    rewrite !in_app_iff in I. destruct I as [I|[I|I]].
    + destruct self; cbn in I; [|tauto]. destruct I as [I|[]]. injection I as <- <- <-. right. right. split; auto. f_equal; [f_equal|]; lia.
    + cbn in I. left. repeat (destruct I as [I|I]); try contradiction; injection I as <- <- <-; lia.
    + destruct diag; cbn in I; [|tauto]. right. left. split; auto. repeat (destruct I as [I|I]); try contradiction; injection I as <- <- <-; lia.
  - intros H. exists (z' - z, y' - y, x' - x). split; [|cbn; f_equal; [f_equal|]; lia].
    rewrite !in_app_iff. destruct H as [H|[[-> H]|[-> H]]].
    + right. left. assert (C : (z' - z = 0 /\ y' - y = 0 /\ (x' - x = -1 \/ x' - x = 1)) \/ (z' - z = 0 /\ (y' - y = -1 \/ y' - y = 1) /\ x' - x = 0) \/ ((z' - z = -1 \/ z' - z = 1) /\ y' - y = 0 /\ x' - x = 0)) by lia.
      destruct C as [(-> & -> & [-> | ->])|[(-> & [-> | ->] & ->)|([-> | ->] & -> & ->)]]; cbn; tauto.
    + right. assert (C : ~ (z' - z = 0 /\ y' - y = 0 /\ x' - x = 0)) by lia.
      assert (E0 : z' - z = -1 \/ z' - z = 0 \/ z' - z = 1) by lia. assert (E1 : y' - y = -1 \/ y' - y = 0 \/ y' - y = 1) by lia. assert (E2 : x' - x = -1 \/ x' - x = 0 \/ x' - x = 1) by lia.
      clear H. destruct E0 as [e0|[e0|e0]], E1 as [e1|[e1|e1]], E2 as [e2|[e2|e2]]; try (exfalso; lia); rewrite e0, e1, e2; cbn; tauto.
    + left. injection H as -> -> ->. cbn. left. f_equal; [f_equal|]; lia.
Qed.
Section Two.
  Variables (g0 g1 : Z) (diag self : bool).
  Hypotheses (H0 : 0 < g0) (H1 : 0 < g1).
  Definition step2 (p q : Z * Z) : Prop := inside2 g0 g1 q /\ near2 diag self p q.
  Lemma hits_base2 c d : 0 <= c < g0 * g1 -> (hits (base2 g0 g1 diag self) c d <-> 0 <= d < g0 * g1 /\ step2 (unravel2 g0 c) (unravel2 g0 d)).
  Proof.
    intros Hc. unfold hits, base2, step2. split.
    - intros (r & I & Q). apply in_map_iff in I as (o & <- & I). cbv zeta in Q. injection Q as Q1 Q2. apply oob2_spec in Q2.
      rewrite <- Q1. split; [apply ravel2_range; auto|]. rewrite unravel_ravel2 by auto. split; auto. apply offs2_spec. eauto.
    - intros (Hd & I & N). apply offs2_spec in N as (o & Io & N). eexists. split; [apply in_map; exact Io|]. cbv beta zeta. rewrite <- N.
      rewrite ravel_unravel2 by auto. f_equal. apply oob2_spec. auto.
  Qed.
  Lemma walk2 n c d : 0 <= c < g0 * g1 -> (walk (hits (base2 g0 g1 diag self)) n c d <-> 0 <= d < g0 * g1 /\ walk step2 n (unravel2 g0 c) (unravel2 g0 d)).
  Proof.
    revert c. induction n as [|n IH]; intros c Hc; cbn.
    - split; [intros <-; auto|]. intros [Hd Q]. rewrite <- (ravel_unravel2 g0 g1 c), Q, ravel_unravel2 by auto. auto.
    - split.
      + intros (m & Hm & W). apply hits_base2 in Hm as [Rm S]; auto. apply IH in W as [Rd W]; auto. split; auto. exists (unravel2 g0 m). auto.
      + intros (Rd & m & S & W). exists (ravel2 g0 g1 m). pose proof (ravel2_range g0 g1 m H0 H1).
        assert (E : unravel2 g0 (ravel2 g0 g1 m) = m) by (apply unravel_ravel2; auto; apply S).
        split; [apply hits_base2; auto; rewrite E; auto | apply IH; auto; rewrite E; auto].
  Qed.
End Two.
Section Three.
  Variables (g0 g1 g2 : Z) (diag self : bool).
  Hypotheses (H0 : 0 < g0) (H1 : 0 < g1) (H2 : 0 < g2).
  Definition step3 (p q : Z * Z * Z) : Prop := inside3 g0 g1 g2 q /\ near3 diag self p q.
  Lemma hits_base3 c d : 0 <= c < g0 * g1 * g2 -> (hits (base3 g0 g1 g2 diag self) c d <-> 0 <= d < g0 * g1 * g2 /\ step3 (unravel3 g0 g1 c) (unravel3 g0 g1 d)).
  Proof.
    intros Hc. unfold hits, base3, step3. split.
    - intros (r & I & Q). apply in_map_iff in I as (o & <- & I). cbv zeta in Q. injection Q as Q1 Q2. apply oob3_spec in Q2.
      rewrite <- Q1. split; [apply ravel3_range; auto|]. rewrite unravel_ravel3 by auto. split; auto. apply offs3_spec. eauto.
    - intros (Hd & I & N). apply offs3_spec in N as (o & Io & N). eexists. split; [apply in_map; exact Io|]. cbv beta zeta. rewrite <- N.
      rewrite ravel_unravel3 by auto. f_equal. apply oob3_spec. auto.
  Qed.
  Lemma walk3 n c d : 0 <= c < g0 * g1 * g2 -> (walk (hits (base3 g0 g1 g2 diag self)) n c d <-> 0 <= d < g0 * g1 * g2 /\ walk step3 n (unravel3 g0 g1 c) (unravel3 g0 g1 d)).
  Proof.
    revert c. induction n as [|n IH]; intros c Hc; cbn.
    - split; [intros <-; auto|]. intros [Hd Q]. rewrite <- (ravel_unravel3 g0 g1 g2 c), Q, ravel_unravel3 by auto. auto.
    - split.
      + intros (m & Hm & W). apply hits_base3 in Hm as [Rm S]; auto. apply IH in W as [Rd W]; auto. split; auto. exists (unravel3 g0 g1 m). auto.
      + intros (Rd & m & S & W). exists (ravel3 g0 g1 g2 m). pose proof (ravel3_range g0 g1 g2 m H0 H1 H2).
        assert (E : unravel3 g0 g1 (ravel3 g0 g1 g2 m) = m) by (apply unravel_ravel3; auto; apply S).
        split; [apply hits_base3; auto; rewrite E; auto | apply IH; auto; rewrite E; auto].
  Qed.
End Three.

(** ** output_unique *)
Lemma unique_rows_perm rows : NoDup (map (fun f : nrow => fst (f 0)) rows) -> Permutation (unique_rows rows) rows.
Proof.
  set (col := map (fun f : nrow => fst (f 0)) rows). intros N. unfold unique_rows, np_unique_index. fold col. rewrite map_map.
  apply Permutation_trans with (map (fun x => nth (first_index x col) rows (fun _ => (0, true))) col).
  - apply Permutation_map. apply NoDup_Permutation; auto; [apply np_unique_NoDup | intros x; exact (In_np_unique x col)].
  - assert (E : map (fun x => nth (first_index x col) rows (fun _ => (0, true))) col = rows); [|rewrite E; auto].
    apply (nth_ext _ _ (fun _ => (0,true)) (fun _ => (0,true))).
    + unfold col. rewrite !map_length. auto.
    + rewrite map_length. intros k Hk. 
      destruct (nth_error col k) as [x|] eqn:E; [|apply nth_error_None in E; lia].
      rewrite (nth_error_nth (map _ col) k (x := nth (first_index x col) rows (fun _ => (0,true)))) by (rewrite nth_error_map, E; auto).
      rewrite (first_index_NoDup x col k N E). auto.
Qed.
Lemma mod_inj g a b : 3 <= g -> -1 <= a <= 1 -> -1 <= b <= 1 -> a mod g = b mod g -> a = b.
Proof.
  intros Hg Ha Hb E. pose proof (Z.div_mod a g ltac:(lia)). pose proof (Z.div_mod b g ltac:(lia)). rewrite E in *.
  assert (a - b = g * (a / g - b / g)) by lia. assert (a / g - b / g = 0 \/ a / g - b / g >= 1 \/ a / g - b / g <= -1) by lia. nia.
Qed.
Lemma idx_inj' g a b a' b' : 0 <= a < g -> 0 <= a' < g -> a + g * b = a' + g * b' -> a = a' /\ b = b'.
Proof. intros. assert (b = b') by nia. subst. split; lia. Qed.
Lemma NoDup_map_inj {A B} (f : A -> B) l : (forall x y, In x l -> In y l -> f x = f y -> x = y) -> NoDup l -> NoDup (map f l).
Proof.
  intros H. induction 1 as [|x l N ND IH]; cbn; constructor.
  - rewrite in_map_iff. intros (y & Q & I). apply N. rewrite (H x y); auto; [left; auto | right; auto].
  - apply IH. intros; apply H; auto; right; auto.
Qed.
Lemma offs2_NoDup diag self : NoDup (offs2 diag self).
Proof. destruct diag, self; cbn; repeat constructor; cbn; intuition discriminate. Qed.
Definition dec3 : forall a b : Z * Z * Z, {a = b} + {a <> b}.
Proof. repeat decide equality. Defined.
Lemma offs3_NoDup diag self : NoDup (offs3 diag self).
Proof.
  assert (G : forall l, (if list_eq_dec dec3 (nodup dec3 l) l then true else false) = true -> NoDup l).
  { intros l. destruct (list_eq_dec dec3 (nodup dec3 l) l) as [E|]; [|discriminate]. intros _. rewrite <- E. apply NoDup_nodup. }
  apply G. destruct diag, self; vm_compute; reflexivity.
Qed.
Lemma offs2_small diag self o : In o (offs2 diag self) -> -1 <= fst o <= 1 /\ -1 <= snd o <= 1.
Proof.
  intros I. assert (N : near2 diag self (0,0) o) by (apply offs2_spec; exists o; split; auto; destruct o; auto). unfold near2 in N. destruct o as [a b]. cbn [fst snd] in *.
  destruct N as [N|[[_ N]|[_ N]]]; [lia|lia|]. injection N as <- <-. lia.
Qed.
Lemma offs3_small diag self a b c : In (a,b,c) (offs3 diag self) -> -1 <= a <= 1 /\ -1 <= b <= 1 /\ -1 <= c <= 1.
Proof.
  intros I. assert (N : near3 diag self (0,0,0) (a,b,c)) by (apply offs3_spec; exists (a,b,c); split; auto). unfold near3 in N.
  destruct N as [N|[[_ N]|[_ N]]]; [lia|lia|]. injection N as <- <- <-. lia.
Qed.
Lemma base2_col0 g0 g1 diag self : 3 <= g0 -> 3 <= g1 -> NoDup (map (fun f : nrow => fst (f 0)) (base2 g0 g1 diag self)).
Proof.
  intros H0 H1. unfold base2. rewrite map_map. apply NoDup_map_inj; [|apply offs2_NoDup].
  intros [a b] [a' b'] I J. apply offs2_small in I, J. cbn [fst snd] in *. unfold unravel2, add2z, ravel2. cbn [fst snd]. rewrite Z.mod_0_l, Z.div_0_l, !Z.add_0_l by lia.
  intros Q. apply idx_inj' in Q as [Q1 Q2]; try (apply Z.mod_pos_bound; lia). apply mod_inj in Q1; try lia. apply mod_inj in Q2; try lia. congruence.
Qed.
Lemma base3_col0 g0 g1 g2 diag self : 3 <= g0 -> 3 <= g1 -> 3 <= g2 -> NoDup (map (fun f : nrow => fst (f 0)) (base3 g0 g1 g2 diag self)).
Proof.
  intros H0 H1 H2. unfold base3. rewrite map_map. apply NoDup_map_inj; [|apply offs3_NoDup].
  intros [[a b] c] [[a' b'] c'] I J. apply offs3_small in I, J. unfold unravel3, add3z, ravel3. cbn [fst snd]. rewrite !Z.div_0_l, !Z.mod_0_l, !Z.add_0_l by lia.
  intros Q. apply idx_inj' in Q as [Q1 Q2]; try (apply Z.mod_pos_bound; lia). apply idx_inj' in Q2 as [Q2 Q3]; try (apply Z.mod_pos_bound; lia).
  apply mod_inj in Q1; try lia. apply mod_inj in Q2; try lia. apply mod_inj in Q3; try lia. congruence.
Qed.
