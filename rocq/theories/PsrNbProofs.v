(** second-order neighbour rows as offsets: what grid_neighbors(order=2,diagonals,self,unique) returns on grids with at least five nodes per axis *)
From Verif Require Import NumpyModel NumpyProofs GridNbModel GridNbProofs.
From Coq Require Import Psatz.
Open Scope Z_scope.

Section NB.
  Context {T : Type} `{Ord T}.
  Variables (offs : list T) (add : T -> T -> T) (zero : T) (unravel : Z -> T) (ravel : T -> Z) (oob : T -> bool) (N : Z) (good : T -> T -> bool).
  Hypotheses (Hin : forall c, 0 <= c < N -> oob (unravel c) = false) (Hru : forall c, 0 <= c < N -> ravel (unravel c) = c)
    (Hur : forall p, oob p = false -> unravel (ravel p) = p) (Hrange : forall p, 0 <= ravel p < N)
    (Hcong : forall p q, ravel (add (unravel (ravel p)) q) = ravel (add p q)) (Hz : forall p, ravel (add (unravel 0) p) = ravel p)
    (Hassoc : forall p q r, add (add p q) r = add p (add q r))
    (Hgood : forall p f s, good f s = true -> oob p = false -> oob (add p s) = false -> oob (add p f) = false).
  Definition path := (T * option T)%type.
  Definition paths : list path := map (fun o => (o, None)) offs ++ flat_map (fun f => map (fun g => (f, Some g)) offs) offs.
  Definition psum (p : path) : T := match snd p with None => fst p | Some g => add (fst p) g end.
  Definition brow (o : T) : nrow := fun c => let q := add (unravel c) o in (ravel q, oob q).
  Definition prow (p : path) : nrow := match snd p with None => brow (fst p) | Some g => comp_row (brow (fst p)) (brow g) end.
  Definition sums := map psum paths.
  Hypothesis (Hinj : forall s t, In s sums -> In t sums -> ravel s = ravel t -> s = t).
  Hypothesis (Hcheck : forallb (fun s => match nth_error paths (first_index s sums) with Some p => good (fst p) (psum p) | None => false end) sums = true).

  Lemma rows_paths : iterate 2 (map brow offs) = map prow paths.
  Proof.
    unfold iterate. change (Z.to_nat (2 - 1)) with 1%nat. cbn [Nat.iter]. change (double (map brow offs) = map prow paths). unfold double, paths. rewrite map_app, map_map. f_equal.
    rewrite flat_map_concat_map, map_map, flat_map_concat_map, concat_map. f_equal. rewrite map_map. apply map_ext. intros f. rewrite !map_map. reflexivity.
  Qed.
  Lemma prow0 p : fst (prow p 0) = ravel (psum p).
  Proof. destruct p as [f [g|]]; unfold prow, psum, comp_row, brow; cbn [fst snd]; [rewrite Hcong, Hassoc, Hz; reflexivity|apply Hz]. Qed.
  Lemma col0 : map (fun f : nrow => fst (f 0)) (map prow paths) = map ravel sums.
  Proof. unfold sums. rewrite !map_map. apply map_ext. apply prow0. Qed.
  Lemma first_index_ravel s l : In s l -> (forall t, In t l -> In t sums) -> In s sums -> first_index (ravel s) (map ravel l) = first_index s l.
  Proof.
    intros I S Ss. induction l as [|t l IH]; [reflexivity|]. cbn [map first_index].
    destruct (eqb_spec s t) as [->|Ne]; [rewrite eqb_refl; reflexivity|].
    destruct (eqb_spec (ravel s) (ravel t)) as [E|_]; [exfalso; apply Ne, Hinj; auto; apply S; left; auto|].
    f_equal. destruct I as [->|I]; [congruence|]. apply IH; auto. intros; apply S; right; auto.
  Qed.
  Lemma prow_spec p c : good (fst p) (psum p) = true -> 0 <= c < N ->
    final (prow p) c = if oob (add (unravel c) (psum p)) then -1 else ravel (add (unravel c) (psum p)).
  Proof.
    destruct p as [f [g|]]; unfold prow, psum, final, comp_row, brow; cbn [fst snd]; intros G Hc; [|reflexivity].
    destruct (oob (add (unravel c) f)) eqn:E; cbn [orb].
    - destruct (oob (add (unravel c) (add f g))) eqn:E2; auto. rewrite (Hgood _ _ _ G) in E; auto. discriminate.
    - rewrite Hur by auto. rewrite Hassoc. reflexivity.
  Qed.
  Lemma nb_offsets : exists os, NoDup os /\ (forall o, In o os <-> In o sums) /\
    Forall2 (fun (r : Z -> Z) o => forall c, 0 <= c < N -> r c = if oob (add (unravel c) o) then -1 else ravel (add (unravel c) o)) (finish 2 true (map brow offs)) os.
  Proof.
    set (col := map ravel sums).
    destruct paths as [|p0 ps] eqn:EP.
    { exists []. unfold sums. rewrite EP. split; [constructor|]. split; [tauto|]. unfold finish. rewrite rows_paths, EP. constructor. }
    assert (IX : forall x, In x (np_unique col) -> exists s p, In s sums /\ x = ravel s /\ nth_error paths (first_index x col) = Some p /\ psum p = s /\ good (fst p) s = true).
    { intros x I. apply (In_np_unique x col) in I. apply in_map_iff in I as (s & <- & I).
      rewrite forallb_forall in Hcheck. pose proof (Hcheck s I) as C. cbv beta in C. rewrite <- EP in C.
      unfold col. rewrite first_index_ravel by auto.
      destruct (nth_error paths (first_index s sums)) as [p|] eqn:Ep; [|discriminate]. exists s, p. split; auto. split; auto. split; auto.
      pose proof (first_index_In s sums I) as Q. unfold sums in Q at 1. rewrite nth_error_map in Q. rewrite Ep in Q. apply (f_equal (fun o => match o with Some x => x | None => s end)) in Q. cbn [option_map] in Q. split; auto. rewrite <- Q. exact C. }
    set (os := map (fun x => psum (nth (first_index x col) paths p0)) (np_unique col)).
    assert (R : forall x, In x (np_unique col) -> ravel (psum (nth (first_index x col) paths p0)) = x).
    { intros x I. destruct (IX x I) as (s & p & _ & -> & Ep & Es & _). rewrite (nth_error_nth _ _ p0 Ep), Es. reflexivity. }
    exists os. split; [|split].
    - unfold os. apply (NoDup_map_inv ravel). rewrite map_map. rewrite (map_ext_in _ (fun x => x)) by exact R. rewrite map_id. exact (np_unique_NoDup col).
    - intros o. unfold os. rewrite in_map_iff. split.
      + intros (x & <- & I). destruct (IX x I) as (s & p & Is & -> & Ep & Es & _). rewrite (nth_error_nth _ _ p0 Ep), Es. exact Is.
      + intros I. assert (J : In (ravel o) (np_unique col)) by (apply (In_np_unique (ravel o) col), in_map; auto). exists (ravel o). split; auto.
        destruct (IX _ J) as (s & p & Is & E & Ep & Es & _). rewrite (nth_error_nth _ _ p0 Ep), Es. symmetry. apply Hinj; auto.
    - unfold finish. rewrite rows_paths. unfold unique_rows. rewrite col0. fold col. unfold np_unique_index, os. rewrite !map_map.
      assert (Q : forall l, (forall x, In x l -> In x (np_unique col)) -> Forall2 (fun (r : Z -> Z) o => forall c, 0 <= c < N -> r c = if oob (add (unravel c) o) then -1 else ravel (add (unravel c) o))
        (map (fun x => final (nth (first_index x col) (map prow paths) (fun _ => (0, true)))) l) (map (fun x => psum (nth (first_index x col) paths p0)) l)); [|apply Q; auto].
      induction l as [|x l IH]; intros L; [constructor|]. cbn [map]. constructor; [|apply IH; intros; apply L; right; auto].
      destruct (IX x (L x (or_introl eq_refl))) as (s & p & Is & _ & Ep & Es & Gd). intros c Hc.
      rewrite (nth_error_nth _ _ p0 Ep). rewrite (nth_error_nth (map prow paths) _ _ (map_nth_error prow _ _ Ep)). apply prow_spec; auto. rewrite Es. exact Gd.
  Qed.
End NB.
(** without the check on the paths: every row is the row of some path *)
Section Weak.
  Context {T : Type} `{Ord T}.
  Variables (offs : list T) (add : T -> T -> T) (unravel : Z -> T) (ravel : T -> Z) (oob : T -> bool) (N : Z).
  Hypotheses (Hur : forall p, oob p = false -> unravel (ravel p) = p) (Hrange : forall p, 0 <= ravel p < N) (HN : 0 < N).
  Lemma nb_rows_of_paths r : In r (finish 2 true (map (brow add unravel ravel oob) offs)) -> exists p, In p (paths offs) /\ r = final (prow add unravel ravel oob p).
  Proof.
    unfold finish. rewrite rows_paths. intros I. apply in_map_iff in I as (f & <- & I). unfold unique_rows in I. apply in_map_iff in I as (i & <- & I).
    unfold np_unique_index in I. apply in_map_iff in I as (x & <- & I). apply (proj1 (In_np_unique x _)) in I. apply (proj1 (first_index_lt x _)) in I. set (ix := first_index x _) in *. rewrite !map_length in I.
    destruct (nth_error (paths offs) ix) as [p|] eqn:E; [|apply nth_error_None in E; lia].
    exists p. split; [eapply nth_error_In; eauto|]. f_equal. apply nth_error_nth. apply map_nth_error. exact E.
  Qed.
  Lemma nb_weak r c : In r (finish 2 true (map (brow add unravel ravel oob) offs)) -> r c = -1 \/ 0 <= r c < N.
  Proof.
    intros I. apply nb_rows_of_paths in I as (p & _ & ->). unfold final. destruct (snd _); [left; auto|right].
    destruct p as [f [g|]]; apply Hrange.
  Qed.
  Lemma nb_center r c : In r (finish 2 true (map (brow add unravel ravel oob) offs)) ->
    (forall f, In f offs -> oob (add (unravel c) f) = false) -> (forall f g, In f offs -> In g offs -> oob (add (add (unravel c) f) g) = false) -> 0 <= r c.
  Proof.
    intros I H1 H2. apply nb_rows_of_paths in I as ([f o] & Ip & ->). unfold paths in Ip. rewrite in_app_iff, in_map_iff, in_flat_map in Ip.
    destruct Ip as [(f' & E & If)|(f' & If & Ip)].
    - injection E as <- <-. unfold final, prow, brow; cbn [fst snd]. rewrite H1 by auto. apply Hrange.
    - apply in_map_iff in Ip as (g & E & Ig). injection E as <- <-. unfold final, prow, comp_row, brow; cbn [fst snd]. rewrite H1 by auto. rewrite Hur by auto. rewrite H2 by auto. cbn [orb]. apply Hrange.
  Qed.
End Weak.

Definition between (f s : Z) : bool := (Z.min 0 s <=? f) && (f <=? Z.max 0 s).
Lemma between_in g p f s : between f s = true -> 0 <= p < g -> 0 <= p + s < g -> 0 <= p + f < g.
Proof. unfold between. rewrite andb_true_iff, !Z.leb_le. lia. Qed.
Lemma mod_inj5 g a b : 5 <= g -> -2 <= a <= 2 -> -2 <= b <= 2 -> a mod g = b mod g -> a = b.
Proof.
  intros Hg Ha Hb E. pose proof (Z.div_mod a g ltac:(lia)). pose proof (Z.div_mod b g ltac:(lia)). rewrite E in *.
  assert (a - b = g * (a / g - b / g)) by lia. assert (a / g - b / g = 0 \/ a / g - b / g >= 1 \/ a / g - b / g <= -1) by lia. nia.
Qed.
(** all offsets of the box [-2,2]^d *)
Definition box5 : list Z := [-2; -1; 0; 1; 2].
Definition same_elements {A} (dec : forall a b : A, {a = b} + {a <> b}) (l l' : list A) : bool :=
  forallb (fun x => if in_dec dec x l' then true else false) l && forallb (fun x => if in_dec dec x l then true else false) l'.
Lemma same_elements_ok {A} dec (l l' : list A) : same_elements dec l l' = true -> forall x, In x l <-> In x l'.
Proof.
  unfold same_elements. rewrite andb_true_iff, !forallb_forall. intros [H1 H2] x. split; intros I; [specialize (H1 x I)|specialize (H2 x I)]; destruct (in_dec dec x _) in *; auto; discriminate.
Qed.
Lemma in_box5 z : In z box5 <-> -2 <= z <= 2.
Proof. unfold box5. cbn. lia. Qed.

Definition dec2 : forall a b : Z * Z, {a = b} + {a <> b}.
Proof. repeat decide equality. Defined.
Lemma sums2 : forall o, In o (sums (offs2 true true) add2z) <-> -2 <= fst o <= 2 /\ -2 <= snd o <= 2.
Proof.
  intros [a b]. rewrite (same_elements_ok dec2 _ (list_prod box5 box5)) by (vm_compute; reflexivity). rewrite in_prod_iff, !in_box5. reflexivity.
Qed.
Lemma nb2 g0 g1 : 5 <= g0 -> 5 <= g1 -> exists os, NoDup os /\ (forall o, In o os <-> -2 <= fst o <= 2 /\ -2 <= snd o <= 2) /\
  Forall2 (fun (r : Z -> Z) o => forall c, 0 <= c < g0 * g1 -> r c = if oob2 g0 g1 (add2z (unravel2 g0 c) o) then -1 else ravel2 g0 g1 (add2z (unravel2 g0 c) o))
    (grid_neighbors2 g0 g1 2 true true true) os.
Proof.
  intros H0 H1.
  destruct (nb_offsets (offs2 true true) add2z (unravel2 g0) (ravel2 g0 g1) (oob2 g0 g1) (g0 * g1) (fun f s => between (fst f) (fst s) && between (snd f) (snd s))) as (os & N & I & F).
  - intros c Hc. apply oob2_spec, unravel2_inside; lia.
  - intros p Hp. apply unravel_ravel2; [lia|]. apply oob2_spec; auto.
  - intros [a b] [c d]. unfold ravel2, unravel2, add2z. cbn [fst snd]. pose proof (Z.mod_pos_bound a g0 ltac:(lia)). pose proof (Z.mod_pos_bound b g1 ltac:(lia)).
    rewrite (Z.mul_comm g0 (b mod g1)). rewrite Z.mod_add, Z.div_add, (Z.mod_mod a g0), (Z.div_small (a mod g0)), Z.add_0_l by lia.
    rewrite !Zplus_mod_idemp_l. reflexivity.
  - intros [a b]. unfold unravel2, ravel2, add2z. cbn [fst snd]. rewrite Z.mod_0_l, Z.div_0_l, !Z.add_0_l by lia. reflexivity.
  - intros [a b] [c d] [e f]. unfold add2z. cbn [fst snd]. f_equal; lia.
  - intros p f s. rewrite andb_true_iff, !oob2_spec. unfold inside2, add2z. cbn [fst snd]. intros [B1 B2] [P1 P2] [Q1 Q2]. split; eapply between_in; eauto.
  - intros s t Is It. apply sums2 in Is, It. destruct s as [a b], t as [c d]. unfold ravel2. cbn [fst snd] in *. intros E.
    pose proof (Z.mod_pos_bound a g0 ltac:(lia)). pose proof (Z.mod_pos_bound c g0 ltac:(lia)).
    apply idx_inj' in E as [E1 E2]; auto. apply mod_inj5 in E1; try lia. apply mod_inj5 in E2; try lia. congruence.
  - vm_compute. reflexivity.
  - exists os. split; auto. split; [intros o; rewrite I; apply sums2|]. exact F.
Qed.
Lemma nb3_weak g0 g1 g2 r : 5 <= g0 -> 5 <= g1 -> 5 <= g2 -> In r (grid_neighbors3 g0 g1 g2 2 true true true) ->
  (forall c, r c = -1 \/ 0 <= r c < g0 * g1 * g2) /\ 0 <= r (2 + g0 * (2 + g1 * 2)).
Proof.
  intros H0 H1 H2 I. assert (U : unravel3 g0 g1 (2 + g0 * (2 + g1 * 2)) = (2, 2, 2)).
  { pose proof (unravel_ravel3 g0 g1 g2 (2,2,2) ltac:(lia) ltac:(lia) ltac:(unfold inside3; lia)) as Q. unfold ravel3 in Q. rewrite !(Z.mod_small 2) in Q by lia. exact Q. }
  assert (IN : forall a b c, -1 <= a <= 1 -> -1 <= b <= 1 -> -1 <= c <= 1 -> forall a' b' c', -1 <= a' <= 1 -> -1 <= b' <= 1 -> -1 <= c' <= 1 -> oob3 g0 g1 g2 (2 + a + a', 2 + b + b', 2 + c + c') = false).
  { intros. apply oob3_spec. unfold inside3. lia. }
  unfold grid_neighbors3, base3 in I.
  split.
  - intros c. refine (nb_weak (offs3 true true) add3z (unravel3 g0 g1) (ravel3 g0 g1 g2) (oob3 g0 g1 g2) (g0 * g1 * g2) _ r c I).
    clear I. intros p. apply ravel3_range; lia.
  - refine (nb_center (offs3 true true) add3z (unravel3 g0 g1) (ravel3 g0 g1 g2) (oob3 g0 g1 g2) (g0 * g1 * g2) _ _ r _ I _ _).
    + clear I. intros p Hp. apply unravel_ravel3; [lia|lia|]. apply (proj1 (oob3_spec _ _ _ _)). exact Hp.
    + clear I. intros p. apply ravel3_range; lia.
    + clear I. rewrite U. intros [[a b] c] If. apply offs3_small in If as (A & B & C). unfold add3z. pose proof (IN a b c A B C 0 0 0). rewrite !Z.add_0_r in H. apply H; lia.
    + clear I. rewrite U. intros [[a b] c] [[a' b'] c'] If Ig. apply offs3_small in If as (A & B & C), Ig as (A' & B' & C'). unfold add3z. apply IN; auto.
Qed.
(** in 3D some of the rows kept by output_unique follow a path that leaves the grid: the neighbour two steps away along two axes is lost next to a face *)
Lemma nb3_lost r : In r (grid_neighbors3 7 8 8 2 true true true) -> r 126 <> 0.
Proof.
  intros I E. assert (Q : forallb (fun z => negb (Z.eqb 0 z)) (map (fun r : Z -> Z => r 126) (grid_neighbors3 7 8 8 2 true true true)) = true) by (vm_compute; reflexivity).
  rewrite forallb_forall in Q. specialize (Q (r 126) (in_map (fun r : Z -> Z => r 126) _ r I)). rewrite E in Q. discriminate Q.
Qed.
