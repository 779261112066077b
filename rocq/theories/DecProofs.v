From Verif Require Import NumpyModel NumpyProofs PyExn TopoModel TopoSpec TopoProofs CorrProofs HemProofs Vec MatModel MatProofs GeomModel GeomProofs Geom2Proofs DecModel DecSpec.
From Coq Require Import Permutation Psatz.
Open Scope Z_scope.

Lemma NoDup_flat_map_key {A B} (f : A -> list B) l :
  (forall a, In a l -> NoDup (f a)) ->
  (forall i j a b x, nth_error l i = Some a -> nth_error l j = Some b -> In x (f a) -> In x (f b) -> i = j) ->
  NoDup (flat_map f l).
Proof.
  induction l as [|a l IH]; intros N D; cbn; [constructor|].
  assert (NN : NoDup (f a)) by (apply N; left; auto).
  assert (IHl : NoDup (flat_map f l)).
  { apply IH; [intros; apply N; right; auto|]. intros i j u v x Hi Hj. specialize (D (S i) (S j) u v x Hi Hj). intuition. }
  assert (DJ : forall x, In x (f a) -> ~ In x (flat_map f l)).
  { intros x I J. apply in_flat_map in J as (b & Ib & J). apply In_nth_error in Ib as [j Hj].
    specialize (D 0%nat (S j) a b x eq_refl Hj I J). discriminate. }
  clear -NN IHl DJ. induction (f a) as [|y r IHr]; cbn; auto. inversion NN; subst. constructor.
  - rewrite in_app_iff. intros [Q|Q]; [contradiction|]. eapply DJ; [left; eauto | auto].
  - apply IHr; auto. intros x I. apply DJ; right; auto.
Qed.

Lemma in_all_cells m r c : In (r, c) (all_cells m) <-> 0 <= r < Z.of_nat m /\ 0 <= c < 3.
Proof.
  unfold all_cells. rewrite in_flat_map. split.
  - intros (k & Ik & I). apply in_seq in Ik. cbn in I. repeat destruct I as [I|I]; try (injection I as <- <-; lia). destruct I.
  - intros [A B]. exists (Z.to_nat r). split; [apply in_seq; lia|]. rewrite Z2Nat.id by lia. cbn.
    assert (c = 0 \/ c = 1 \/ c = 2) as [ -> | [ -> | -> ] ] by lia; auto.
Qed.
Lemma NoDup_all_cells m : NoDup (all_cells m).
Proof.
  apply NoDup_flat_map_key.
  - intros a _. repeat constructor; cbn; intuition congruence.
  - intros i j a b x Hi Hj Ia Ib.
    assert (Li : (i < m)%nat) by (rewrite <- (seq_length m 0); apply nth_error_Some; congruence).
    assert (Lj : (j < m)%nat) by (rewrite <- (seq_length m 0); apply nth_error_Some; congruence).
    rewrite (nth_error_nth' _ 0%nat) in Hi by (rewrite seq_length; auto). rewrite seq_nth in Hi by auto.
    rewrite (nth_error_nth' _ 0%nat) in Hj by (rewrite seq_length; auto). rewrite seq_nth in Hj by auto.
    injection Hi as <-. injection Hj as <-.
    cbn in Ia, Ib. destruct x as [r c]. assert (r = Z.of_nat i) by intuition congruence. assert (r = Z.of_nat j) by intuition congruence. lia.
Qed.

Lemma degenerate_incidence F a : oriented_manifold F -> (incidence F (a,a) <= 1)%nat.
Proof.
  unfold oriented_manifold, incidence. induction (all_sides F) as [|e l IH]; intros N; cbn; auto.
  inversion N; subst. destruct (same_edgeb (a,a) e) eqn:E; [|auto].
  assert (QE : forall f, same_edgeb (a,a) f = true -> f = (a,a)).
  { intros [u v]. unfold same_edgeb; cbn. rewrite orb_true_iff, !andb_true_iff, !Z.eqb_eq. intros [[-> ->]|[-> ->]]; auto. }
  cbn. assert (filter (same_edgeb (a,a)) l = []) as ->; [|auto].
  destruct (filter (same_edgeb (a,a)) l) as [|f r] eqn:Fl; auto. exfalso.
  assert (I : In f (filter (same_edgeb (a,a)) l)) by (rewrite Fl; left; auto). apply filter_In in I as [I Q].
  apply QE in Q. apply QE in E. congruence.
Qed.

Definition slots (p : (Z * Z) * (Z * Z)) : list (Z * Z) := fst p :: (if 0 <=? fst (snd p) then [snd p] else []).

Section Slots.
  Variables (F : list tri) (E : list edge) (h2e : table) (e2h : list ((Z * Z) * (Z * Z))).
  Hypothesis OM : oriented_manifold F.
  Hypothesis HR : HemResult F E h2e e2h.

  Lemma e2h_cases k p : nth_error e2h k = Some p -> exists e f i t, nth_error E k = Some e
     /\ fst p = (Z.of_nat f, Z.of_nat i) /\ (i < 3)%nat /\ nth_error F f = Some t /\ side_opp t i = e
     /\ h2e (Z.of_nat f) (Z.of_nat i) = Z.of_nat k
     /\ ((snd p = (-1,-1) /\ incidence F e = 1%nat)
         \/ exists g j s, snd p = (Z.of_nat g, Z.of_nat j) /\ (j < 3)%nat /\ nth_error F g = Some s
              /\ side_opp s j = (snd e, fst e) /\ fst e <> snd e /\ h2e (Z.of_nat g) (Z.of_nat j) = Z.of_nat k).
  Proof.
    intros Hk. destruct HR as (_ & _ & LEN & _ & H5).
    destruct (nth_error E k) as [e|] eqn:Ek.
    2:{ apply nth_error_None in Ek. assert (k < length e2h)%nat by (apply nth_error_Some; congruence). lia. }
    destruct (H5 k e Ek) as (f & i & t & h1 & Q & Hi & Hf & Se & H & C). rewrite Hk in Q. injection Q as ->.
    exists e, f, i, t. repeat split; auto. cbn. destruct C as [[I ->]|[I (g & j & s & -> & Hj & Hg & Sg & H')]]; auto.
    right. exists g, j, s. repeat split; auto. intros D. destruct e as [a b]; cbn in D; subst b.
    pose proof (degenerate_incidence F a OM). lia.
  Qed.

  Lemma slots_perm : Permutation (flat_map slots e2h) (all_cells (length F)).
  Proof.
    apply NoDup_Permutation; [| apply NoDup_all_cells |].
    - apply NoDup_flat_map_key.
      + intros p Ip. apply In_nth_error in Ip as [k Hk]. destruct (e2h_cases k p Hk) as (e & f & i & t & Ek & P0 & Hi & Hf & Se & H & C).
        destruct p as [h0 h1]; cbn in *. unfold slots; cbn. destruct C as [[-> _]|(g & j & s & -> & Hj & Hg & Sg & D & H')]; cbn.
        * repeat constructor; auto.
        * destruct (Z.leb_spec 0 (Z.of_nat g)); [|lia]. repeat constructor; auto. cbn. intros [Q|[]]. rewrite P0 in Q. injection Q as Q1 Q2.
          assert (g = f) by lia. assert (j = i) by lia. subst. rewrite Hf in Hg. injection Hg as <-.
          destruct (side_opp t i) as [a b]; cbn in *; congruence.
      + assert (K : forall k p x, nth_error e2h k = Some p -> In x (slots p) -> h2e (fst x) (snd x) = Z.of_nat k).
        { intros k p x Hk I. destruct (e2h_cases k p Hk) as (e & f & i & t & Ek & P0 & Hi & Hf & Se & H & C).
          destruct p as [h0 h1]; cbn in *. unfold slots in I; cbn in I. destruct I as [<-|I]; [rewrite P0; auto|].
          destruct C as [[-> _]|(g & j & s & -> & Hj & Hg & Sg & D & H')]; cbn in I; [destruct I|].
          destruct (Z.leb_spec 0 (Z.of_nat g)); [|lia]. destruct I as [<-|[]]; auto. }
        intros a b p q x Ha Hb Ia Ib. apply (K _ _ _ Ha) in Ia. apply (K _ _ _ Hb) in Ib. lia.
    - intros [r c]. rewrite in_all_cells, in_flat_map. split.
      + intros (p & Ip & I). apply In_nth_error in Ip as [k Hk]. destruct (e2h_cases k p Hk) as (e & f & i & t & Ek & P0 & Hi & Hf & Se & H & C).
        assert (Lf : (f < length F)%nat) by (apply nth_error_Some; congruence).
        unfold slots in I. destruct I as [Q|I]; [rewrite P0 in Q; injection Q as <- <-; lia|].
        destruct C as [[Z0 _]|(g & j & s & Z0 & Hj & Hg & Sg & D & H')]; rewrite Z0 in I; cbn in I; [destruct I|].
        assert (Lg : (g < length F)%nat) by (apply nth_error_Some; congruence).
        destruct (Z.leb_spec 0 (Z.of_nat g)); [|lia]. destruct I as [Q|[]]. injection Q as <- <-. lia.
      + intros [A B]. destruct HR as (_ & _ & _ & H4 & _).
        destruct (nth_error F (Z.to_nat r)) as [t|] eqn:Hf; [|apply nth_error_None in Hf; lia].
        destruct (H4 (Z.to_nat r) (Z.to_nat c) t Hf ltac:(lia)) as (k & e & h0 & h1 & _ & _ & _ & Hk & C).
        rewrite !Z2Nat.id in C by lia. exists (h0,h1). split; [eapply nth_error_In; eauto|]. unfold slots; cbn.
        destruct C as [ -> | -> ]; auto. right. cbn. destruct (Z.leb_spec 0 r); [left; auto | lia].
  Qed.

  (** sum over edges of per-slot weights = sum over all half-edges *)
  Lemma slots_sum (w : Z * Z -> R) :
    sumf (fun p => (w (fst p) + (if 0 <=? fst (snd p) then w (snd p) else 0))%R) e2h = sumf w (all_cells (length F)).
  Proof.
    rewrite <- (sumf_perm w _ _ slots_perm), sumf_flat_map. apply sumf_ext. intros p _. unfold slots.
    destruct (0 <=? fst (snd p)); cbn; lra.
  Qed.
End Slots.

Lemma sum_all_cells (w : Z * Z -> R) m :
  sumf w (all_cells m) = sumf (fun r => (w (Z.of_nat r, 0%Z) + w (Z.of_nat r, 1%Z) + w (Z.of_nat r, 2%Z))%R) (seq 0 m).
Proof. unfold all_cells. rewrite sumf_flat_map. apply sumf_ext. intros; cbn; lra. Qed.

(** corner [c] (as a Z) of a half-edge cell: the directed side at cell (f,i) *)
Definition side_at (F : list tri) (h : Z * Z) : edge :=
  match nth_error F (Z.to_nat (fst h)) with
  | Some t => side_opp t (Z.to_nat (snd h))
  | None => (0, 0)
  end.

Lemma max_index_ge F t : In t F -> c0 t <= max_index F /\ c1 t <= max_index F /\ c2 t <= max_index F.
Proof.
  induction F as [|u F IH]; intros I; [destruct I|]. unfold max_index in *. cbn.
  destruct I as [->|I]; [lia|]. specialize (IH I). lia.
Qed.

Definition nonneg_mesh (F : list tri) := forall t, In t F -> 0 <= c0 t /\ 0 <= c1 t /\ 0 <= c2 t.
Lemma side_opp_bounds F t i : nonneg_mesh F -> In t F -> (i < 3)%nat ->
  0 <= fst (side_opp t i) <= max_index F /\ 0 <= snd (side_opp t i) <= max_index F.
Proof.
  intros N I Hi. specialize (N t I). pose proof (max_index_ge F t I). destruct t as [[a b] c]. unfold c0, c1, c2 in *; cbn in *.
  destruct i as [|[|[|i]]]; cbn; lia.
Qed.

Lemma combine_idx_nth {A} (l : list A) p : In p (combine (map Z.of_nat (seq 0 (length l))) l) ->
  exists k, fst p = Z.of_nat k /\ nth_error l k = Some (snd p).
Proof.
  assert (G : forall s, In p (combine (map Z.of_nat (seq s (length l))) l) -> exists k, fst p = Z.of_nat (s + k) /\ nth_error l k = Some (snd p)).
  { induction l as [|x l IH]; intros s I; [destruct I|]. cbn in I. destruct I as [<-|I].
    - exists 0%nat. cbn. rewrite Nat.add_0_r. auto.
    - apply IH in I as (k & -> & E). exists (S k). split; auto. rewrite Nat.add_succ_comm; auto. }
  intros I. apply (G 0%nat) in I. auto.
Qed.
Lemma sumf_combine_idx {A} (g : Z -> A -> R) (l : list A) :
  sumf (fun p => g (fst p) (snd p)) (combine (map Z.of_nat (seq 0 (length l))) l) =
  sumf (fun k => match nth_error l k with Some a => g (Z.of_nat k) a | None => 0%R end) (seq 0 (length l)).
Proof.
  assert (G : forall s r, nth_error l s = None \/ True -> skipn s l = r ->
    sumf (fun p => g (fst p) (snd p)) (combine (map Z.of_nat (seq s (length r))) r) =
    sumf (fun k => match nth_error l k with Some a => g (Z.of_nat k) a | None => 0%R end) (seq s (length r))).
  { intros s r _; revert s; induction r as [|x r IH]; intros s E; [reflexivity|]. cbn [length seq map combine sumf fst snd].
    assert (H : nth_error l s = Some x /\ skipn (S s) l = r).
    { revert s E. clear. induction l as [|y l IH]; intros [|s] E; cbn in *; try discriminate; [injection E as -> ->; auto | apply IH; auto]. }
    destruct H as [-> H]. rewrite (IH (S s) H). reflexivity. }
  apply (G 0%nat l); auto.
Qed.

Section D.
  Variables (F : list tri).
  Hypothesis NE : F <> [].
  Hypothesis OM : oriented_manifold F.
  Hypothesis NN : nonneg_mesh F.

  (** d0: difference of the end values of every edge *)
  Lemma dec_d0_ok : exists E h2e e2h D0, halfedge_edge_map F = Some (E, h2e, e2h) /\ dec_d0 F = Ok D0
    /\ HemResult F E h2e e2h
    /\ (forall t, In t D0 -> 0 <= tcol t < Z.of_nat (Z.to_nat (max_index F + 1)))
    /\ forall x k e, nth_error E k = Some e ->
         mulv (Z.to_nat (max_index F + 1)) D0 x (Z.of_nat k) = (x (fst e) - x (snd e))%R.
  Proof.
    destruct (hem_ok F NE OM) as (E & h2e & e2h & Q & HR). exists E, h2e, e2h. unfold dec_d0. rewrite Q.
    assert (IE : forall e, In e E -> 0 <= fst e <= max_index F /\ 0 <= snd e <= max_index F).
    { intros e I. apply In_nth_error in I as [k Hk]. destruct HR as (_ & _ & _ & _ & H5).
      destruct (H5 k e Hk) as (f & i & t & h1 & _ & Hi & Hf & <- & _). apply side_opp_bounds; auto. eapply nth_error_In; eauto. }
    unfold dec_d0_E. set (es := combine _ _).
    assert (SH : forall t, In t (map (fun p => (fst p, fst (snd p), 1%R)) es ++ map (fun p => (fst p, snd (snd p), (-1)%R)) es) ->
       0 <= trow t < Z.of_nat (length E) /\ 0 <= tcol t < max_index F + 1).
    { intros t I. in_blocks I; match goal with H : In ?p es |- _ => apply idx_combine in H as [? H]; apply IE in H end; unfold trow, tcol; cbn [fst snd]; lia. }
    eexists. split; auto. split; [apply csr_ok; auto|]. split; auto.
    assert (C : cols_in (Z.to_nat (max_index F + 1)) (map (fun p => (fst p, fst (snd p), 1%R)) es ++ map (fun p => (fst p, snd (snd p), (-1)%R)) es)).
    { intros t I. destruct (SH t I). lia. }
    split; [exact C|]. intros x k e Ek. rewrite mulv_trip by auto. rewrite sumf_app, !sumf_map. unfold trow, tcol, tval; cbn [fst snd].
    unfold es. rewrite !(sum_pick_combine (fun p => _) E k e Ek). cbn. ring.
  Qed.

  (** d1: signed circulation around every face *)
  Lemma dec_d1_ok E h2e e2h : halfedge_edge_map F = Some (E, h2e, e2h) -> HemResult F E h2e e2h ->
    exists D1, dec_d1 F = Ok D1 /\ cols_in (length e2h) D1 /\
    forall (x : Z -> R) f t, nth_error F f = Some t ->
      mulv (length e2h) D1 x (Z.of_nat f) =
      sumf (fun i => let k := h2e (Z.of_nat f) (Z.of_nat i) in
              (match nth_error E (Z.to_nat k) with
               | Some e => if edge_eqb e (side_opp t i) then x k else - x k
               | None => 0 end)%R) [0;1;2]%nat.
  Proof.
    intros Q HR. unfold dec_d1. rewrite Q. unfold dec_d1_E. set (es := combine _ _).
    assert (CS : forall p, In p es -> exists k, fst p = Z.of_nat k /\ nth_error e2h k = Some (snd p)) by (intros p I; apply combine_idx_nth; auto).
    set (M := _ ++ _).
    assert (SH : forall t, In t M -> 0 <= trow t < Z.of_nat (length F) /\ 0 <= tcol t < Z.of_nat (length e2h)).
    { intros t I. unfold M in I. rewrite in_app_iff, !in_map_iff in I. destruct I as [(p & <- & I)|(p & <- & I)].
      - pose proof (idx_combine e2h p I) as [B _]. destruct (CS p I) as (k & Ek & Hk).
        destruct (e2h_cases F E h2e e2h OM HR k _ Hk) as (e & g & i & u & _ & P0 & _ & Hg & _).
        unfold trow, tcol; cbn [fst snd]. rewrite P0. cbn. assert (g < length F)%nat by (apply nth_error_Some; congruence). lia.
      - apply filter_In in I as [I L]. apply Z.leb_le in L. pose proof (idx_combine e2h p I) as [B _]. destruct (CS p I) as (k & Ek & Hk).
        destruct (e2h_cases F E h2e e2h OM HR k _ Hk) as (e & g & i & u & _ & P0 & _ & Hg & _ & _ & [[Z0 _]|(g' & j & s & Z0 & Hj & Hg' & _)]); rewrite Z0 in *; cbn in L; [lia|].
        unfold trow, tcol; cbn [fst snd]. try rewrite Z0. cbn. assert (g' < length F)%nat by (apply nth_error_Some; congruence). lia. }
    exists M. split; [apply csr_ok; auto|]. split; [intros t I; apply (SH t I)|].
    intros x f t Hf. rewrite mulv_trip by (intros u I; apply (SH u I)).
    unfold M. rewrite sumf_app, !sumf_map, sumf_filter. unfold trow, tcol, tval; cbn [fst snd]. rewrite <- sumf_plus.
    (* per-slot weight *)
    set (w := fun h : Z * Z => (if (fst h =? Z.of_nat f)%Z then
                 match nth_error E (Z.to_nat (h2e (fst h) (snd h))) with
                 | Some e => if edge_eqb e (side_at F h) then x (h2e (fst h) (snd h)) else - x (h2e (fst h) (snd h))
                 | None => 0 end else 0)%R).
    transitivity (sumf w (all_cells (length F))).
    - rewrite <- (slots_sum F E h2e e2h OM HR w).
      transitivity (sumf (fun p : Z * ((Z*Z)*(Z*Z)) => (w (fst (snd p)) + (if 0 <=? fst (snd (snd p)) then w (snd (snd p)) else 0))%R) es).
      + apply sumf_ext. intros p I. destruct (CS p I) as (k & Ek & Hk).
        destruct (e2h_cases F E h2e e2h OM HR k _ Hk) as (e & g & i & u & HE & P0 & Hi & Hg & Se & H & C).
        assert (W0 : w (fst (snd p)) = (if (fst (fst (snd p)) =? Z.of_nat f)%Z then 1 * x (fst p) else 0)%R).
        { unfold w. rewrite P0. cbn [fst snd]. rewrite H, Nat2Z.id, HE. unfold side_at; cbn [fst snd]. rewrite !Nat2Z.id, Hg, Se.
          unfold edge_eqb. rewrite !Z.eqb_refl. cbn. rewrite Ek. destruct (Z.of_nat g =? Z.of_nat f); ring. }
        rewrite W0. f_equal.
        destruct C as [[Z0 _]|(g' & j & s & Z0 & Hj & Hg' & Sg & D & H')]; rewrite Z0; cbn [fst snd].
        * cbn. reflexivity.
        * destruct (Z.leb_spec 0 (Z.of_nat g')); [|lia]. unfold w; cbn [fst snd]. rewrite H', Nat2Z.id, HE. unfold side_at; cbn [fst snd]. rewrite !Nat2Z.id, Hg', Sg.
          assert (edge_eqb e (snd e, fst e) = false) as ->. { unfold edge_eqb; cbn. apply andb_false_iff. left. apply Z.eqb_neq; auto. }
          rewrite Ek. destruct (Z.of_nat g' =? Z.of_nat f); ring.
      + unfold es. rewrite <- (sumf_map (@snd Z _) (fun p => (w (fst p) + (if 0 <=? fst (snd p) then w (snd p) else 0))%R)).
        f_equal. clear. assert (G : forall s, map snd (combine (map Z.of_nat (seq s (length e2h))) e2h) = e2h); [|apply G].
        induction e2h as [|y l IH]; intros s; cbn; auto. f_equal; auto.
    - rewrite sum_all_cells.
      assert (Lf : (f < length F)%nat) by (apply nth_error_Some; congruence).
      transitivity (sumn (length F) (fun r => if (Z.of_nat f =? Z.of_nat r)%Z then (w (Z.of_nat r, 0%Z) + w (Z.of_nat r, 1%Z) + w (Z.of_nat r, 2%Z))%R else 0%R)).
      + unfold sumn. apply sumf_ext. intros r _. unfold w; cbn [fst snd]. rewrite (Z.eqb_sym (Z.of_nat f)).
        destruct (Z.of_nat r =? Z.of_nat f); lra.
      + rewrite (sumn_pick (length F) (Z.of_nat f) (fun r => (w (r, 0%Z) + w (r, 1%Z) + w (r, 2%Z))%R)) by lia.
        unfold w, side_at; cbn [fst snd sumf]. rewrite Z.eqb_refl, Nat2Z.id, Hf. cbn [Z.of_nat].
        change (Z.to_nat 0) with 0%nat. change (Z.to_nat 1) with 1%nat. change (Z.to_nat 2) with 2%nat. change (Z.of_nat 1) with 1. change (Z.of_nat 2) with 2. cbn zeta. rewrite Rplus_0_r, <- Rplus_assoc. reflexivity.
  Qed.

  (** d1 d0 = 0 *)
  Lemma dec_dd : exists D0 D1 nE, dec_d0 F = Ok D0 /\ dec_d1 F = Ok D1
    /\ (forall t, In t D1 -> 0 <= tcol t < Z.of_nat nE)
    /\ (forall f j, (f < length F)%nat -> matmul nE D1 D0 (Z.of_nat f) j = 0%R)
    /\ (forall k, (k < nE)%nat -> mulv (Z.to_nat (max_index F + 1)) D0 (fun _ => 1%R) (Z.of_nat k) = 0%R).
  Proof.
    destruct dec_d0_ok as (E & h2e & e2h & D0 & Q & E0 & HR & C0 & H0).
    destruct (dec_d1_ok E h2e e2h Q HR) as (D1 & E1 & C1 & H1).
    exists D0, D1, (length e2h). repeat split; auto; try apply (C1 t); auto.
    - intros f j Lf. destruct (nth_error F f) as [t|] eqn:Hf; [|apply nth_error_None in Hf; lia].
      unfold matmul. fold (mulv (length e2h) D1 (fun k => entry D0 k j) (Z.of_nat f)). rewrite (H1 _ f t Hf).
      assert (ENT : forall k e, nth_error E k = Some e -> entry D0 (Z.of_nat k) j =
         ((if fst e =? j then 1 else 0) - (if snd e =? j then 1 else 0))%R).
      { intros k e Ek. pose proof (H0 (fun c => if c =? j then 1%R else 0%R) k e Ek) as G.
        rewrite <- G. rewrite mulv_trip by exact C0. unfold entry. apply sumf_ext. intros u _.
        destruct (trow u =? Z.of_nat k), (tcol u =? j); cbn; lra. }
      destruct HR as (_ & _ & _ & H4 & _).
      transitivity (sumf (fun i => ((if fst (side_opp t i) =? j then 1 else 0) - (if snd (side_opp t i) =? j then 1 else 0))%R) [0;1;2]%nat).
      + apply sumf_ext. intros i Ii. cbn zeta.
        destruct (H4 f i t Hf) as (k & e & h0 & h1 & -> & Ek & S & _); [cbn in Ii; intuition lia|].
        rewrite Nat2Z.id, Ek. rewrite (ENT k e Ek).
        unfold edge_eqb. destruct (Z.eqb_spec (fst e) (fst (side_opp t i))) as [a|a], (Z.eqb_spec (snd e) (snd (side_opp t i))) as [b|b]; cbn [andb].
        * rewrite a, b. ring.
        * destruct S as [[S1 S2]|[S1 S2]]; [congruence|]. rewrite S1, S2. ring.
        * destruct S as [[S1 S2]|[S1 S2]]; [congruence|]. rewrite S1, S2. ring.
        * destruct S as [[S1 S2]|[S1 S2]]; [congruence|]. rewrite S1, S2. ring.
      + destruct t as [[a b] c]. cbn. ring.
    - intros k Lk. destruct HR as (_ & _ & LEN & _). destruct (nth_error E k) as [e|] eqn:Ek; [|apply nth_error_None in Ek; lia].
      rewrite (H0 _ k e Ek). ring.
  Qed.
End D.

(** ** diagonal matrices *)
Lemma entry_diags d i j : entry (diags d) i j =
  (if (i =? j)%Z && (0 <=? i)%Z then match nth_error d (Z.to_nat i) with Some v => v | None => 0%R end else 0%R).
Proof.
  unfold entry, diags. rewrite sumf_map. unfold trow, tcol, tval; cbn [fst snd].
  destruct (Z.eqb_spec i j) as [<-|N]; cbn [andb].
  - destruct (Z.leb_spec 0 i).
    + destruct (nth_error d (Z.to_nat i)) as [v|] eqn:Ev.
      * transitivity (sumf (fun p : Z * R => if (fst p =? Z.of_nat (Z.to_nat i))%Z then snd p else 0%R) (combine (map Z.of_nat (seq 0 (length d))) d)).
        { apply sumf_ext. intros p _. rewrite Z2Nat.id, andb_diag by lia. reflexivity. }
        rewrite (sum_pick_combine (fun p => snd p) d _ v Ev). reflexivity.
      * apply sumf_zero. intros p I. apply idx_combine in I as [I _]. apply nth_error_None in Ev.
        destruct (Z.eqb_spec (fst p) i); cbn; auto. lia.
    + apply sumf_zero. intros p I. apply idx_combine in I as [I _]. destruct (Z.eqb_spec (fst p) i); cbn; auto. lia.
  - apply sumf_zero. intros p _. destruct (Z.eqb_spec (fst p) i), (Z.eqb_spec (fst p) j); cbn; auto. congruence.
Qed.
Lemma matmul_diags n d e i j : length d = n -> length e = n -> (0 <= i < Z.of_nat n)%Z ->
  matmul n (diags d) (diags e) i j = if (i =? j)%Z then (nth (Z.to_nat i) d 0 * nth (Z.to_nat i) e 0)%R else 0%R.
Proof.
  intros Ld Le Hi. unfold matmul.
  transitivity (sumn n (fun k => if (i =? Z.of_nat k)%Z then (nth (Z.to_nat i) d 0 * entry (diags e) i j)%R else 0%R)).
  - unfold sumn. apply sumf_ext. intros k _. rewrite entry_diags. destruct (Z.eqb_spec i (Z.of_nat k)) as [->|]; cbn [andb]; [|ring].
    destruct (Z.leb_spec 0 (Z.of_nat k)); [|lia]. rewrite Nat2Z.id.
    destruct (nth_error d k) eqn:E; [apply nth_error_nth with (d := 0%R) in E; rewrite E; ring|].
    apply nth_error_None in E. lia.
  - rewrite (sumn_pick n i (fun k => (nth (Z.to_nat i) d 0 * entry (diags e) i j)%R)) by lia.
    rewrite entry_diags. destruct (Z.eqb_spec i j); cbn [andb]; [|ring].
    destruct (Z.leb_spec 0 i); [|lia].
    destruct (nth_error e (Z.to_nat i)) eqn:E; [apply nth_error_nth with (d := 0%R) in E; rewrite E; ring|].
    apply nth_error_None in E. lia.
Qed.

Lemma diags_inverse d : (forall v, In v d -> v <> 0%R) ->
  is_inverse (length d) (diags d) (diags (map (fun v => 1 / v)%R d)) /\ is_inverse (length d) (diags (map (fun v => 1 / v)%R d)) (diags d).
Proof.
  intros N. assert (G : forall i, (0 <= i < Z.of_nat (length d))%Z -> (nth (Z.to_nat i) d 0 * nth (Z.to_nat i) (map (fun v => 1 / v) d) 0 = 1)%R).
  { intros i Hi. rewrite (nth_indep (map (fun v => (1 / v)%R) d) 0%R (1/0)%R) by (rewrite map_length; lia).
    rewrite (map_nth (fun v => (1/v)%R)). field. apply N, nth_In. lia. }
  split; intros i j Hi; rewrite matmul_diags by (rewrite ?map_length; auto); rewrite ?(Rmult_comm (nth _ (map _ _) _)), G; auto.
Qed.

(** ** d0' h1 d0 is the cotangent Laplacian *)
Definition ind (c j : Z) : R := if (c =? j)%Z then 1%R else 0%R.
Lemma dec_laplacian (L : faces_lsq) n : L <> [] -> oriented_manifold (map fst L) -> valid (Z.of_nat n) (map fst L) ->
  exists E h2e e2h D0 d M,
    halfedge_edge_map (map fst L) = Some (E, h2e, e2h)
    /\ dec_d0_E E (Z.of_nat n) = Ok D0 /\ dec_h1_intrinsic L = Ok (diags d) /\ length d = length E
    /\ cotangent_laplacian_intrinsic L (Z.of_nat n) = Ok M
    /\ forall i j, sumn (length E) (fun k => (entry D0 (Z.of_nat k) i * nth k d 0 * entry D0 (Z.of_nat k) j)%R) = entry M i j.
Proof.
  intros NE OM Va. set (F := map fst L) in *.
  assert (NF : F <> []) by (destruct L; cbn; congruence).
  destruct (hem_ok F NF OM) as (E & h2e & e2h & Q & HR). exists E, h2e, e2h.
  assert (IE : forall e, In e E -> 0 <= fst e < Z.of_nat n /\ 0 <= snd e < Z.of_nat n).
  { intros e I. apply In_nth_error in I as [k Hk]. destruct HR as (_ & _ & _ & _ & H5).
    destruct (H5 k e Hk) as (f & i & t & h1 & _ & Hi & Hf & <- & _). apply nth_error_In in Hf. apply Va in Hf.
    destruct t as [[a b] c]. unfold c0, c1, c2 in Hf; cbn in Hf. destruct i as [|[|[|i]]]; cbn; lia. }
  unfold dec_d0_E. set (es := combine _ _).
  set (D0 := map (fun p => (fst p, fst (snd p), 1%R)) es ++ map (fun p => (fst p, snd (snd p), (-1)%R)) es).
  assert (SH : forall t, In t D0 -> 0 <= trow t < Z.of_nat (length E) /\ 0 <= tcol t < Z.of_nat n).
  { intros t I. unfold D0 in I. in_blocks I; match goal with H : In ?p es |- _ => apply idx_combine in H as [? H]; apply IE in H end; unfold trow, tcol; cbn [fst snd]; lia. }
  exists D0, (h1_diag L e2h), (lap_blocks L). split; auto. split; [apply csr_ok; auto|].
  split; [unfold dec_h1_intrinsic; fold F; rewrite Q; reflexivity|].
  assert (LEN : length e2h = length E) by (destruct HR as (_ & _ & LEN & _); auto).
  split; [unfold h1_diag; rewrite map_length; auto|].
  split; [apply lap_is; auto|]. intros i j.
  assert (ENT : forall k e j, nth_error E k = Some e -> entry D0 (Z.of_nat k) j = (ind (fst e) j - ind (snd e) j)%R).
  { clear i j. intros k e j Ek. unfold entry, D0. rewrite sumf_app, !sumf_map. unfold trow, tcol, tval; cbn [fst snd].
    transitivity (sumf (fun p => if (fst p =? Z.of_nat k)%Z then ind (fst (snd p)) j else 0%R) es + sumf (fun p => if (fst p =? Z.of_nat k)%Z then - ind (snd (snd p)) j else 0)%R es)%R.
    - f_equal; apply sumf_ext; intros p _; unfold ind; destruct (fst p =? Z.of_nat k); cbn [andb]; auto;
        match goal with |- context [?a =? j] => destruct (a =? j) end; lra.
    - unfold es. rewrite (sum_pick_combine (fun p => ind (fst (snd p)) j) E k e Ek), (sum_pick_combine (fun p => (- ind (snd (snd p)) j)%R) E k e Ek). cbn; ring. }
  set (delta := fun e : edge => ((ind (fst e) i - ind (snd e) i) * (ind (fst e) j - ind (snd e) j))%R).
  set (w := fun h : Z * Z => (cot_at L h * delta (side_at F h))%R).
  transitivity (sumf (fun p => (w (fst p) + (if 0 <=? fst (snd p) then w (snd p) else 0))%R) e2h).
  - (* both sides as sums over indices *)
    transitivity (sumf (fun k => match nth_error e2h k with Some p => (w (fst p) + (if 0 <=? fst (snd p) then w (snd p) else 0))%R | None => 0%R end) (seq 0 (length e2h))).
    + unfold sumn. rewrite <- LEN. apply sumf_ext. intros k Ik. apply in_seq in Ik.
      destruct (nth_error e2h k) as [p|] eqn:Hk; [|apply nth_error_None in Hk; lia].
      destruct (e2h_cases F E h2e e2h OM HR k p Hk) as (e & g & a & u & HE & P0 & Hi & Hg & Se & H & C).
      rewrite !(ENT k e _ HE).
      assert (ND : nth k (h1_diag L e2h) 0%R = (if 0 <=? fst (snd p) then (cot_at L (fst p) + cot_at L (snd p))%R else cot_at L (fst p))).
      { unfold h1_diag. apply nth_error_nth. rewrite nth_error_map, Hk. reflexivity. }
      rewrite ND. unfold w.
      assert (S0 : side_at F (fst p) = e). { rewrite P0. unfold side_at; cbn [fst snd]. rewrite !Nat2Z.id, Hg. exact Se. }
      rewrite S0. unfold delta.
      destruct C as [[Z0 _]|(g' & b & s & Z0 & Hj & Hg' & Sg & D & H')]; rewrite Z0; cbn [fst snd].
      * cbn. ring.
      * destruct (Z.leb_spec 0 (Z.of_nat g')); [|lia]. unfold side_at; cbn [fst snd]. rewrite !Nat2Z.id, Hg', Sg. cbn [fst snd]. ring.
    + rewrite <- (sumf_combine_idx (fun _ p => (w (fst p) + (if 0 <=? fst (snd p) then w (snd p) else 0))%R) e2h).
      rewrite <- (sumf_map (@snd Z _) (fun p => (w (fst p) + (if 0 <=? fst (snd p) then w (snd p) else 0))%R)).
      f_equal. clear. assert (G : forall s, map snd (combine (map Z.of_nat (seq s (length e2h))) e2h) = e2h); [|apply G].
      induction e2h as [|y l IH]; intros s; cbn; auto. f_equal; auto.
  - rewrite (slots_sum F E h2e e2h OM HR w), sum_all_cells. unfold entry. rewrite sum_blocks9.
    transitivity (sumf (fun p : Z * (tri * r3) => (X (cotw (snd (snd p))) * delta (side_opp (fst (snd p)) 0) + Y (cotw (snd (snd p))) * delta (side_opp (fst (snd p)) 1) + Zc (cotw (snd (snd p))) * delta (side_opp (fst (snd p)) 2))%R) (combine (map Z.of_nat (seq 0 (length L))) L)).
    + rewrite (sumf_combine_idx (fun _ q => (X (cotw (snd q)) * delta (side_opp (fst q) 0) + Y (cotw (snd q)) * delta (side_opp (fst q) 1) + Zc (cotw (snd q)) * delta (side_opp (fst q) 2))%R) L).
      unfold F. rewrite map_length. apply sumf_ext. intros k Ik. apply in_seq in Ik.
      unfold w, cot_at, side_at; cbn [fst snd]. rewrite !Nat2Z.id. unfold F. rewrite nth_error_map.
      destruct (nth_error L k) as [[t l]|] eqn:EL; cbn [option_map fst snd]; [|apply nth_error_None in EL; lia].
      change (Z.to_nat 0) with 0%nat. change (Z.to_nat 1) with 1%nat. change (Z.to_nat 2) with 2%nat. reflexivity.
    + rewrite (sumf_combine_idx (fun _ q => (X (cotw (snd q)) * delta (side_opp (fst q) 0) + Y (cotw (snd q)) * delta (side_opp (fst q) 1) + Zc (cotw (snd q)) * delta (side_opp (fst q) 2))%R) L).
      rewrite <- (sumf_combine_idx (fun _ q => (X (cotw (snd q)) * delta (side_opp (fst q) 0) + Y (cotw (snd q)) * delta (side_opp (fst q) 1) + Zc (cotw (snd q)) * delta (side_opp (fst q) 2))%R) L).
      rewrite <- (sumf_map (@snd Z _) (fun q => (X (cotw (snd q)) * delta (side_opp (fst q) 0) + Y (cotw (snd q)) * delta (side_opp (fst q) 1) + Zc (cotw (snd q)) * delta (side_opp (fst q) 2))%R)).
      assert (G : forall s, map snd (combine (map Z.of_nat (seq s (length L))) L) = L).
      { clear. induction L as [|y l IH]; intros s; cbn; auto. f_equal; auto. }
      rewrite G. apply sumf_ext. intros [[[a b] c] l] _. unfold delta, ind, trow, tcol, tval, c0, c1, c2; cbn [fst snd side_opp].
      cbn zeta. cbn [fst snd].
      change (corner (a,b,c) (0+1)) with b. change (corner (a,b,c) (0+2)) with c. change (corner (a,b,c) (1+1)) with c.
      change (corner (a,b,c) (1+2)) with a. change (corner (a,b,c) (2+1)) with a. change (corner (a,b,c) (2+2)) with b.
      destruct (a =? i), (b =? i), (c =? i), (a =? j), (b =? j), (c =? j); cbn [andb]; ring.
Qed.

(** ** the vertex Hodge star *)
Lemma entry_corner_diag L v i j : entry (corner_diag L v) i j = if (i =? j)%Z then sumf v (corners_at L i) else 0%R.
Proof.
  unfold entry, corner_diag, corners_at. rewrite !sumf_app, !sumf_map, !sumf_filter. unfold trow, tcol, tval; cbn [fst snd].
  destruct (Z.eqb_spec i j) as [<-|N].
  - rewrite !(sumf_ext _ _ _ (fun x _ => f_equal (fun b : bool => if b then v (snd x) else 0%R) (andb_diag _))). reflexivity.
  - rewrite !sumf_zero; [lra| intros p _; match goal with |- context [?a =? i] => destruct (Z.eqb_spec a i), (Z.eqb_spec a j) end; cbn; congruence ..].
Qed.
Lemma sum_recip (l : list R) : (forall a, In a l -> 0 < a)%R ->
  (INR (length l) * INR (length l) <= sumf (fun a => a) l * sumf (fun a => 1 / a) l)%R.
Proof.
  induction l as [|a l IH]; intros P; [cbn; lra|]. cbn [sumf length]. rewrite S_INR.
  assert (Pa : (0 < a)%R) by (apply P; left; auto).
  specialize (IH (fun b I => P b (or_intror I))).
  assert (A0 : (0 <= sumf (fun a => a) l)%R) by (apply sumf_nonneg; intros b I; apply Rlt_le, P; right; auto).
  assert (B0 : (0 <= sumf (fun a => 1 / a) l)%R) by (apply sumf_nonneg; intros b I; apply Rlt_le, Rdiv_lt_0_compat; [lra|apply P; right; auto]).
  pose proof (pos_INR (length l)) as K. set (k := INR (length l)) in *.
  set (A := sumf (fun a => a) l) in *. set (B := sumf (fun a => (1 / a)%R) l) in *. clearbody A B k.
  replace ((a + A) * (1 / a + B))%R with (A * B + (A / a + a * B) + 1)%R by (field; lra).
  assert (U : (0 <= A / a)%R) by (apply Rmult_le_pos; [auto | apply Rlt_le, Rinv_0_lt_compat; auto]).
  assert (W : (0 <= a * B)%R) by (apply Rmult_le_pos; lra).
  assert (UW : (A / a * (a * B) = A * B)%R) by (field; lra).
  set (u := (A / a)%R) in *. set (w := (a * B)%R) in *. clearbody u w.
  assert (2 * k <= u + w)%R; [|lra].
  pose proof (Rle_0_sqr (u - w)) as S; unfold Rsqr in S.
  destruct (Rle_lt_dec (2 * k) (u + w)); auto. exfalso. nra.
Qed.
Lemma dec_h0_product (L : faces_lsq) n : valid (Z.of_nat n) (map fst L) -> (forall p, In p L -> 0 < dblA (snd p))%R ->
  exists H0 H0i, dec_h0_intrinsic L (Z.of_nat n) = Ok H0 /\ dec_h0inv_intrinsic L (Z.of_nat n) = Ok H0i /\
  forall i, (0 <= i < Z.of_nat n)%Z ->
   (forall j, j <> i -> matmul n H0 H0i i j = 0%R) /\
   (length (corners_at L i) = 1%nat -> matmul n H0 H0i i i = 1%R) /\
   (INR (length (corners_at L i)) * INR (length (corners_at L i)) <= matmul n H0 H0i i i)%R /\
   ((forall p q, In p L -> In q L -> dblA (snd p) = dblA (snd q)) ->
     matmul n H0 H0i i i = (INR (length (corners_at L i)) * INR (length (corners_at L i)))%R).
Proof.
  intros Va P. unfold dec_h0_intrinsic, dec_h0inv_intrinsic.
  set (va := fun l : r3 => (0.5 / 3 * dblA l)%R). set (vb := fun l : r3 => (1 / (0.5 / 3 * dblA l))%R).
  assert (SH : forall v t, In t (corner_diag L v) -> 0 <= trow t < Z.of_nat n /\ 0 <= tcol t < Z.of_nat n).
  { intros v t I. unfold corner_diag in I. in_blocks I; match goal with H : In ?p L |- _ => apply (in_map fst) in H; apply Va in H end; unfold trow, tcol; cbn [fst snd]; lia. }
  exists (corner_diag L va), (corner_diag L vb). split; [apply csr_ok, SH|]. split; [apply csr_ok, SH|].
  intros i Hi.
  assert (MM : forall j, matmul n (corner_diag L va) (corner_diag L vb) i j = if (i =? j)%Z then (sumf va (corners_at L i) * sumf vb (corners_at L i))%R else 0%R).
  { intros j. unfold matmul.
    transitivity (sumn n (fun k => if (i =? Z.of_nat k)%Z then (sumf va (corners_at L i) * entry (corner_diag L vb) i j)%R else 0%R)).
    - unfold sumn. apply sumf_ext. intros k _. rewrite (entry_corner_diag L va). destruct (Z.eqb_spec i (Z.of_nat k)) as [->|]; [reflexivity|ring].
    - rewrite (sumn_pick n i (fun k => (sumf va (corners_at L i) * entry (corner_diag L vb) i j)%R)) by lia.
      rewrite entry_corner_diag. destruct (Z.eqb_spec i j); ring. }
  assert (IC : forall l, In l (corners_at L i) -> exists p, In p L /\ snd p = l).
  { intros l I. unfold corners_at in I. rewrite !in_app_iff, !in_map_iff in I.
    destruct I as [(p & <- & I)|[(p & <- & I)|(p & <- & I)]]; apply filter_In in I as [I _]; eauto. }
  assert (PC : forall l, In l (corners_at L i) -> (0 < va l)%R).
  { intros l I. apply IC in I as (p & Ip & <-). apply P in Ip. unfold va. lra. }
  repeat split.
  - intros j N. rewrite MM. destruct (Z.eqb_spec i j); congruence.
  - intros K. rewrite MM, Z.eqb_refl. destruct (corners_at L i) as [|l [|l' r]]; try discriminate. cbn [sumf].
    specialize (PC l (or_introl eq_refl)). unfold va, vb in *. field. lra.
  - rewrite MM, Z.eqb_refl. pose proof (sum_recip (map va (corners_at L i))) as S. rewrite map_length, !sumf_map in S.
    apply S. intros a I. apply in_map_iff in I as (l & <- & I). auto.
  - intros EQ. rewrite MM, Z.eqb_refl. destruct (corners_at L i) as [|l0 r] eqn:EC; [cbn; lra|]. rewrite <- EC in *.
    assert (I0 : In l0 (corners_at L i)) by (rewrite EC; left; auto).
    assert (SA : forall l, In l (corners_at L i) -> dblA l = dblA l0).
    { intros l I. apply IC in I as (p & Ip & <-). apply IC in I0 as (q & Iq & <-). apply EQ; auto. }
    rewrite (sumf_ext va (fun _ => va l0)), (sumf_ext vb (fun _ => vb l0)), !sumf_const.
    + unfold va, vb. specialize (PC l0 I0). unfold va in PC. change r3 with (R*R*R)%type in *. field. lra.
    + intros l I. unfold vb. rewrite (SA l I). reflexivity.
    + intros l I. unfold va. rewrite (SA l I). reflexivity.
Qed.

(** ** edge and face Hodge stars *)
Lemma dec_h1_inverse (L : faces_lsq) : map fst L <> [] -> oriented_manifold (map fst L) ->
  exists d d', dec_h1_intrinsic L = Ok (diags d) /\ dec_h1inv_intrinsic L = Ok (diags d') /\ length d' = length d
    /\ ((forall v, In v d -> v <> 0%R) -> is_inverse (length d) (diags d) (diags d') /\ is_inverse (length d) (diags d') (diags d)).
Proof.
  intros NE OM. destruct (hem_ok _ NE OM) as (E & h2e & e2h & Q & HR).
  unfold dec_h1_intrinsic, dec_h1inv_intrinsic. rewrite Q.
  exists (h1_diag L e2h), (map (fun d => 1 / d)%R (h1_diag L e2h)). repeat split; auto.
  - rewrite map_length; auto.
  - apply diags_inverse; auto.
  - apply diags_inverse; auto.
Qed.
Lemma dec_h2_inverse (L : faces_lsq) : (forall p, In p L -> dblA (snd p) <> 0%R) ->
  is_inverse (length L) (dec_h2_intrinsic L) (dec_h2inv_intrinsic L) /\ is_inverse (length L) (dec_h2inv_intrinsic L) (dec_h2_intrinsic L).
Proof.
  intros N. unfold dec_h2_intrinsic, dec_h2inv_intrinsic.
  rewrite <- (map_length (fun p => 0.5 * dblA (snd p))%R L).
  rewrite <- (map_map (fun p => 0.5 * dblA (snd p))%R (fun v => 1 / v)%R L). apply diags_inverse.
  intros v I. apply in_map_iff in I as (p & <- & I). specialize (N p I). lra.
Qed.
