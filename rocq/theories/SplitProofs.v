(** Lemmas for P_Split: one edge split *)
From Coq Require Import Reals Lra List Arith Bool Lia.
From Verif Require Import Vec SplitModel.
Import ListNotations.
Open Scope nat_scope.

(** -- specification -- *)
(** the directed edge opposite corner c of face f *)
Definition he (F : nat -> nat -> nat) (f c : nat) : nat * nat := (F f ((c + 1) mod 3), F f ((c + 2) mod 3)).
Definition swap (e : nat * nat) : nat * nat := (snd e, fst e).
(** an oriented edge-manifold (possibly with boundary) of M faces on N vertices: three different corners, every directed edge in at most one face, no two adjacent faces on the same three vertices *)
Record omesh (F : nat -> nat -> nat) (M N : nat) : Prop := {
  om_range : forall f c, f < M -> c < 3 -> F f c < N;
  om_dist : forall f c d, f < M -> c < 3 -> d < 3 -> F f c = F f d -> c = d;
  om_inj : forall f c g d, f < M -> c < 3 -> g < M -> d < 3 -> he F f c = he F g d -> f = g /\ c = d;
  om_opp : forall f c g d, f < M -> c < 3 -> g < M -> d < 3 -> he F f c = swap (he F g d) -> F f c <> F g d }.
(** what igl::unique_edge_map guarantees: half-edge f + c*H belongs to the unique edge EMAP(f + c*H), whose list in uE2E names its one or two half-edges *)
Record coherent (F : nat -> nat -> nat) (M K H : nat) (e : edges) : Prop := {
  co_map : forall f c, f < M -> c < 3 -> let u := EMAP e (f + c * H) in u < K /\ (slot e u 0 = f + c * H \/ (size e u = 2 /\ slot e u 1 = f + c * H));
  co_one : forall u, u < K -> exists f c, f < M /\ c < 3 /\ slot e u 0 = f + c * H /\ EMAP e (f + c * H) = u /\ (uE e u = he F f c \/ uE e u = swap (he F f c));
  co_two : forall u, u < K -> size e u = 2 -> exists f c g d, f < M /\ c < 3 /\ g < M /\ d < 3 /\ slot e u 0 = f + c * H /\ slot e u 1 = g + d * H /\ EMAP e (g + d * H) = u /\ he F f c = swap (he F g d) }.

(** -- numbering -- *)
Lemma enc_inj H f c g d : f < H -> g < H -> f + c * H = g + d * H -> f = g /\ c = d.
Proof. intros A B E. assert (f = g). { pose proof (f_equal (fun x => x mod H) E) as Q. cbv beta in Q. rewrite !Nat.mod_add, !Nat.mod_small in Q by lia. auto. } subst. split; [auto|]. nia. Qed.
Lemma enc_mod H f c : f < H -> (f + c * H) mod H = f.
Proof. intros. rewrite Nat.mod_add, Nat.mod_small by lia. auto. Qed.
Lemma enc_div H f c : f < H -> (f + c * H) / H = c.
Proof. intros. rewrite Nat.div_add, Nat.div_small by lia. auto. Qed.
Lemma set1_enc {A} H (a : nat -> A) f c v g d : f < H -> g < H -> set1 a (f + c * H) v (g + d * H) = if Nat.eqb g f && Nat.eqb d c then v else a (g + d * H).
Proof. intros B C. unfold set1. destruct (Nat.eqb_spec (g + d * H) (f + c * H)) as [E|E]; [apply enc_inj in E; auto; destruct E as (-> & ->); rewrite !Nat.eqb_refl; auto|]. destruct (Nat.eqb_spec g f), (Nat.eqb_spec d c); subst; cbn [andb]; congruence. Qed.
Lemma mod3 c : c < 3 -> let c1 := (c + 1) mod 3 in let c2 := (c + 2) mod 3 in
  c1 < 3 /\ c2 < 3 /\ c <> c1 /\ c <> c2 /\ c1 <> c2 /\ (c1 + 1) mod 3 = c2 /\ (c1 + 2) mod 3 = c /\ (c2 + 1) mod 3 = c /\ (c2 + 2) mod 3 = c1 /\ c mod 3 = c /\ forall d, d < 3 -> d = c \/ d = c1 \/ d = c2.
Proof. intros L. assert (c = 0 \/ c = 1 \/ c = 2) as [->|[->| ->]] by lia; cbn; repeat (split; [lia|]); lia. Qed.
Lemma he_ne F M N f c : omesh F M N -> f < M -> c < 3 -> fst (he F f c) <> snd (he F f c).
Proof. intros O A B. unfold he. cbn [fst snd]. intros E. destruct (mod3 c B) as (L1 & L2 & _ & _ & D & _). apply (om_dist _ _ _ O) in E; auto. Qed.
Ltac decide_eqb := repeat match goal with |- context [Nat.eqb ?a ?b] => let E := fresh in destruct (Nat.eqb_spec a b) as [E|E]; cbn [andb]; try (exfalso; first [congruence|lia]) end; auto.

Ltac deq := repeat match goal with |- context [Nat.eqb ?a ?b] => let E := fresh in destruct (Nat.eqb_spec a b) as [E|E]; try (exfalso; congruence) end; auto.

Ltac deqa := repeat match goal with |- context [Nat.eqb ?a ?b] => let E := fresh in destruct (Nat.eqb_spec a b) as [E|E]; cbn [andb]; try (exfalso; congruence); try (match type of E with ?f = _ => is_var f; subst f; exfalso; lia end) end; auto.

Section OneSplit.
  Variables (n m k H i uei : nat) (st : state).
  Let M := m + 2 * i. Let N := n + i. Let K := k + 3 * i.
  Hypothesis (HO : omesh (F st) M N) (HC : coherent (F st) M K H (ed st)) (HH : M + 2 <= H) (HU : uei < K) (HS : size (ed st) uei = 2).
  Variables (f0 c0 f1 c1 : nat).
  Hypothesis (Lf0 : f0 < M) (Lc0 : c0 < 3) (Lf1 : f1 < M) (Lc1 : c1 < 3) (S0 : slot (ed st) uei 0 = f0 + c0 * H) (S1 : slot (ed st) uei 1 = f1 + c1 * H)
    (E0 : EMAP (ed st) (f0 + c0 * H) = uei) (E1 : EMAP (ed st) (f1 + c1 * H) = uei) (HR : he (F st) f0 c0 = swap (he (F st) f1 c1)).
  Let c0' := (c0 + 1) mod 3. Let c0'' := (c0 + 2) mod 3. Let c1' := (c1 + 1) mod 3. Let c1'' := (c1 + 2) mod 3.
  Let v1 := F st f0 c0'. Let v2 := F st f0 c0''. Let v4 := F st f0 c0. Let v3 := F st f1 c1.
  Let w := n + i.
  Let st' := split_one n m k H i uei st.
  Let P0 := mod3 c0 Lc0. Let P1 := mod3 c1 Lc1.

  Lemma v21 : F st f1 c1' = v2 /\ F st f1 c1'' = v1.
  Proof. unfold he, swap in HR. cbn [fst snd] in HR. injection HR as A B. split; [symmetry; exact B|symmetry; exact A]. Qed.
  Lemma f01 : f0 <> f1.
  Proof.
    intros E. pose proof v21 as (A & B). subst f1. unfold v1, v2 in *. cbv zeta in P0, P1. fold c0' c0'' in P0. fold c1' c1'' in P1. destruct P0 as (Q1 & Q2 & Q3 & Q4 & Q5 & Q6 & Q7 & Q8 & Q9 & _). destruct P1 as (R1 & R2 & R3 & R4 & R5 & R6 & R7 & R8 & R9 & _).
    apply (om_dist _ _ _ HO) in A; auto. apply (om_dist _ _ _ HO) in B; auto. rewrite A in R6. rewrite Q8 in R6. rewrite B in R6. congruence.
  Qed.
  Lemma vs : v1 <> v2 /\ v1 <> v4 /\ v2 <> v4 /\ v1 <> v3 /\ v2 <> v3 /\ v4 <> v3 /\ v1 < N /\ v2 < N /\ v3 < N /\ v4 < N.
  Proof.
    pose proof v21 as (A & B). cbv zeta in P0, P1. fold c0' c0'' in P0. fold c1' c1'' in P1. destruct P0 as (Q1 & Q2 & Q3 & Q4 & Q5 & _). destruct P1 as (R1 & R2 & R3 & R4 & R5 & _).
    assert (D : forall c d, c < 3 -> d < 3 -> c <> d -> F st f0 c <> F st f0 d) by (intros c d X Y Z E; apply (om_dist _ _ _ HO) in E; auto).
    assert (D' : forall c d, c < 3 -> d < 3 -> c <> d -> F st f1 c <> F st f1 d) by (intros c d X Y Z E; apply (om_dist _ _ _ HO) in E; auto).
    pose proof (om_opp _ _ _ HO f0 c0 f1 c1 Lf0 Lc0 Lf1 Lc1 HR) as OP.
    unfold v1, v2, v3, v4. repeat split; try (apply D; auto; fail); try (apply (om_range _ _ _ HO); auto; fail); auto.
    - fold v1. rewrite <- B. apply D'; auto.
    - fold v2. rewrite <- A. apply D'; auto.
  Qed.

  (** the four faces afterwards, and the others *)
  Definition faces_new (F' : nat -> nat -> nat) : Prop :=
    F' f0 c0 = v4 /\ F' f0 c0' = v1 /\ F' f0 c0'' = w /\ F' f1 c1 = v3 /\ F' f1 c1' = w /\ F' f1 c1'' = v1
    /\ F' M 0 = v2 /\ F' M 1 = w /\ F' M 2 = v3 /\ F' (M + 1) 0 = v2 /\ F' (M + 1) 1 = v4 /\ F' (M + 1) 2 = w
    /\ forall f c, f < M -> f <> f0 -> f <> f1 -> F' f c = F st f c.
  Lemma F_new : faces_new (F st').
  Proof.
    pose proof f01 as NE. cbv zeta in P0, P1. fold c0' c0'' in P0. fold c1' c1'' in P1. destruct P0 as (Q1 & Q2 & Q3 & Q4 & Q5 & _). destruct P1 as (R1 & R2 & R3 & R4 & R5 & _).
    unfold st', split_one. cbn [F]. rewrite S0, S1, !enc_mod, !enc_div by lia. fold c0' c0'' c1' c1''. fold v1 v2 v4 v3. fold w. fold M. unfold set2.
    assert (X1 : f0 <> M) by lia. assert (X2 : f0 <> M + 1) by lia. assert (X3 : f1 <> M) by lia. assert (X4 : f1 <> M + 1) by lia. assert (X5 : M <> M + 1) by lia.
    unfold faces_new. split; [|split; [|split; [|split; [|split; [|split; [|split; [|split; [|split; [|split; [|split; [|split]]]]]]]]]]]; intros; deqa.
  Qed.
  Let emap (e : edges) (f c : nat) : nat := EMAP e (f + c * H).
  Definition maps_new (E' : nat -> nat -> nat) : Prop :=
    E' f0 c0 = uei /\ E' f0 c0' = K + 1 /\ E' f0 c0'' = emap (ed st) f0 c0'' /\ E' f1 c1 = uei /\ E' f1 c1' = emap (ed st) f1 c1' /\ E' f1 c1'' = K
    /\ E' M 0 = K /\ E' M 1 = emap (ed st) f1 c1'' /\ E' M 2 = K + 2 /\ E' (M + 1) 0 = K + 1 /\ E' (M + 1) 1 = K + 2 /\ E' (M + 1) 2 = emap (ed st) f0 c0'
    /\ forall f c, f < M -> f <> f0 -> f <> f1 -> E' f c = emap (ed st) f c.
  Lemma E_new : maps_new (emap (ed st')).
  Proof.
    pose proof f01 as NE. cbv zeta in P0, P1. fold c0' c0'' in P0. fold c1' c1'' in P1. destruct P0 as (Q1 & Q2 & Q3 & Q4 & Q5 & _ & _ & _ & _ & Q6 & _). destruct P1 as (R1 & R2 & R3 & R4 & R5 & _ & _ & _ & _ & R6 & _).
    unfold maps_new, emap. unfold st', split_one. cbn [ed EMAP]. rewrite S0, S1, !enc_mod, !enc_div by lia. rewrite Q6, R6. fold c0' c0'' c1' c1''. fold M. fold K.
    assert (X1 : f0 <> M) by lia. assert (X2 : f0 <> M + 1) by lia. assert (X3 : f1 <> M) by lia. assert (X4 : f1 <> M + 1) by lia. assert (X5 : M <> M + 1) by lia.
    assert (Y1 : f0 < H) by lia. assert (Y2 : f1 < H) by lia. assert (Y3 : M < H) by lia. assert (Y4 : M + 1 < H) by lia.
    split; [|split; [|split; [|split; [|split; [|split; [|split; [|split; [|split; [|split; [|split; [|split]]]]]]]]]]]; intros; rewrite ?(set1_enc H) by (auto; lia); deqa.
  Qed.

  (** the slots *)
  Let e3 := f1 + c1'' * H. Let e4 := f0 + c0' * H.
  Definition moved (h : nat) : nat := if Nat.eqb h e4 then M + 1 + 2 * H else if Nat.eqb h e3 then M + 1 * H else h.
  Definition Tab (t : nat -> nat) (base s : nat -> nat -> nat) : Prop :=
    (forall u, u < K -> s u 0 = t (slot (ed st) u 0)) /\ (forall u, u < K -> size (ed st) u = 2 -> s u 1 = t (slot (ed st) u 1)) /\ (forall u j, K <= u -> s u j = base u j).
  Definition repl (s : nat -> nat -> nat) (u old new : nat) := if Nat.eqb (s u 0) old then set2 s u 0 new else set2 s u 1 new.
  Lemma repl_tab t base s f c new : f < M -> c < 3 -> let old := f + c * H in t old = old -> (forall g d, g < M -> d < 3 -> t (g + d * H) = old -> g + d * H = old) ->
    Tab t base s -> Tab (fun h => if Nat.eqb h old then new else t h) base (repl s (EMAP (ed st) old) old new).
  Proof.
    intros Lf Lc old T1 T2 (A & B & C). destruct (co_map _ _ _ _ _ HC f c Lf Lc) as (UK & CM). fold old in UK, CM. set (us := EMAP (ed st) old) in *.
    unfold repl. split; [|split].
    - intros u Hu. destruct (co_one _ _ _ _ _ HC u Hu) as (g & d & Lg & Ld & SE & EU & _). destruct (Nat.eqb_spec (slot (ed st) u 0) old) as [E|E].
      + assert (u = us) by (unfold us; rewrite <- E, SE; auto). rewrite <- H0. rewrite (A u Hu), E, T1, Nat.eqb_refl. unfold set2. rewrite !Nat.eqb_refl. reflexivity.
      + destruct (Nat.eqb_spec (s us 0) old) as [E'|E'].
        * rewrite (A us UK) in E'. destruct (co_one _ _ _ _ _ HC us UK) as (g' & d' & Lg' & Ld' & SE' & _). rewrite SE' in E'. apply T2 in E'; auto. unfold set2. destruct (Nat.eqb_spec u us); cbn [andb]; [subst u; congruence|]. auto.
        * unfold set2. cbn [Nat.eqb]. rewrite andb_false_r. auto.
    - intros u Hu SZ. destruct (co_two _ _ _ _ _ HC u Hu SZ) as (f' & c' & g & d & Lf' & Lc' & Lg & Ld & SE0 & SE & EU & RV).
      assert (DS : slot (ed st) u 0 <> slot (ed st) u 1).
      { rewrite SE0, SE. intros Q. apply enc_inj in Q; [|lia|lia]. destruct Q as (-> & ->). pose proof (he_ne _ _ _ g d HO Lg Ld) as NE. unfold swap in RV. rewrite RV in NE at 1. cbn [fst] in NE. rewrite RV in NE. cbn [snd fst] in NE. congruence. }
      destruct (Nat.eqb_spec (slot (ed st) u 1) old) as [E|E].
      + assert (u = us) by (unfold us; rewrite <- E, SE; auto). rewrite <- H0. destruct (Nat.eqb_spec (s u 0) old) as [E'|E'].
        * exfalso. rewrite (A u Hu), SE0 in E'. apply T2 in E'; auto. congruence.
        * unfold set2. rewrite !Nat.eqb_refl. reflexivity.
      + destruct (Nat.eqb_spec (s us 0) old) as [E'|E'].
        * unfold set2. cbn [Nat.eqb]. rewrite andb_false_r. auto.
        * unfold set2. destruct (Nat.eqb_spec u us); cbn [andb]; [|auto]. exfalso. subst u. destruct CM as [CM|(_ & CM)]; [|congruence]. apply E'. rewrite (A us UK), CM. auto.
    - intros u j Hu. assert (Q : forall j', Nat.eqb u us && Nat.eqb j j' = false) by (intros; destruct (Nat.eqb_spec u us); [lia|auto]). destruct (Nat.eqb (s us 0) old); unfold set2; rewrite Q; auto.
  Qed.
  Definition slots_new (s' : nat -> nat -> nat) : Prop :=
    (forall u, u < K -> s' u 0 = moved (slot (ed st) u 0)) /\ (forall u, u < K -> size (ed st) u = 2 -> s' u 1 = moved (slot (ed st) u 1))
    /\ s' K 0 = e3 /\ s' K 1 = M + 0 * H /\ s' (K + 1) 0 = e4 /\ s' (K + 1) 1 = M + 1 + 0 * H /\ s' (K + 2) 0 = M + 2 * H /\ s' (K + 2) 1 = M + 1 + 1 * H.
  Lemma S_new : slots_new (slot (ed st')).
  Proof.
    pose proof f01 as NE. cbv zeta in P0, P1. fold c0' c0'' in P0. fold c1' c1'' in P1. destruct P0 as (Q1 & Q2 & Q3 & Q4 & Q5 & _ & _ & _ & _ & Q6 & _). destruct P1 as (R1 & R2 & R3 & R4 & R5 & _ & _ & _ & _ & R6 & _).
    unfold st', split_one. cbn [ed slot]. rewrite S0, S1, !enc_mod, !enc_div by lia. fold c0' c0'' c1' c1''. fold M K. fold e3 e4. set (e2 := f1 + c1' * H). set (e5 := f0 + c0'' * H).
    match goal with |- slots_new (if Nat.eqb (?s _ _) _ then _ else _) => idtac end.
    match goal with |- context [set2 (set2 (slot (ed st)) uei 0 ?a) uei 1 ?b] => set (s1 := set2 (set2 (slot (ed st)) uei 0 a) uei 1 b) end.
    match goal with |- context [set2 (set2 s1 K 0 ?a) K 1 ?b] => set (s2 := set2 (set2 s1 K 0 a) K 1 b) end.
    match goal with |- context [set2 (set2 s2 (K + 1) 0 ?a) (K + 1) 1 ?b] => set (s3 := set2 (set2 s2 (K + 1) 0 a) (K + 1) 1 b) end.
    match goal with |- context [set2 (set2 s3 (K + 2) 0 ?a) (K + 2) 1 ?b] => set (s4 := set2 (set2 s3 (K + 2) 0 a) (K + 2) 1 b) end.
    assert (T4 : Tab (fun h => h) s4 s4).
    { split; [|split]; [| |auto]; intros u Hu; intros; unfold s4, s3, s2, s1, set2; decide_eqb; subst; congruence. }
    change (slots_new (repl (repl (repl (repl s4 (EMAP (ed st) e2) e2 e2) (EMAP (ed st) e3) e3 (M + 1 * H)) (EMAP (ed st) e4) e4 (M + 1 + 2 * H)) (EMAP (ed st) e5) e5 e5)).
    assert (INJ : forall f c g d, f < H -> g < H -> (f <> g \/ c <> d) -> f + c * H <> g + d * H) by (intros f c g d A B C E; apply enc_inj in E; auto; lia).
    assert (LH : forall f, f < M -> f < H) by (intros; lia).
    assert (NE' : f1 <> f0) by congruence.
    assert (DD : e2 <> e3 /\ e2 <> e4 /\ e2 <> e5 /\ e3 <> e4 /\ e3 <> e5 /\ e4 <> e5) by (repeat split; apply INJ; auto).
    assert (N3 : forall f c, f < M -> M + 1 * H <> f + c * H) by (clear DD; intros; apply INJ; lia). assert (N4 : forall f c, f < M -> M + 1 + 2 * H <> f + c * H) by (clear DD; intros; apply INJ; lia).
    destruct DD as (D23 & D24 & D25 & D34 & D35 & D45).
    pose proof (repl_tab (fun h => h) s4 s4 f1 c1' e2 Lf1 R1 eq_refl ltac:(auto) T4) as T5. fold e2 in T5.
    assert (T6' : Tab (fun h => if Nat.eqb h e3 then M + 1 * H else if Nat.eqb h e2 then e2 else h) s4 (repl (repl s4 (EMAP (ed st) e2) e2 e2) (EMAP (ed st) e3) e3 (M + 1 * H))).
    { apply (repl_tab (fun h => if Nat.eqb h e2 then e2 else h)); auto; cbv beta; [deq; congruence|]. intros g d Lg Ld. deq; congruence. }
    assert (T7 : Tab (fun h => if Nat.eqb h e4 then M + 1 + 2 * H else if Nat.eqb h e3 then M + 1 * H else if Nat.eqb h e2 then e2 else h) s4 (repl (repl (repl s4 (EMAP (ed st) e2) e2 e2) (EMAP (ed st) e3) e3 (M + 1 * H)) (EMAP (ed st) e4) e4 (M + 1 + 2 * H))).
    { apply (repl_tab (fun h => if Nat.eqb h e3 then M + 1 * H else if Nat.eqb h e2 then e2 else h)); auto; cbv beta; fold e4; [deq; congruence|]. intros g d Lg Ld. deq; try congruence. intros Q. exfalso. apply (N3 f0 c0'); auto. }
    assert (T8 : Tab (fun h => if Nat.eqb h e5 then e5 else if Nat.eqb h e4 then M + 1 + 2 * H else if Nat.eqb h e3 then M + 1 * H else if Nat.eqb h e2 then e2 else h) s4 (repl (repl (repl (repl s4 (EMAP (ed st) e2) e2 e2) (EMAP (ed st) e3) e3 (M + 1 * H)) (EMAP (ed st) e4) e4 (M + 1 + 2 * H)) (EMAP (ed st) e5) e5 e5)).
    { apply (repl_tab (fun h => if Nat.eqb h e4 then M + 1 + 2 * H else if Nat.eqb h e3 then M + 1 * H else if Nat.eqb h e2 then e2 else h)); auto; cbv beta; fold e5; [deq; congruence|]. intros g d Lg Ld. deq; try congruence; intros Q; exfalso; [apply (N4 f0 c0'')|apply (N3 f0 c0'')]; auto. }
    destruct T8 as (A & B & C). split; [|split].
    - intros u Hu. rewrite A by auto. unfold moved. deq; congruence.
    - intros u Hu SZ. rewrite B by auto. unfold moved. deq; congruence.
    - clear D23 D24 D25 D34 D35 D45. rewrite !C by lia. clear A B C T7 T6' T5 T4. unfold s4, s3, s2, s1, set2. repeat split; decide_eqb.
  Qed.
End OneSplit.
