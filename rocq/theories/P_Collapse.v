(** C86: the edge-collapsing stage of remesh_botsch (src/cpp/remesher/collapse_edges.cpp) *)
From Coq Require Import Reals Lra List Arith Bool Lia.
From Verif Require Import Vec SplitModel SplitProofs Split5Proofs FlipModel Flip2Proofs RelaxModel P_Relax CollapseModel CollapseProofs.
Import ListNotations.
Open Scope nat_scope.

(** -- specification (degree of P_Relax, same_edge and sym_once of the splitting stage, merge of CollapseProofs: the smaller index survives) -- *)
(** ends and junctions of feature curves *)
Definition corner (fe : list (nat * nat)) (v : nat) : Prop := degree fe v <> 0 /\ degree fe v <> 2.
(** What igl::decimate does with a cost callback [cb], as far as it is used: starting from M0 it collapses edges one after the other; edge e between the surviving vertices a and b is collapsed to the placement p the callback gave, with a finite cost, on some earlier mesh with the same edge between the same two points; both ends move to p, the smaller index survives.  [rep] maps every vertex to the one it has been merged into, the list records the ends of the collapsed edges.  Which edges are picked and how the connectivity changes is left open. *)
Inductive run (cb : dmesh -> nat -> option (option R * vec3)) (n : nat) (M0 : dmesh) : dmesh -> list dmesh -> (nat -> nat) -> list (nat * nat) -> Prop :=
  | run0 : run cb n M0 M0 [] (fun o => o) []
  | run1 M hist rep l e a b Mold c p M' : run cb n M0 M hist rep l -> cE M e = (a, b) -> a <> b -> a < n -> b < n -> rep a = a -> rep b = b ->
      In Mold (M :: hist) -> cE Mold e = (a, b) -> cV Mold a = cV M a -> cV Mold b = cV M b -> cb Mold e = Some (Some c, p) ->
      (forall v, cV M' v = if Nat.eqb v a || Nat.eqb v b then p else cV M v) -> run cb n M0 M' (M :: hist) (merge rep a b) (l ++ [(a, b)]).
(** the output of igl::decimate lists surviving vertices, each once, at their final positions *)
Definition decimated cb n M0 (r : dresult) (rep : nat -> nat) (M : dmesh) : Prop :=
  exists hist, run cb n M0 M hist rep (merges r) /\ (forall s, s < rn r -> rI r s < n /\ rep (rI r s) = rI r s /\ rU r s = cV M (rI r s)) /\ (forall s t, s < rn r -> t < rn r -> rI r s = rI r t -> s = t).

(** -- proofs -- *)
Lemma feat_deg_ok fe v : feat_deg fe v = degree fe v.
Proof.
  unfold feat_deg, degree. assert (G : forall l k, fold_left (fun d (r : nat * nat) => d + (if fst r =? v then 1 else 0) + (if snd r =? v then 1 else 0)) l k = k + (length (filter (fun r => fst r =? v) l) + length (filter (fun r => snd r =? v) l))).
  { induction l as [|(a, b) l IH]; intros k; cbn [fold_left filter fst snd length]; [lia|]. rewrite IH. destruct (a =? v), (b =? v); cbn [length]; lia. }
  apply G.
Qed.
Lemma existsb_no {T} (P : T -> bool) l : existsb P l = false -> forall x, In x l -> P x = false.
Proof. intros E x I. destruct (P x) eqn:Q; [|auto]. assert (existsb P l = true) by (apply existsb_exists; exists x; auto). congruence. Qed.
Lemma not_lt_b x y : lt_b x y = false -> (y <= x)%R.
Proof. unfold lt_b. destruct (Rlt_dec x y); [discriminate|lra]. Qed.
(** the rules for an edge from a to b on mesh M with a finite cost and placement p *)
Record rules feature fe (high low : nat -> R) (A : nat -> list nat) (M : dmesh) (a b : nat) (p : vec3) : Prop := {
  ru_free : ~ In a feature /\ ~ In b feature;
  ru_short : (dist (cV M a) (cV M b) <= (low a + low b) / 2)%R;
  ru_curve : degree fe a <> 0 -> degree fe b <> 0 -> (In (a, b) fe \/ In (b, a) fe) /\ ~ (corner fe a /\ corner fe b);
  ru_mid : degree fe a = 0 -> degree fe b = 0 -> p = mid3 (cV M a) (cV M b);
  ru_a : degree fe a <> 0 -> degree fe b = 0 -> p = cV M a; ru_b : degree fe b <> 0 -> degree fe a = 0 -> p = cV M b;
  ru_ca : corner fe a -> p = cV M a; ru_cb : corner fe b -> p = cV M b;
  ru_line : degree fe a = 2 -> degree fe b = 2 -> p = cV M a;
  ru_far : (degree fe a = 0 -> forall w, In w (A a) -> (dist (cV M w) p <= high a)%R) /\ (degree fe b = 0 -> forall w, In w (A b) -> (dist (cV M w) p <= high b)%R) }.
Lemma callback_ok fuel m feature fe high low A M e a b c p : cE M e = (a, b) -> cost_and_placement fuel m feature fe high low A M e = Some (Some c, p) -> rules feature fe high low A M a b p /\ c = dist (cV M a) (cV M b).
Proof.
  intros E. unfold cost_and_placement. rewrite E. cbn [fst snd]. cbv zeta. rewrite !feat_deg_ok.
  destruct (existsb (Nat.eqb a) feature || existsb (Nat.eqb b) feature) eqn:EF; [discriminate|]. apply orb_false_iff in EF. destruct EF as (EA & EB).
  assert (FA : ~ In a feature) by (intros I; apply isf in I; congruence). assert (FB : ~ In b feature) by (intros I; apply isf in I; congruence).
  assert (B1 : forall v, (1 <=? degree fe v) = true <-> degree fe v <> 0) by (intros v; rewrite Nat.leb_le; lia). assert (B2 : forall v, negb (degree fe v =? 2) = true <-> degree fe v <> 2) by (intros v; rewrite negb_true_iff, Nat.eqb_neq; tauto).
  pose proof (B1 a) as A1. pose proof (B1 b) as A2. pose proof (B2 a) as A3. pose proof (B2 b) as A4. clear B1 B2.
  match goal with |- context [if ?x then Some (None, _) else _] => destruct x eqn:EC end; [discriminate|].
  assert (SE : existsb (same_edge (a, b)) fe = true -> In (a, b) fe \/ In (b, a) fe).
  { intros Q. apply existsb_exists in Q. destruct Q as (x & I & S). apply same_edge_spec in S. destruct S as [S|S]; [left; rewrite S; auto|right; destruct x as (x1, x2); unfold swap in S; cbn [fst snd] in S; injection S as -> ->; auto]. }
  match goal with |- context [if Rlt_dec ?x ?y then Some (None, ?q) else _] => set (pp := q); destruct (Rlt_dec x y) as [T|T] end; [discriminate|].
  match goal with |- context [if ?x then Some (None, pp) else _] => destruct x eqn:EU end; [discriminate|]. match goal with |- context [if ?x then Some (None, pp) else _] => destruct x eqn:EW end; [discriminate|].
  destruct (circulate fuel m M (b <? a) (cEF M e 0) e (cEF M e 0)) as [N|]; [|discriminate]. destruct (existsb (turns M pp a b (length N)) N); [discriminate|]. intros Q. injection Q as <- <-. split; [|reflexivity].
  assert (EC' : degree fe a <> 0 -> degree fe b <> 0 -> (In (a, b) fe \/ In (b, a) fe) /\ ~ (degree fe a <> 2 /\ degree fe b <> 2)).
  { intros Da Db. apply A1 in Da. apply A2 in Db. rewrite Da, Db in EC. cbn [andb] in EC. apply orb_false_iff in EC. destruct EC as (EC1 & EC2). apply negb_false_iff in EC1. split; [auto|]. intros (D1 & D2). apply A3 in D1. apply A4 in D2. rewrite D1, D2 in EC2. discriminate. }
  assert (NA : degree fe a = 0 -> (1 <=? degree fe a) = false) by (intros ->; reflexivity). assert (NB : degree fe b = 0 -> (1 <=? degree fe b) = false) by (intros ->; reflexivity).
  constructor.
  - auto.
  - apply Rnot_lt_le in T. exact T.
  - intros Da Db. destruct (EC' Da Db) as (S & NC). split; [auto|]. unfold corner. tauto.
  - intros Da Db. unfold pp. rewrite (NA Da), (NB Db). reflexivity.
  - intros Da Db. unfold pp. apply A1 in Da. rewrite Da, (NB Db). reflexivity.
  - intros Db Da. unfold pp. apply A2 in Db. rewrite Db, (NA Da). reflexivity.
  - intros (D0 & D2). unfold pp. apply A1 in D0. apply A3 in D2. rewrite D0, D2. destruct (1 <=? degree fe b); reflexivity.
  - intros (D0 & D2). unfold pp. destruct (Nat.eq_dec (degree fe a) 0) as [Z|NZ]; [apply A2 in D0; rewrite D0, (NA Z); reflexivity|]. destruct (EC' NZ D0) as (_ & NC). assert (Q : degree fe a = 2) by lia.
    apply A2 in D0. apply A4 in D2. rewrite D0, D2, Q. reflexivity.
  - intros Da Db. unfold pp. rewrite Da, Db. reflexivity.
  - apply andb_false_iff in EU, EW. split; [intros Da w I; destruct EW as [EW|EW]; [rewrite (NA Da) in EW; discriminate|]|intros Db w I; destruct EU as [EU|EU]; [rewrite (NB Db) in EU; discriminate|]].
    + apply (existsb_no _ _ EW) in I. apply not_lt_b in I. exact I. + apply (existsb_no _ _ EU) in I. apply not_lt_b in I. exact I.
Qed.
Lemma run_chain cb n M0 M hist rep l : run cb n M0 M hist rep l -> chain l rep.
Proof. induction 1; [constructor|constructor; auto]. Qed.
Lemma rules_move feature fe high low A M M' a b p : rules feature fe high low A M a b p -> cV M a = cV M' a -> cV M b = cV M' b ->
  (corner fe a -> p = cV M' a) /\ (corner fe b -> p = cV M' b) /\ (degree fe a <> 0 -> degree fe b <> 0 -> p = cV M' a \/ p = cV M' b) /\ (degree fe a <> 0 -> degree fe b = 0 -> p = cV M' a) /\ (degree fe b <> 0 -> degree fe a = 0 -> p = cV M' b).
Proof.
  intros R EA EB. rewrite <- EA, <- EB. split; [apply (ru_ca _ _ _ _ _ _ _ _ _ R)|]. split; [apply (ru_cb _ _ _ _ _ _ _ _ _ R)|]. split; [|split; [apply (ru_a _ _ _ _ _ _ _ _ _ R)|apply (ru_b _ _ _ _ _ _ _ _ _ R)]].
  intros Da Db. destruct (Nat.eq_dec (degree fe a) 2) as [QA|QA]; [|left; apply (ru_ca _ _ _ _ _ _ _ _ _ R); split; auto]. destruct (Nat.eq_dec (degree fe b) 2) as [QB|QB]; [left; apply (ru_line _ _ _ _ _ _ _ _ _ R); auto|right; apply (ru_cb _ _ _ _ _ _ _ _ _ R); split; auto].
Qed.

Section Stage.
  Variables (fuel m n : nat) (feature : list nat) (fe : list (nat * nat)) (high low : nat -> R) (A : nat -> list nat) (M0 : dmesh).
  Notation cb := (cost_and_placement fuel m feature fe high low A).

  (** Every collapsed edge was allowed: no end is a feature vertex; two vertices on feature curves are only merged along a feature edge, and never two ends or junctions; the edge was at most as long as the mean lower bound of its ends, and the ends that are on no curve got no neighbour of the input mesh further away than their upper bound. *)
  Theorem C86_merges r rep M : decimated cb n M0 r rep M -> forall a b, In (a, b) (merges r) -> a < n /\ b < n /\ a <> b /\ exists K p, rules feature fe high low A K a b p.
  Proof.
    intros (hist & R & _). induction R as [|M hist rep l e a b Mold c p M' R IH E NE La Lb RA RB IO EO VA VB CB MV]; intros x y I; [destruct I|]. apply in_app_or in I. destruct I as [I|[I|[]]]; [auto|]. injection I as <- <-. split; [auto|]. split; [auto|]. split; [auto|]. exists Mold, p. eapply callback_ok; eauto.
  Qed.
  (** Positions of the survivors: explicit feature vertices survive where they are; a surviving vertex that took part in no collapse stays; a surviving end or junction of a feature curve stays; any other surviving vertex of a feature curve sits where a vertex of a curve merged into it was. *)
  Theorem C86_positions r rep M : decimated cb n M0 r rep M -> forall v,
    (In v feature -> rep v = v) /\ ((forall w, ~ In (v, w) (merges r) /\ ~ In (w, v) (merges r)) -> rep v = v /\ cV M v = cV M0 v)
    /\ (In v feature -> cV M v = cV M0 v)
    /\ (rep v = v -> corner fe v -> cV M v = cV M0 v)
    /\ (rep v = v -> degree fe v <> 0 -> exists w, degree fe w <> 0 /\ rep w = v /\ cV M v = cV M0 w).
  Proof.
    intros (hist & R & _). induction R as [|M hist rep l e a b Mold c p M' R IH E NE La Lb RA RB IO EO VA VB CB MV]; intros v.
    - split; [auto|]. split; [auto|]. split; [auto|]. split; [auto|]. intros _ D. exists v. auto.
    - destruct (callback_ok _ _ _ _ _ _ _ _ _ _ _ _ _ EO CB) as (RU & _). destruct (rules_move _ _ _ _ _ _ M _ _ _ RU VA VB) as (C1 & C2 & C3 & C4 & C5). destruct (ru_free _ _ _ _ _ _ _ _ _ RU) as (FA & FB). clear RU.
      destruct (IH v) as (I1 & I2 & I3 & I4 & I5).
      assert (MM : (Nat.max a b = a /\ Nat.min a b = b) \/ (Nat.max a b = b /\ Nat.min a b = a)) by (clear; lia).
      assert (OTHER : v <> a -> v <> b -> cV M' v = cV M v) by (intros N1 N2; rewrite MV, (proj2 (Nat.eqb_neq v a) N1), (proj2 (Nat.eqb_neq v b) N2); reflexivity).
      assert (REP : merge rep a b v = v -> rep v = v). { unfold merge. destruct (Nat.eqb_spec (rep v) (Nat.max a b)) as [Q|Q]; [|auto]. intros <-. destruct MM as [(_ & ->)|(_ & ->)]; auto. }
      assert (MAX : v = a \/ v = b -> merge rep a b v = v -> v = Nat.min a b).
      { intros S. unfold merge. destruct (Nat.eqb_spec (rep v) (Nat.max a b)) as [Q|Q]; [auto|]. intros _. destruct S as [->| ->]; [rewrite RA in Q|rewrite RB in Q]; clear -Q NE; lia. }
      assert (KEEP : forall w, rep w = v -> v <> a -> v <> b -> merge rep a b w = v) by (intros w Q N1 N2; unfold merge; rewrite Q; destruct (Nat.eqb_spec v (Nat.max a b)) as [->|]; [destruct MM as [(X1 & _)|(X1 & _)]; congruence|auto]).
      split; [|split; [|split; [|split]]].
      + intros I. specialize (I1 I). unfold merge. rewrite I1. destruct (Nat.eqb_spec v (Nat.max a b)) as [->|]; [|auto]. exfalso. destruct MM as [(X1 & _)|(X1 & _)]; rewrite X1 in I; auto.
      + intros NI. assert (Na : v <> a) by (intros ->; destruct (NI b) as (Q & _); apply Q, in_or_app; right; left; auto). assert (Nb : v <> b) by (intros ->; destruct (NI a) as (_ & Q); apply Q, in_or_app; right; left; auto).
        destruct I2 as (J1 & J2); [intros w; destruct (NI w) as (Q1 & Q2); split; intros I; [apply Q1|apply Q2]; apply in_or_app; auto|]. split; [apply KEEP; auto|rewrite OTHER by auto; exact J2].
      + intros I. rewrite OTHER by (intros ->; contradiction). auto.
      + intros RV CV. destruct (Nat.eq_dec v a) as [->|Na]; [rewrite MV, Nat.eqb_refl; cbn [orb]; rewrite (C1 CV); auto|]. destruct (Nat.eq_dec v b) as [->|Nb]; [rewrite MV, Nat.eqb_refl, orb_true_r, (C2 CV); auto|]. rewrite OTHER by auto. auto.
      + intros RV DV. destruct (Nat.eq_dec v a) as [Ea|Na]; [|destruct (Nat.eq_dec v b) as [Eb|Nb]].
        * subst v. pose proof (MAX (or_introl eq_refl) RV) as MA. rewrite MV, Nat.eqb_refl. cbn [orb].
          assert (GA : p = cV M a -> exists w, degree fe w <> 0 /\ merge rep a b w = a /\ p = cV M0 w).
          { intros P. destruct (I5 RA DV) as (w & D & Q & V). exists w. split; [auto|]. split; [|congruence]. unfold merge. rewrite Q. rewrite <- MA. destruct (a =? Nat.max a b); reflexivity. }
          destruct (Nat.eq_dec (degree fe b) 0) as [Z|NZ]; [apply GA; auto|]. destruct (C3 DV NZ) as [P|P]; [apply GA; auto|].
          destruct (IH b) as (_ & _ & _ & _ & J5). destruct (J5 RB NZ) as (w & D & Q & V). exists w. split; [auto|]. split; [|congruence]. unfold merge. rewrite Q, <- MA. destruct (Nat.eqb_spec b (Nat.max a b)); [auto|]. exfalso. clear -MA n0 NE. lia.
        * subst v. pose proof (MAX (or_intror eq_refl) RV) as MA. rewrite MV, Nat.eqb_refl, orb_true_r.
          assert (GB : p = cV M b -> exists w, degree fe w <> 0 /\ merge rep a b w = b /\ p = cV M0 w).
          { intros P. destruct (I5 RB DV) as (w & D & Q & V). exists w. split; [auto|]. split; [|congruence]. unfold merge. rewrite Q. rewrite <- MA. destruct (b =? Nat.max a b); reflexivity. }
          destruct (Nat.eq_dec (degree fe a) 0) as [Z|NZ]; [apply GB; auto|]. destruct (C3 NZ DV) as [P|P]; [|apply GB; auto].
          destruct (IH a) as (_ & _ & _ & _ & J5). destruct (J5 RA NZ) as (w & D & Q & V). exists w. split; [auto|]. split; [|congruence]. unfold merge. rewrite Q, <- MA. destruct (Nat.eqb_spec a (Nat.max a b)); [auto|]. exfalso. clear -MA n0 NE. lia.
        * destruct (I5 (REP RV) DV) as (w & D & Q & V). exists w. split; [auto|]. split; [apply KEEP; auto|]. rewrite OTHER by auto. exact V.
  Qed.
  (** The outputs: positions and edge length bounds of the surviving vertices; the feature vertices and feature edges that are left, renumbered and following the merges, without degenerate or double edges. *)
  Theorem C86_output r rep M : decimated cb n M0 r rep M -> (forall v, In v feature -> v < n) -> (forall a b, In (a, b) fe -> a < n /\ b < n) ->
    exists K, forall fuel', K <= fuel' -> exists out, collapse_edges fuel' n r feature fe high low = Some out
      /\ on_ out = rn r /\ (forall s, s < rn r -> oV out s = cV M (rI r s) /\ ohigh out s = high (rI r s) /\ olow out s = low (rI r s))
      /\ (forall s, In s (ofeature out) <-> s < rn r /\ In (rI r s) feature)
      /\ ((forall v, In v feature -> exists s, s < rn r /\ rI r s = v) -> Forall2 (fun v s => rI r s = v /\ oV out s = cV M0 v) feature (ofeature out))
      /\ sym_once (ofe out) /\ (forall x y, In (x, y) (ofe out) -> x <> y)
      /\ (forall x y, In (x, y) (ofe out) \/ In (y, x) (ofe out) <-> x <> y /\ x < rn r /\ y < rn r /\ exists a b, (In (a, b) fe \/ In (b, a) fe) /\ rep a = rI r x /\ rep b = rI r y).
  Proof.
    intros DM FN EN. pose proof (C86_positions r rep M DM) as POS. destruct DM as (hist & R & OUT & INJ). pose proof (run_chain _ _ _ _ _ _ _ R) as CH.
    destruct (birth2new_ok n r rep CH) as (K & H); [intros s L; destruct (OUT s L) as (O1 & O2 & _); auto|auto|]. exists K. intros fuel' LF. destruct (H fuel' LF) as (bn & E & B). unfold collapse_edges. rewrite E. cbn [bindo]. eexists. split; [reflexivity|]. cbn [on_ oV ohigh olow ofeature ofe].
    destruct (remap_edges_ok bn fe) as (SO & NE & RE). split; [reflexivity|]. split; [intros s L; destruct (OUT s L) as (_ & _ & ->); auto|]. split; [|split; [|split; [exact SO|split; [exact NE|]]]].
    - intros s. rewrite remap_features_ok. split.
      + intros (v & I & Q). destruct (POS v) as (P1 & _). apply B in Q; [|auto]. rewrite (P1 I) in Q. destruct Q as (L & ->). auto.
      + intros (L & I). exists (rI r s). split; [auto|]. apply B; [auto|]. split; [auto|]. destruct (OUT s L) as (_ & -> & _). reflexivity.
    - intros CO. assert (F2 := remap_features_all bn feature). assert (NN : forall v, In v feature -> bn v <> None).
      { intros v I. destruct (POS v) as (P1 & _). destruct (CO v I) as (s & L & Q). assert (bn v = Some s) by (apply B; [auto|split; [auto|rewrite (P1 I); auto]]). congruence. }
      specialize (F2 NN). assert (GEN : forall l l', (forall v, In v l -> In v feature) -> Forall2 (fun v s => bn v = Some s) l l' -> Forall2 (fun v s => rI r s = v /\ rU r s = cV M0 v) l l').
      { intros l l' HI F. induction F as [|v s l l' Q F IH]; constructor; [|apply IH; intros w I; apply HI; right; auto]. assert (I : In v feature) by (apply HI; left; auto). destruct (POS v) as (P1 & _ & P3 & _). apply B in Q; [|auto]. destruct Q as (L & Q). rewrite (P1 I) in Q. split; [auto|]. destruct (OUT s L) as (_ & _ & ->). rewrite Q. auto. }
      apply GEN; auto.
    - assert (BN : forall a b, In (a, b) fe \/ In (b, a) fe -> a < n /\ b < n) by (intros a b [I|I]; apply EN in I; tauto).
      intros x y. rewrite RE. split.
      + intros (N & u & v & I & Q1 & Q2). destruct (BN u v I) as (Lu & Lv). apply B in Q1; [|auto]. apply B in Q2; [|auto]. split; [auto|]. split; [tauto|]. split; [tauto|]. exists u, v. split; [auto|]. split; symmetry; tauto.
      + intros (N & Lx & Ly & a & b & I & Q1 & Q2). destruct (BN a b I) as (La & Lb). split; [auto|]. exists a, b. split; [auto|]. split; apply B; auto.
  Qed.
End Stage.

(** The documentation says that feature edges "can only be collapsed along the feature (the surviving vertex stays on the crease)".  The degrees are those of the input mesh and belong to the indices: when an end or junction c of a curve is merged into a neighbour a on no curve with a smaller index, a takes its place but still counts as an ordinary vertex; a later collapse of a with another ordinary vertex takes the point off the curve. *)
Lemma norm_le v r : (0 <= r)%R -> (dot3 v v <= r * r)%R -> (norm3 v <= r)%R.
Proof. intros Hr H. unfold norm3. rewrite <- (sqrt_square r Hr). apply sqrt_le_1_alt. exact H. Qed.
Lemma lt_b_no x y : (y <= x)%R -> lt_b x y = false.
Proof. intros H. unfold lt_b. destruct (Rlt_dec x y); [lra|auto]. Qed.
Definition toy (V : nat -> vec3) : dmesh := {| cV := V; cF := fun _ c => c; cE := fun e => match e with 0 => (0, 2) | 1 => (0, 1) | _ => (2, 3) end; cEMAP := fun _ => 0; cEF := fun _ _ => 0; cEI := fun _ _ => 0 |}.
Definition toyA (v : nat) : list nat := match v with 0 => [1; 2] | 1 => [0; 2] | 2 => [0; 1] | _ => [] end.
Definition toyV0 (v : nat) : vec3 := match v with 0 => (0, 0, 0) | 1 => (1, 0, 0) | 2 => (0, 1, 0) | _ => (0, 3, 0) end%R.
Definition toyV1 (v : nat) : vec3 := match v with 0 => (0, 1, 0) | 1 => (1, 0, 0) | 2 => (0, 1, 0) | _ => (0, 3, 0) end%R.
Definition toyV2 (v : nat) : vec3 := match v with 0 => (1 / 2, 1 / 2, 0) | 1 => (1 / 2, 1 / 2, 0) | 2 => (0, 1, 0) | _ => (0, 3, 0) end%R.
Ltac small_norm := apply norm_le; [lra|unfold dot3, sub3, add3, scal3, mid3, X, Y, Zc; cbn; lra].
Lemma toy_step1 : cost_and_placement 5 1 [] [(2, 3)] (fun _ => 10%R) (fun _ => 10%R) toyA (toy toyV0) 0 = Some (Some (norm3 (sub3 (toyV0 0) (toyV0 2))), toyV0 2).
Proof.
  unfold cost_and_placement. cbn [cE toy fst snd existsb orb]. cbv zeta. change (feat_deg [(2, 3)] 0) with 0. change (feat_deg [(2, 3)] 2) with 1. cbn [Nat.leb Nat.eqb negb andb orb cV toy].
  destruct (Rlt_dec ((10 + 10) / 2) (norm3 (sub3 (toyV0 0) (toyV0 2)))) as [L|L]; [exfalso; assert (norm3 (sub3 (toyV0 0) (toyV0 2)) <= 10)%R by small_norm; lra|].
  cbn [toyA existsb]. rewrite !lt_b_no by small_norm. reflexivity.
Qed.
Lemma toy_step2 : cost_and_placement 5 1 [] [(2, 3)] (fun _ => 10%R) (fun _ => 10%R) toyA (toy toyV1) 1 = Some (Some (norm3 (sub3 (toyV1 0) (toyV1 1))), mid3 (toyV1 0) (toyV1 1)).
Proof.
  unfold cost_and_placement. cbn [cE toy fst snd existsb orb]. cbv zeta. change (feat_deg [(2, 3)] 0) with 0. change (feat_deg [(2, 3)] 1) with 0. cbn [Nat.leb Nat.eqb negb andb orb cV toy].
  destruct (Rlt_dec ((10 + 10) / 2) (norm3 (sub3 (toyV1 0) (toyV1 1)))) as [L|L]; [exfalso; assert (norm3 (sub3 (toyV1 0) (toyV1 1)) <= 10)%R by small_norm; lra|].
  cbn [toyA existsb]. rewrite !lt_b_no by small_norm. reflexivity.
Qed.
(** a sequence of collapses every one of which the callback allows (tables as far as the callback reads them), after which no output vertex is where the end of the feature curve was *)
Theorem C86_corner_refuted : exists fuel m n fe high low A M0 r rep M, decimated (cost_and_placement fuel m [] fe high low A) n M0 r rep M /\ (forall v, v < n -> rep v = v -> exists s, s < rn r /\ rI r s = v) /\ corner fe 2 /\ forall s, s < rn r -> rU r s <> cV M0 2.
Proof.
  exists 5, 1, 4, [(2, 3)], (fun _ => 10%R), (fun _ => 10%R), toyA, (toy toyV0), {| rU := fun s => toyV2 (nth s [0; 3] 0); rG := fun _ c => c; rI := fun s => nth s [0; 3] 0; rn := 2; rm := 0; merges := [(0, 2); (0, 1)] |}, (merge (merge (fun o => o) 0 2) 0 1), (toy toyV2).
  split; [|split; [|split]].
  - exists [toy toyV1; toy toyV0]. split; [|split].
    + change (merges _) with ([(0, 2)] ++ [(0, 1)]). eapply (run1 _ _ _ (toy toyV1) [toy toyV0] _ _ 1 0 1 (toy toyV1)); try reflexivity; try lia; [|left; reflexivity|exact toy_step2|].
      * change [(0, 2)] with ([] ++ [(0, 2)]). eapply (run1 _ _ _ (toy toyV0) [] _ _ 0 0 2 (toy toyV0)); try reflexivity; try lia; [constructor|left; reflexivity|exact toy_step1|]. intros [|[|[|v]]]; reflexivity.
      * intros [|[|[|v]]]; try reflexivity; cbn [Nat.eqb orb cV toy toyV2]; apply vec3_eq; unfold mid3, scal3, add3, X, Y, Zc; cbn [fst snd toyV1]; lra.
    + intros s L. cbn [rn] in L. assert (S : s = 0 \/ s = 1) by lia. destruct S as [->| ->]; cbn; repeat split; lia.
    + intros s t Ls Lt. cbn [rn] in Ls, Lt. assert (S : s = 0 \/ s = 1) by lia. assert (T : t = 0 \/ t = 1) by lia. destruct S as [->| ->], T as [->| ->]; cbn; auto; discriminate.
  - intros v L. assert (S : v = 0 \/ v = 1 \/ v = 2 \/ v = 3) by lia. destruct S as [->|[->|[->| ->]]]; cbn; intros Q; try discriminate; [exists 0|exists 1]; split; auto.
  - split; discriminate.
  - intros s L. cbn [rn] in L. assert (S : s = 0 \/ s = 1) by lia. destruct S as [->| ->]; cbn; intros Q; injection Q; intros; lra.
Qed.
(** the normal of face f before and after both ends are moved to p: it vanishes or turns by at most sixty degrees *)
Definition upright (M : dmesh) (p : vec3) (a b f : nat) : Prop :=
  let after c := if Nat.eqb (cF M f c) a || Nat.eqb (cF M f c) b then p else cV M (cF M f c) in
  let na := normal (after 0) (after 1) (after 2) in norm3 na = 0%R \/ within60 (normal (cV M (cF M f 0)) (cV M (cF M f 1)) (cV M (cF M f 2))) na.
Lemma turns_ok M p a b len f : turns M p a b len f = false <-> (f <> 0 -> f <> len - 1 -> upright M p a b f).
Proof.
  unfold turns, upright. destruct (Nat.eqb_spec f 0) as [Z|Z]; cbn [orb]; [split; [intros _ Q; congruence|auto]|]. destruct (Nat.eqb_spec f (len - 1)) as [E|E]; [split; [intros _ _ Q; congruence|auto]|]. cbv zeta. fold (normal (cV M (cF M f 0)) (cV M (cF M f 1)) (cV M (cF M f 2))).
  set (q := fun c : nat => if (cF M f c =? a) || (cF M f c =? b) then p else cV M (cF M f c)). fold (q 0) (q 1) (q 2). fold (normal (q 0) (q 1) (q 2)). set (nb := normal (cV M _) _ _). set (na := normal _ _ _). split.
  - intros T _ _. destruct (Rle_lt_or_eq_dec 0 (norm3 na) (Flip2Proofs.norm_nonneg na)) as [P|P]; [right; apply normalize_test; auto|left; auto].
  - intros H. destruct (H Z E) as [N|W]; [|apply test_conv; auto]. assert (D : dot3 na na = 0%R) by (rewrite <- nsq, N; ring). assert (U : na = (0, 0, 0)%R) by (unfold dot3 in D; apply vec3_eq; unfold X, Y, Zc in *; cbn [fst snd]; nra).
    assert (NN : normalize na = na) by (unfold normalize; rewrite D; destruct (Rlt_dec 0 0); [lra|auto]). rewrite NN, N, U. apply lt_b_no. unfold dot3, X, Y, Zc. cbn [fst snd]. lra.
Qed.
(** ** When the faces around the edge can be listed, the edge may be collapsed to p exactly if the rules hold and every listed face, except those numbered 0 and |N|-1, stays upright *)
Theorem C86_allowed fuel m feature fe high low A M e a b p N : cE M e = (a, b) -> circulate fuel m M (b <? a) (cEF M e 0) e (cEF M e 0) = Some N ->
  ((exists c, cost_and_placement fuel m feature fe high low A M e = Some (Some c, p)) <-> rules feature fe high low A M a b p /\ forall f, In f N -> f <> 0 -> f <> length N - 1 -> upright M p a b f).
Proof.
  intros E EN. split.
  - intros (c & Q). split; [apply (callback_ok _ _ _ _ _ _ _ _ _ _ _ _ _ E Q)|]. intros f If. revert Q. unfold cost_and_placement. rewrite E. cbn [fst snd]. cbv zeta. rewrite EN.
    match goal with |- context [if Rlt_dec ?x ?y then Some (None, ?q) else _] => set (pp := q); clearbody pp end.
    repeat match goal with |- (if ?x then Some (None, _) else _) = _ -> _ => destruct x; [discriminate|] end. destruct (existsb (turns M pp a b (length N)) N) eqn:ET; [discriminate|]. intros [= _ <-]. apply turns_ok. destruct (turns M pp a b (length N) f) eqn:TF; [|auto]. exfalso. rewrite <- not_true_iff_false in ET. apply ET. apply existsb_exists. eauto.
  - intros ([(NA & NB) SH CU MI PA PB CA CB LI (FA & FB)] & UP). exists (dist (cV M a) (cV M b)). unfold cost_and_placement. rewrite E. cbn [fst snd]. cbv zeta. rewrite !feat_deg_ok.
    assert (FE : forall v, ~ In v feature -> existsb (Nat.eqb v) feature = false) by (intros v NI; apply not_true_iff_false; intros Q; apply NI, isf; auto). rewrite (FE a NA), (FE b NB). cbn [orb].
    assert (SE : (In (a, b) fe \/ In (b, a) fe) -> existsb (same_edge (a, b)) fe = true) by (intros H; apply existsb_exists; destruct H as [H|H]; eexists; (split; [exact H|]); apply same_edge_spec; auto).
    set (da := degree fe a) in *. set (db := degree fe b) in *. unfold corner in *. fold da db in CU, CA, CB.
    assert (EP : (if (1 <=? da) && (1 <=? db) then if negb (da =? 2) then cV M a else if negb (db =? 2) then cV M b else cV M a else if 1 <=? da then cV M a else if 1 <=? db then cV M b else scal3 (/ 2) (add3 (cV M a) (cV M b))) = p).
    { destruct (Nat.leb_spec 1 da), (Nat.leb_spec 1 db); cbn [andb]; [|symmetry; apply PA; lia|symmetry; apply PB; lia|symmetry; apply MI; lia]. destruct (Nat.eqb_spec da 2); cbn [negb]; [|symmetry; apply CA; lia]. destruct (Nat.eqb_spec db 2); cbn [negb]; [symmetry; apply LI; auto|symmetry; apply CB; lia]. }
    rewrite EP. clear EP.
    assert (C1 : (1 <=? da) && (1 <=? db) && (negb (existsb (same_edge (a, b)) fe) || negb (da =? 2) && negb (db =? 2)) = false).
    { destruct (Nat.leb_spec 1 da), (Nat.leb_spec 1 db); cbn [andb]; auto. destruct (CU ltac:(lia) ltac:(lia)) as (S & NC). rewrite (SE S). cbn [negb orb]. destruct (Nat.eqb_spec da 2), (Nat.eqb_spec db 2); cbn [negb andb]; auto. exfalso. apply NC. lia. }
    rewrite C1. destruct (Rlt_dec _ _) as [T|_]; [exfalso; unfold dist in SH; lra|].
    assert (TF : forall v, (forall w, In w (A v) -> (dist (cV M w) p <= high v)%R) -> existsb (fun w => lt_b (high v) (norm3 (sub3 (cV M w) p))) (A v) = false).
    { intros v H. apply not_true_iff_false. intros Q. apply existsb_exists in Q. destruct Q as (w & Iw & Q). specialize (H w Iw). unfold dist in H. unfold lt_b in Q. destruct (Rlt_dec _ _); [lra|discriminate]. }
    assert (C2 : negb (1 <=? db) && existsb (fun w => lt_b (high b) (norm3 (sub3 (cV M w) p))) (A b) = false) by (destruct (Nat.leb_spec 1 db); cbn [negb andb]; [auto|apply TF, FB; lia]).
    assert (C3 : negb (1 <=? da) && existsb (fun w => lt_b (high a) (norm3 (sub3 (cV M w) p))) (A a) = false) by (destruct (Nat.leb_spec 1 da); cbn [negb andb]; [auto|apply TF, FA; lia]).
    rewrite C2, C3, EN. assert (ET : existsb (turns M p a b (length N)) N = false). { apply not_true_iff_false. intros Q. apply existsb_exists in Q. destruct Q as (f & If & Q). assert (turns M p a b (length N) f = false) by (apply turns_ok; auto). congruence. } rewrite ET. reflexivity.
Qed.
(** Faces with the numbers 0 and |N|-1 are left out of the test of the normals (positions in the list were meant, line 198): a collapse is allowed although it turns face 0, which has only one of the two ends, upside down. *)
Definition flipV (v : nat) : vec3 := match v with 0 => (0, 0, 0) | 1 => (2, 0, 0) | 2 => (1 / 2, -1, 0) | _ => (1 / 2, 1, 0) end%R.
Definition flipM : dmesh := {| cV := flipV; cF := fun _ c => nth c [0; 2; 3] 0; cE := fun _ => (0, 1); cEMAP := fun _ => 0; cEF := fun _ _ => 0; cEI := fun _ _ => 0 |}.
Theorem C86_normal_refuted : exists fuel m feature fe high low A M e c p, cost_and_placement fuel m feature fe high low A M e = Some (Some c, p) /\
  (exists N, circulate fuel m M (snd (cE M e) <? fst (cE M e)) (cEF M e 0) e (cEF M e 0) = Some N /\ In 0 N) /\
  cF M 0 0 = fst (cE M e) /\ cF M 0 1 <> snd (cE M e) /\ cF M 0 2 <> snd (cE M e) /\
  let nb := normal (cV M (cF M 0 0)) (cV M (cF M 0 1)) (cV M (cF M 0 2)) in let na := normal p (cV M (cF M 0 1)) (cV M (cF M 0 2)) in (dot3 nb na < 0)%R.
Proof.
  exists 5, 1, [], [], (fun _ => 10%R), (fun _ => 10%R), (fun _ => [2; 3]), flipM, 0, (norm3 (sub3 (flipV 0) (flipV 1))), (mid3 (flipV 0) (flipV 1)). split; [|split; [|split; [|split; [|split]]]].
  - unfold cost_and_placement. cbn [cE flipM fst snd existsb orb]. cbv zeta. change (feat_deg [] 0) with 0. change (feat_deg [] 1) with 0. cbn [Nat.leb Nat.eqb negb andb orb cV flipM].
    destruct (Rlt_dec ((10 + 10) / 2) (norm3 (sub3 (flipV 0) (flipV 1)))) as [L|L]; [exfalso; assert (norm3 (sub3 (flipV 0) (flipV 1)) <= 10)%R by small_norm; lra|].
    rewrite !lt_b_no by small_norm. reflexivity.
  - exists [0]. split; [reflexivity|left; auto].
  - reflexivity. - discriminate. - discriminate.
  - unfold normal, dot3, cross3, sub3, mid3, scal3, add3, X, Y, Zc. cbn. lra.
Qed.
