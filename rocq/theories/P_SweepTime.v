(** C98: swept_volume's search for the closest time. *)
From Coq Require Import QArith Qpower Qminmax List Bool Lia Lqa.
From Verif Require Import SweepTimeModel.
Import ListNotations.
Open Scope Q_scope.

Lemma lt_true a b : lt a b = true <-> a < b.
Proof. unfold lt. rewrite negb_true_iff, <- not_true_iff_false, Qle_bool_iff. split; intros H; [apply Qnot_le_lt; exact H|apply Qlt_not_le; exact H]. Qed.
Lemma lt_false a b : lt a b = false <-> b <= a.
Proof. unfold lt. rewrite negb_false_iff. apply Qle_bool_iff. Qed.
Lemma smin_spec a b : (smin a b = a /\ a <= b) \/ (smin a b = b /\ b < a).
Proof. unfold smin. destruct (lt b a) eqn:E; [right|left]; split; auto; [apply lt_true|apply lt_false]; auto. Qed.
Lemma smax_spec a b : (smax a b = a /\ b <= a) \/ (smax a b = b /\ a < b).
Proof. unfold smax. destruct (lt a b) eqn:E; [right|left]; split; auto; [apply lt_true|apply lt_false]; auto. Qed.
Lemma smin_le a b : smin a b <= a /\ smin a b <= b.
Proof. destruct (smin_spec a b) as [(-> & H)|(-> & H)]; split; lra. Qed.
Lemma smax_ge a b : a <= smax a b /\ b <= smax a b.
Proof. destruct (smax_spec a b) as [(-> & H)|(-> & H)]; split; lra. Qed.
Lemma smin_keep a b : a <= b -> smin a b = a.
Proof. intros H. destruct (smin_spec a b) as [(-> & _)|(_ & X)]; [reflexivity|lra]. Qed.
Lemma smax_keep a b : b <= a -> smax a b = a.
Proof. intros H. destruct (smax_spec a b) as [(-> & _)|(_ & X)]; [reflexivity|lra]. Qed.
Lemma clamp_range x : 0 <= clamp x <= 1.
Proof. unfold clamp. destruct (smin_spec x 1) as [(-> & H)|(-> & H)]; [destruct (smax_spec x 0) as [(-> & G)|(-> & G)]|destruct (smax_spec 1 0) as [(-> & G)|(-> & G)]]; lra. Qed.
(** against the derivative *)
Lemma step_down x tau g : 0 <= x <= 1 -> 0 <= tau -> (clamp (step x tau g) - x) * g <= 0.
Proof.
  intros X T. unfold step. destruct (lt 0 g) eqn:A.
  - apply lt_true in A. assert (lt g 0 = false) as -> by (apply lt_false; lra). assert (clamp (x - tau * (1 - 0)) - x <= 0).
    { unfold clamp. destruct (smin_spec (x - tau * (1 - 0)) 1) as [(-> & H)|(-> & H)]; [|lra]. destruct (smax_spec (x - tau * (1 - 0)) 0) as [(-> & G)|(-> & G)]; lra. }
    nra.
  - apply lt_false in A. destruct (lt g 0) eqn:B.
    + apply lt_true in B. assert (0 <= clamp (x - tau * (0 - 1)) - x).
      { unfold clamp. destruct (smin_spec (x - tau * (0 - 1)) 1) as [(-> & H)|(-> & H)]; [destruct (smax_spec (x - tau * (0 - 1)) 0) as [(-> & G)|(-> & G)]|destruct (smax_spec 1 0) as [(-> & G)|(-> & G)]]; lra. }
      nra.
    + apply lt_false in B. assert (g == 0) as -> by lra. lra.
Qed.
Lemma inside_spec x e : inside x e = true <-> lo e - (1 # 1000000) <= x <= hi e + (1 # 1000000).
Proof. unfold inside. rewrite andb_true_iff, !Qle_bool_iff. tauto. Qed.
Lemma found_spec x s m : find_interval x s = Some m -> exists e, nth_error s m = Some e /\ inside x e = true /\ forall k d, (k < m)%nat -> nth_error s k = Some d -> inside x d = false.
Proof.
  revert m. induction s as [|e s IH]; intros m H; [discriminate|]. cbn in H. destruct (inside x e) eqn:E.
  - injection H as <-. exists e. split; [reflexivity|]. split; auto. intros k d L. lia.
  - destruct (find_interval x s) as [j|] eqn:F; [|discriminate]. injection H as <-. destruct (IH j eq_refl) as (d & N & I & B). exists d. split; [exact N|]. split; auto.
    intros [|k] d' L Q; [cbn in Q; injection Q as <-; exact E|]. apply (B k d'); [lia|exact Q].
Qed.
Lemma not_found x s : find_interval x s = None -> forall k d, nth_error s k = Some d -> inside x d = false.
Proof.
  induction s as [|e s IH]; intros H k d Q; [destruct k; discriminate|]. cbn in H. destruct (inside x e) eqn:E; [discriminate|]. destruct (find_interval x s) eqn:F; [discriminate|].
  destruct k as [|k]; [cbn in Q; injection Q as <-; exact E|]. exact (IH eq_refl k d Q).
Qed.
Lemma find_is x s m e : nth_error s m = Some e -> inside x e = true -> (forall k d, (k < m)%nat -> nth_error s k = Some d -> inside x d = false) -> find_interval x s = Some m.
Proof.
  revert m. induction s as [|d s IH]; intros m N I B; [destruct m; discriminate|]. cbn. destruct m as [|m].
  - cbn in N. injection N as ->. rewrite I. reflexivity.
  - rewrite (B O d) by (lia || reflexivity). rewrite (IH m N I); [reflexivity|]. intros k d' L Q. apply (B (S k) d'); [lia|exact Q].
Qed.
Lemma grow_nth m a b s : forall k, nth_error (grow m a b s) k = if Nat.eqb k m then option_map (fun e => {| lo := smin (lo e) a; hi := smax (hi e) b; val := val e; mn := mn e |}) (nth_error s k) else nth_error s k.
Proof.
  revert m. induction s as [|e s IH]; intros m k; [cbn; destruct k, m; cbn; try reflexivity; destruct (Nat.eqb _ _); reflexivity|]. destruct m as [|m], k as [|k]; cbn; try reflexivity. apply IH.
Qed.
Lemma grow_length m a b s : List.length (grow m a b s) = List.length s.
Proof. revert m. induction s as [|e s IH]; intros [|m]; cbn; auto. Qed.
Lemma grow_keep m s e a b : nth_error s m = Some e -> lo e <= a -> b <= hi e -> grow m a b s = s.
Proof.
  revert m. induction s as [|d s IH]; intros m N A B; [destruct m; reflexivity|]. destruct m as [|m]; cbn in *.
  - injection N as ->. rewrite smin_keep, smax_keep by assumption. destruct e; reflexivity.
  - rewrite (IH m); auto.
Qed.

Section Descent.
Variables f gf : Q -> Q.
Variable moved : Q -> Q -> bool.
Variable junk : Q.
Notation rounds := (rounds f gf moved).
Notation descend := (descend f gf moved junk).

(** the tries: a result that is as good, evaluated, in range *)
Lemma search_ok k : forall tau x fx g iter x' fx' i' st, 0 <= x <= 1 -> 0 <= tau -> fx = f x -> line_search f k tau x fx g iter = (x', fx', i', st) -> 0 <= x' <= 1 /\ fx' = f x' /\ fx' <= fx /\ (iter <= i')%nat /\ (k = O \/ iter < i')%nat.
Proof.
  induction k as [|k IH]; intros tau x fx g iter x' fx' i' st X T E H; cbn in H.
  - injection H as <- <- <- <-. repeat split; try apply X; auto; lra.
  - destruct (lt (f (clamp (step x tau g)) - fx) ((1 # 2) * (clamp (step x tau g) - x) * g)) eqn:L.
    + injection H as <- <- <- <-. apply lt_true in L. pose proof (step_down x tau g X T). split; [apply clamp_range|]. split; auto. split; [lra|]. split; [lia|right; lia].
    + apply IH in H; auto; [|lra]. destruct H as (A & B & C & D & _). split; auto. split; auto. split; auto. split; [lia|right; lia].
Qed.
Lemma rounds_bounds fuel s : forall x fx a b p i st fx' x' a' b' m, rounds fuel s x fx a b p i st = (fx', x', a', b', m) -> a' <= a /\ b <= b'.
Proof.
  induction fuel as [|fuel IH]; intros x fx a b p i st fx' x' a' b' m H; cbn -[Nat.ltb Nat.eqb line_search] in H; [injection H as <- <- <- <- <-; lra|]. destruct (Nat.ltb i 100 && negb st && moved x p); [|injection H as <- <- <- <- <-; lra].
  pose proof (smin_le a x). pose proof (smax_ge b x). destruct (find_interval x s) as [j|].
  - destruct (nth_error s j); injection H as <- <- <- <- <-; lra.
  - destruct (line_search f 9 (1 # 50) x (if Nat.eqb i 0 then f x else fx) (gf x) i) as [[[x1 fx1] i1] st1]. apply IH in H. lra.
Qed.
Lemma rounds_found fuel s : forall x fx a b p i st fx' x' a' b' m, rounds fuel s x fx a b p i st = (fx', x', a', b', Some m) -> exists e, nth_error s m = Some e /\ fx' = val e /\ x' = mn e.
Proof.
  induction fuel as [|fuel IH]; intros x fx a b p i st fx' x' a' b' m H; cbn -[Nat.ltb Nat.eqb line_search] in H; [discriminate|]. destruct (Nat.ltb i 100 && negb st && moved x p); [|discriminate].
  destruct (find_interval x s) as [j|].
  - destruct (nth_error s j) as [e|] eqn:N; [|discriminate]. injection H as <- <- <- <- <-. eauto.
  - destruct (line_search f 9 (1 # 50) x (if Nat.eqb i 0 then f x else fx) (gf x) i) as [[[x1 fx1] i1] st1]. eauto.
Qed.
(** the path *)
Lemma rounds_path fuel s : forall x fx a b p i st fx' x' a' b', 0 <= x <= 1 -> fx = f x -> rounds fuel s x fx a b p i st = (fx', x', a', b', None) -> 0 <= x' <= 1 /\ fx' = f x' /\ fx' <= f x.
Proof.
  induction fuel as [|fuel IH]; intros x fx a b p i st fx' x' a' b' X E H; cbn -[Nat.ltb Nat.eqb line_search] in H; [injection H as <- <- <- <-; subst; repeat split; try apply X; lra|].
  destruct (Nat.ltb i 100 && negb st && moved x p); [|injection H as <- <- <- <-; subst; repeat split; try apply X; lra].
  destruct (find_interval x s) as [j|] eqn:F.
  - apply found_spec in F as (e & N & _). rewrite N in H. discriminate.
  - destruct (line_search f 9 (1 # 50) x (if Nat.eqb i 0 then f x else fx) (gf x) i) as [[[x1 fx1] i1] st1] eqn:L. assert (EQ : (if Nat.eqb i 0 then f x else fx) = f x) by (destruct (Nat.eqb i 0); auto).
    rewrite EQ in L. apply search_ok in L; auto; [|lra]. destruct L as (A & B & C & _). apply IH in H; auto. destruct H as (G1 & G2 & G3). split; auto. split; auto. rewrite <- B in G3. lra.
Qed.
Variable x0 : Q.
Hypothesis RUNS : moved x0 10000000 = true.
Lemma first_round s : descend x0 s = match find_interval x0 s with
  | Some m => match nth_error s m with Some e => (val e, mn e, grow m (smin x0 x0) (smax x0 x0) s) | None => descend x0 s end
  | None => descend x0 s end.
Proof.
  destruct (find_interval x0 s) as [m|] eqn:F; [|reflexivity]. destruct (nth_error s m) as [e|] eqn:N; [|reflexivity]. unfold SweepTimeModel.descend. cbn [SweepTimeModel.rounds]. rewrite RUNS, F, N. reflexivity.
Qed.
(** Asking again from the same start: the same answer, nothing changes. *)
Theorem C98_again s fx x s' : descend x0 s = (fx, x, s') -> descend x0 s' = (fx, x, s').
Proof.
  intros H. assert (K : exists m e, nth_error s' m = Some e /\ fx = val e /\ x = mn e /\ lo e <= x0 <= hi e /\ forall k d, (k < m)%nat -> nth_error s' k = Some d -> inside x0 d = false).
  { rewrite first_round in H. destruct (find_interval x0 s) as [m|] eqn:F.
    - pose proof F as F'. apply found_spec in F' as (e & N & I & B). rewrite N in H. injection H as <- <- <-. exists m. eexists. split; [rewrite grow_nth, Nat.eqb_refl, N; reflexivity|]. split; [reflexivity|]. split; [reflexivity|].
      cbn [lo hi]. rewrite (smin_keep x0 x0), (smax_keep x0 x0) by lra. split; [split; [apply smin_le|apply smax_ge]|]. intros k d L Q. rewrite grow_nth in Q. destruct (Nat.eqb_spec k m); [lia|]. eauto.
    - unfold SweepTimeModel.descend in H. destruct (rounds 100 s x0 junk x0 x0 10000000 0 false) as [[[[fx1 x1] a] b] o] eqn:R. pose proof (rounds_bounds _ _ _ _ _ _ _ _ _ _ _ _ _ _ R) as (A & B).
      injection H as <- <- <-. destruct o as [m|].
      + apply rounds_found in R as (e & N & V & M). exists m. eexists. split; [rewrite grow_nth, Nat.eqb_refl, N; reflexivity|]. cbn [val mn lo hi]. split; auto. split; auto.
        pose proof (smin_le (lo e) a). pose proof (smax_ge (hi e) b). split; [lra|]. intros k d L Q. rewrite grow_nth in Q. destruct (Nat.eqb_spec k m); [lia|]. eapply not_found; eauto.
      + exists (List.length s). eexists. split; [rewrite nth_error_app2, Nat.sub_diag by lia; reflexivity|]. cbn [val mn lo hi]. repeat split; auto; try lra.
        intros k d L Q. rewrite nth_error_app1 in Q by exact L. eapply not_found; eauto. }
  destruct K as (m & e & N & -> & -> & I & B). rewrite first_round.
  rewrite (find_is x0 s' m e N); [|apply inside_spec; lra|exact B]. rewrite N. f_equal. apply (grow_keep m s' e); auto; [rewrite smin_keep by lra; lra|rewrite smax_keep by lra; lra].
Qed.
(** What is stored stays: the values and minima do not change, the intervals only grow, at most one entry is added at the end. *)
Theorem C98_kept s fx x s' : descend x0 s = (fx, x, s') -> (List.length s <= List.length s' <= S (List.length s))%nat /\
  forall k e, nth_error s k = Some e -> exists d, nth_error s' k = Some d /\ lo d <= lo e /\ hi e <= hi d /\ val d = val e /\ mn d = mn e.
Proof.
  intros H. unfold SweepTimeModel.descend in H. destruct (rounds 100 s x0 junk x0 x0 10000000 0 false) as [[[[fx1 x1] a] b] o] eqn:R. injection H as <- <- <-. destruct o as [m|].
  - rewrite grow_length. split; [auto|]. intros k e N. rewrite grow_nth, N. destruct (Nat.eqb k m); eexists; (split; [reflexivity|]); cbn [lo hi val mn]; [pose proof (smin_le (lo e) a); pose proof (smax_ge (hi e) b)|]; repeat split; lra.
  - rewrite app_length. cbn [List.length]. split; [lia|]. intros k e N. exists e. rewrite nth_error_app1 by (apply nth_error_Some; congruence). repeat split; auto; lra.
Qed.
(** The start lies in a stored interval with the answer as its data; if it was in one before, the answer is the data of the first such interval and no evaluation is needed. *)
Theorem C98_covered s fx x s' : descend x0 s = (fx, x, s') -> exists e, In e s' /\ lo e <= x0 <= hi e /\ fx = val e /\ x = mn e.
Proof.
  intros H. rewrite first_round in H. destruct (find_interval x0 s) as [m|] eqn:F.
  - apply found_spec in F as (e & N & _). rewrite N in H. injection H as <- <- <-. eexists. split; [apply (nth_error_In _ m); rewrite grow_nth, Nat.eqb_refl, N; reflexivity|]. cbn [lo hi val mn].
    rewrite (smin_keep x0 x0), (smax_keep x0 x0) by lra. pose proof (smin_le (lo e) x0). pose proof (smax_ge (hi e) x0). repeat split; lra.
  - unfold SweepTimeModel.descend in H. destruct (rounds 100 s x0 junk x0 x0 10000000 0 false) as [[[[fx1 x1] a] b] o] eqn:R. pose proof (rounds_bounds _ _ _ _ _ _ _ _ _ _ _ _ _ _ R) as (A & B). injection H as <- <- <-. destruct o as [m|].
    + apply rounds_found in R as (e & N & V & M). eexists. split; [apply (nth_error_In _ m); rewrite grow_nth, Nat.eqb_refl, N; reflexivity|]. cbn [lo hi val mn]. pose proof (smin_le (lo e) a). pose proof (smax_ge (hi e) b). repeat split; auto; lra.
    + eexists. split; [apply in_app_iff; right; left; reflexivity|]. cbn [lo hi val mn]. repeat split; auto; lra.
Qed.
Theorem C98_reuse s m e : nth_error s m = Some e -> lo e - (1 # 1000000) <= x0 <= hi e + (1 # 1000000) -> (forall k d, (k < m)%nat -> nth_error s k = Some d -> ~ lo d - (1 # 1000000) <= x0 <= hi d + (1 # 1000000)) ->
  fst (descend x0 s) = (val e, mn e) /\ List.length (snd (descend x0 s)) = List.length s.
Proof.
  intros N I B. rewrite first_round, (find_is x0 s m e N); [rewrite N; split; [reflexivity|apply grow_length]|apply inside_spec; exact I|]. intros k d L Q. destruct (inside x0 d) eqn:D; auto. apply inside_spec in D. destruct (B k d L Q D).
Qed.
(** the stored minima are times between 0 and 1, the stored values are the function's values there *)
Definition valid (s : list entry) : Prop := forall e, In e s -> 0 <= mn e <= 1 /\ val e = f (mn e).
Lemma grow_valid m a b s : valid s -> valid (grow m a b s).
Proof. intros H e I. apply In_nth_error in I as (k & I). rewrite grow_nth in I. destruct (Nat.eqb k m); [|apply H; eapply nth_error_In; eauto]. destruct (nth_error s k) as [d|] eqn:N; [|discriminate]. injection I as <-. apply (H d). eapply nth_error_In; eauto. Qed.
Lemma start_k k s : rounds (S k) s x0 (f x0) x0 x0 10000000 0 false = rounds (S k) s x0 junk x0 x0 10000000 0 false \/ exists m, find_interval x0 s = Some m.
Proof. destruct (find_interval x0 s) as [m|] eqn:F; [right; eauto|left]. cbn -[Nat.ltb Nat.eqb line_search]. rewrite RUNS, F. reflexivity. Qed.
Lemma rounds_start s fx x a b : 0 <= x0 <= 1 -> rounds 100 s x0 junk x0 x0 10000000 0 false = (fx, x, a, b, None) -> rounds 100 s x0 (f x0) x0 x0 10000000 0 false = (fx, x, a, b, None).
Proof. intros X H. destruct (start_k 99 s) as [<-|(m & F)] in H; [exact H|]. exfalso. change 100%nat with (S 99) in H. cbn -[Nat.ltb Nat.eqb line_search] in H. rewrite RUNS, F in H. change (Nat.ltb 0 100 && negb false && true) with true in H. cbv iota zeta in H.
  apply found_spec in F as (e & N & _). rewrite N in H. discriminate. Qed.
(** The answer is a time between 0 and 1 and the value there; the stored data stay valid. *)
Theorem C98_value s fx x s' : 0 <= x0 <= 1 -> valid s -> descend x0 s = (fx, x, s') -> 0 <= x <= 1 /\ fx = f x /\ valid s'.
Proof.
  intros X V H. unfold SweepTimeModel.descend in H. destruct (rounds 100 s x0 junk x0 x0 10000000 0 false) as [[[[fx1 x1] a] b] o] eqn:R. injection H as <- <- <-. destruct o as [m|].
  - apply rounds_found in R as (e & N & -> & ->). destruct (V e) as (A & B); [eapply nth_error_In; eauto|]. split; auto. split; auto. apply grow_valid. exact V.
  - apply (rounds_start s fx1 x1 a b X) in R. apply rounds_path in R; auto. destruct R as (A & B & _). split; auto. split; auto. intros e I. apply in_app_iff in I as [I|[<-|[]]]; auto.
Qed.
(** A new interval is added only if the answer is at most the value at the start; it contains the start. *)
Theorem C98_descends s fx x s' : 0 <= x0 <= 1 -> descend x0 s = (fx, x, s') -> (List.length s < List.length s')%nat ->
  fx = f x /\ fx <= f x0 /\ exists a b, s' = (s ++ [{| lo := a; hi := b; val := fx; mn := x |}])%list /\ a <= x0 <= b.
Proof.
  intros X H L. unfold SweepTimeModel.descend in H. destruct (rounds 100 s x0 junk x0 x0 10000000 0 false) as [[[[fx1 x1] a] b] o] eqn:R. injection H as <- <- <-. destruct o as [m|].
  - exfalso. rewrite grow_length in L. exact (Nat.lt_irrefl _ L).
  - pose proof (rounds_bounds _ _ _ _ _ _ _ _ _ _ _ _ _ _ R). apply (rounds_start s fx1 x1 a b X) in R. apply rounds_path in R; auto. destruct R as (_ & A & B). split; auto. split; auto. exists a, b. split; auto; lra.
Qed.
End Descent.
(** the nine tries *)
Fixpoint halved (i : nat) (tau : Q) : Q := match i with O => tau | S k => halved k ((1 # 2) * tau) end.
Lemma halved_is i : forall tau, halved i tau == tau * (1 # 2) ^ Z.of_nat i.
Proof. induction i as [|i IH]; intros tau; cbn [halved]; [cbn; lra|]. rewrite IH. replace (Z.of_nat (S i)) with (Z.succ (Z.of_nat i)) by lia. unfold Z.succ. rewrite Qpower_plus by discriminate. change ((1 # 2) ^ 1) with (1 # 2). ring. Qed.
Lemma tries f k : forall tau x fx g iter x' fx' i' st, line_search f k tau x fx g iter = (x', fx', i', st) ->
  let better i := let c := clamp (step x (halved i tau) g) in f c - fx < (1 # 2) * (c - x) * g in
  (st = true /\ x' = x /\ fx' = fx /\ forall i, (i < k)%nat -> ~ better i) \/ (st = false /\ fx' = f x' /\ exists i, (i < k)%nat /\ x' = clamp (step x (halved i tau) g) /\ better i /\ forall j, (j < i)%nat -> ~ better j).
Proof.
  induction k as [|k IH]; intros tau x fx g iter x' fx' i' st H; cbn in H.
  - injection H as <- <- <- <-. left. repeat split; auto. intros i L. lia.
  - cbv zeta. destruct (lt (f (clamp (step x tau g)) - fx) ((1 # 2) * (clamp (step x tau g) - x) * g)) eqn:L.
    + injection H as <- <- <- <-. apply lt_true in L. right. split; auto. split; auto. exists O. split; [lia|]. split; [reflexivity|]. split; [exact L|]. intros j J. lia.
    + apply lt_false in L. apply IH in H. cbv zeta in H. destruct H as [(-> & -> & -> & N)|(-> & V & i & I & -> & B & N)].
      * left. repeat split; auto. intros [|i] I; [cbn [halved]; apply Qle_not_lt; exact L|]. apply (N i). lia.
      * right. split; auto. split; auto. exists (S i). split; [lia|]. split; [reflexivity|]. split; [exact B|]. intros [|j] J; [cbn [halved]; apply Qle_not_lt; exact L|]. apply (N j). lia.
Qed.
Lemma clamp_is y : clamp y == Qmax 0 (Qmin 1 y).
Proof.
  unfold clamp. destruct (Q.max_spec 0 (Qmin 1 y)) as [(A & ->)|(A & ->)], (Q.min_spec 1 y) as [(B & C)|(B & C)]; rewrite C in *;
    (destruct (smin_spec y 1) as [(-> & D)|(-> & D)]; [destruct (smax_spec y 0) as [(-> & E)|(-> & E)]|destruct (smax_spec 1 0) as [(-> & E)|(-> & E)]]); lra.
Qed.
Section Tries.
Variables f gf : Q -> Q.
Variable moved : Q -> Q -> bool.
Variable junk x0 d : Q.
Hypothesis RUNS : moved x0 10000000 = true.
Hypothesis SAME : forall a b, a == b -> f a == f b.
Hypothesis START : 0 <= x0 <= 1.
Hypothesis D : (0 < gf x0 /\ d = 1) \/ (gf x0 == 0 /\ d = 0) \/ (gf x0 < 0 /\ d = -(1)).
(** try i: against the derivative by 1/50, 1/100, 1/200, ... inside [0,1]; it is taken if it gains enough *)
Definition attempt (i : nat) : Q := Qmax 0 (Qmin 1 (x0 - d * (1 # 50) * (1 # 2) ^ Z.of_nat i)).
Definition enough (i : nat) : Prop := f (attempt i) - f x0 < (1 # 2) * (attempt i - x0) * gf x0.
Lemma attempt_is i : clamp (step x0 (halved i (1 # 50)) (gf x0)) == attempt i.
Proof.
  rewrite clamp_is. unfold attempt. assert (E : step x0 (halved i (1 # 50)) (gf x0) == x0 - d * (1 # 50) * (1 # 2) ^ Z.of_nat i); [|rewrite E; reflexivity].
  unfold step. rewrite halved_is. destruct D as [(A & ->)|[(A & ->)|(A & ->)]].
  - rewrite (proj2 (lt_true 0 (gf x0)) A). assert (lt (gf x0) 0 = false) as -> by (apply lt_false; lra). ring.
  - assert (lt 0 (gf x0) = false) as -> by (apply lt_false; lra). assert (lt (gf x0) 0 = false) as -> by (apply lt_false; lra). ring.
  - rewrite (proj2 (lt_true (gf x0) 0) A). assert (lt 0 (gf x0) = false) as -> by (apply lt_false; lra). ring.
Qed.
Lemma enough_is i : enough i <-> (let c := clamp (step x0 (halved i (1 # 50)) (gf x0)) in f c - f x0 < (1 # 2) * (c - x0) * gf x0).
Proof. unfold enough. cbv zeta. pose proof (attempt_is i) as A. rewrite (SAME _ _ A), A. reflexivity. Qed.
Lemma one_round k s : find_interval x0 s = None -> rounds f gf moved (S k) s x0 junk x0 x0 10000000 0 false =
  (let '(x', fx', iter', stop') := line_search f 9 (1 # 50) x0 (f x0) (gf x0) 0 in rounds f gf moved k s x' fx' (smin x0 x0) (smax x0 x0) x0 iter' stop').
Proof. intros F. cbn -[Nat.ltb Nat.eqb line_search]. rewrite RUNS, F. reflexivity. Qed.
Lemma outside s : (forall e, In e s -> ~ lo e - (1 # 1000000) <= x0 <= hi e + (1 # 1000000)) -> find_interval x0 s = None.
Proof. intros H. destruct (find_interval x0 s) as [m|] eqn:F; auto. apply found_spec in F as (e & N & I & _). apply inside_spec in I. destruct (H e (nth_error_In _ _ N) I). Qed.
Lemma rounds_stopped k s x fx a b p i : rounds f gf moved (S k) s x fx a b p i true = (fx, x, a, b, None).
Proof. cbn -[Nat.ltb]. rewrite andb_false_r. reflexivity. Qed.
(** If no try gains enough the start is the answer. *)
Theorem C98_stays s : (forall e, In e s -> ~ lo e - (1 # 1000000) <= x0 <= hi e + (1 # 1000000)) -> (forall i, (i < 9)%nat -> ~ enough i) ->
  descend f gf moved junk x0 s = (f x0, x0, (s ++ [{| lo := x0; hi := x0; val := f x0; mn := x0 |}])%list).
Proof.
  intros O N. apply outside in O. unfold descend. change 100%nat with (S 99). rewrite (one_round 99 s O). destruct (line_search f 9 (1 # 50) x0 (f x0) (gf x0) 0) as [[[x' fx'] i'] st] eqn:L. apply tries in L. cbv zeta in L.
  destruct L as [(-> & -> & -> & _)|(_ & _ & i & I & _ & B & _)]; [|destruct (N i I); apply enough_is; exact B]. change 99%nat with (S 98). rewrite rounds_stopped, smin_keep, smax_keep by lra. reflexivity.
Qed.
(** Otherwise the first try that gains enough is taken, and a newly found answer is at most its value. *)
Theorem C98_first_try s k fx x s' : (k < 9)%nat -> enough k -> (forall i, (i < k)%nat -> ~ enough i) -> descend f gf moved junk x0 s = (fx, x, s') -> (List.length s < List.length s')%nat -> fx <= f (attempt k).
Proof.
  intros K E N H L. assert (O : find_interval x0 s = None).
  { destruct (find_interval x0 s) as [m|] eqn:F; auto. exfalso. rewrite (first_round f gf moved junk x0 RUNS), F in H. apply found_spec in F as (e & M & _). rewrite M in H. injection H as <- <- <-. rewrite grow_length in L. exact (Nat.lt_irrefl _ L). }
  unfold descend in H. change 100%nat with (S 99) in H. rewrite (one_round 99 s O) in H. destruct (line_search f 9 (1 # 50) x0 (f x0) (gf x0) 0) as [[[x' fx'] i'] st] eqn:T. apply tries in T. cbv zeta in T.
  destruct T as [(_ & _ & _ & B)|(-> & V & i & I & X & B & M)]; [destruct (B k K); apply enough_is; exact E|]. assert (i = k) as ->.
  { destruct (Nat.lt_trichotomy i k) as [Q|[Q|Q]]; auto; exfalso; [apply (N i Q), enough_is; exact B|apply (M k Q), enough_is; exact E]. }
  destruct (rounds f gf moved 99 s x' fx' (smin x0 x0) (smax x0 x0) x0 i' false) as [[[[fx1 x1] a] b] o] eqn:R. injection H as <- <- <-. destruct o as [m|]; [exfalso; rewrite grow_length in L; exact (Nat.lt_irrefl _ L)|].
  apply rounds_path in R; [|rewrite X; apply clamp_range|exact V]. destruct R as (_ & _ & R). rewrite X in R. rewrite <- (SAME _ _ (attempt_is k)). exact R.
Qed.
End Tries.
(** A run of calls for one function, from no intervals, whatever the uninitialised values are: every answer is a time between 0 and 1 and the value there. *)
Fixpoint calls (f gf : Q -> Q) (moved : Q -> Q -> bool) (starts : list (Q * Q)) (s : list entry) : list (Q * Q) :=
  match starts with [] => [] | (x0, junk) :: r => let '(fx, x, s') := descend f gf moved junk x0 s in (fx, x) :: calls f gf moved r s' end.
Theorem C98_history f gf moved starts : (forall x0 junk, In (x0, junk) starts -> 0 <= x0 <= 1 /\ moved x0 10000000 = true) ->
  List.length (calls f gf moved starts []) = List.length starts /\ forall fx x, In (fx, x) (calls f gf moved starts []) -> 0 <= x <= 1 /\ fx = f x.
Proof.
  assert (G : valid f []) by (intros e []). revert G. generalize (@nil entry). induction starts as [|(x0, junk) r IH]; intros s V H; [split; [reflexivity|intros ? ? []]|]. cbn [calls].
  destruct (descend f gf moved junk x0 s) as [[fx x] s'] eqn:D. destruct (H x0 junk (or_introl eq_refl)) as (X & M). destruct (C98_value f gf moved junk x0 M s fx x s' X V D) as (A & B & C).
  destruct (IH s' C) as (L & K); [intros y j I; apply (H y j); right; exact I|]. split; [cbn; rewrite L; reflexivity|]. intros g y [E|I]; [injection E as <- <-; auto|auto].
Qed.
(** With stored intervals the answer can be larger than the value at the start: a point between two times of an earlier path gets that path's minimum. *)
Definition dip (x : Q) : Q := if Qeq_bool x 0 then 1 else if Qeq_bool x (1 # 50) then 1 # 2 else if Qeq_bool x (1 # 100) then 0 else 2.
Definition far (x p : Q) : bool := lt (1 # 1000000) (if lt (x - p) 0 then p - x else x - p).
Theorem C98_reuse_refuted : exists s x, descend dip (fun _ => -(1)) far 0 0 [] = (1 # 2, x, s) /\ x == 1 # 50 /\ fst (fst (descend dip (fun _ => -(1)) far 0 (1 # 100) s)) = 1 # 2 /\ dip (1 # 100) = 0.
Proof. eexists. eexists. split; [vm_compute; reflexivity|]. split; [vm_compute; reflexivity|]. split; vm_compute; reflexivity. Qed.
(** the hypotheses can be met: a parabola with its minimum at 0.3, from 0.25; then again *)
Example C98_nonvacuous : let f := fun x => Qred ((x - (3 # 10)) * (x - (3 # 10))) in let g := fun x => Qred (2 * (x - (3 # 10))) in
  far (1 # 4) 10000000 = true /\ exists fx x s, descend f g far 0 (1 # 4) [] = (fx, x, s) /\ fx < f (1 # 4) /\ 0 <= x <= 1 /\ List.length s = 1%nat /\ descend f g far 0 (1 # 4) s = (fx, x, s).
Proof.
  cbv zeta. split; [reflexivity|]. destruct (descend _ _ far 0 (1 # 4) []) as [[fx x] s] eqn:E. exists fx, x, s. split; [reflexivity|]. assert (E' := E). apply C98_again in E'; [|reflexivity].
  pose proof (C98_descends _ _ far 0 (1 # 4) eq_refl [] fx x s ltac:(lra) E) as D. pose proof (C98_value _ _ far 0 (1 # 4) eq_refl [] fx x s ltac:(lra) ltac:(intros e []) E) as (V & _).
  vm_compute in E. injection E as <- <- <-. split; [reflexivity|]. split; [exact V|]. split; [reflexivity|exact E'].
Qed.
(** the first try gains enough; at the minimum none does *)
Example C98_tries_nonvacuous : let f := fun x => (x - (3 # 10)) * (x - (3 # 10)) in let g := fun x => 2 * (x - (3 # 10)) in
  (forall a b, a == b -> f a == f b) /\ g (1 # 4) < 0 /\ enough f g (1 # 4) (-(1)) 0 /\ g (3 # 10) == 0 /\ (forall i, (i < 9)%nat -> ~ enough f g (3 # 10) 0 i) /\ fst (fst (descend f g far 0 (3 # 10) [])) == 0.
Proof.
  cbv zeta. split; [intros a b ->; reflexivity|]. split; [reflexivity|]. split; [reflexivity|]. split; [reflexivity|]. split; [|vm_compute; reflexivity].
  intros i I. unfold enough. assert (A : attempt (3 # 10) 0 i == 3 # 10); [|rewrite A; vm_compute; discriminate].
  unfold attempt. setoid_replace ((3 # 10) - 0 * (1 # 50) * (1 # 2) ^ Z.of_nat i) with (3 # 10) by ring. reflexivity.
Qed.
