(** lemmas for the loop of remesh_botsch.cpp *)
From Coq Require Import Reals Lra List Arith Bool Lia.
From Verif Require Import Vec SplitModel SplitProofs Split3Proofs Split4Proofs Split5Proofs FlipModel FlipProofs Flip2Proofs Flip3Proofs RelaxModel CollapseModel CollapseProofs RemeshCppModel P_Split P_Flip P_Relax P_Collapse.
Import ListNotations.
Open Scope nat_scope.

(** more fuel does not change a result *)
Lemma find_mono f : forall f' p x r, f <= f' -> uf_find f p x = Some r -> uf_find f' p x = Some r.
Proof. induction f as [|f IH]; intros f' p x r L E; [discriminate|]. destruct f' as [|f']; [lia|]. cbn [uf_find] in *. destruct (p x =? x); [auto|]. apply IH; [lia|auto]. Qed.
Lemma union_mono f f' p a b r : f <= f' -> uf_union f p a b = Some r -> uf_union f' p a b = Some r.
Proof.
  unfold uf_union. intros L E. destruct (uf_find f p a) as [(q, ra)|] eqn:E1; [|discriminate]. rewrite (find_mono _ _ _ _ _ L E1). destruct (uf_find f q b) as [(q', rb)|] eqn:E2; [|discriminate]. rewrite (find_mono _ _ _ _ _ L E2). auto.
Qed.
Lemma unions_mono f f' l : f <= f' -> forall p r, unions f p l = Some r -> unions f' p l = Some r.
Proof. intros L. induction l as [|x l IH]; intros p r E; cbn [unions] in *; [auto|]. destruct (uf_union f p (fst x) (snd x)) as [q|] eqn:E1; [|discriminate]. rewrite (union_mono _ _ _ _ _ _ L E1). auto. Qed.
Lemma fold_mono {S O} (st st' : option S -> O -> option S) : (forall o, st None o = None) -> (forall s o r, st (Some s) o = Some r -> st' (Some s) o = Some r) -> forall l s r, fold_left st l (Some s) = Some r -> fold_left st' l (Some s) = Some r.
Proof.
  intros N M. assert (NF : forall l, fold_left st l None = None) by (induction l as [|o l IH]; cbn; [auto|rewrite N; auto]).
  induction l as [|o l IH]; intros s r E; cbn [fold_left] in *; [auto|]. destruct (st (Some s) o) as [t|] eqn:Q; [|rewrite NF in E; discriminate]. rewrite (M _ _ _ Q). auto.
Qed.
Lemma birth_mono f f' n r b : f <= f' -> birth2new f n r = Some b -> birth2new f' n r = Some b.
Proof.
  intros L. unfold birth2new. destruct (unions f (fun i => i) (merges r)) as [p|] eqn:E1; [|discriminate]. rewrite (unions_mono _ _ _ L _ _ E1). cbn [bindo].
  set (b0 := fold_left (fun b s => set1 b (rI r s) (Some s)) (seq 0 (rn r)) (fun _ => None)). clearbody b0.
  match goal with |- bindo ?x _ = _ -> _ => destruct x as [(q, rnew)|] eqn:E2 end; [|discriminate].
  match type of E2 with fold_left ?st ?l ?s = _ => erewrite (fold_mono st _ _ _ l _ _ E2) end. cbn [bindo fst snd].
  match goal with |- bindo ?x _ = _ -> _ => destruct x as [(q', b')|] eqn:E3 end; [|discriminate].
  match type of E3 with fold_left ?st ?l ?s = _ => erewrite (fold_mono st _ _ _ l _ _ E3) end. auto.
  Unshelve.
  - intros o. reflexivity.
  - intros (q0, r0) o t. cbn [bindo]. destruct (b0 o); [|auto]. destruct (uf_find f q0 o) as [w|] eqn:E; [|discriminate]. rewrite (find_mono _ _ _ _ _ L E). auto.
  - intros o. reflexivity.
  - intros (q0, r0) o t. cbn [bindo]. destruct (uf_find f q0 o) as [w|] eqn:E; [|discriminate]. rewrite (find_mono _ _ _ _ _ L E). auto.
Qed.
Lemma collapse_mono f f' n r feature fe high low out : f <= f' -> collapse_edges f n r feature fe high low = Some out -> collapse_edges f' n r feature fe high low = Some out.
Proof. intros L. unfold collapse_edges. destruct (birth2new f n r) as [b|] eqn:E; [|discriminate]. rewrite (birth_mono _ _ _ _ _ L E). auto. Qed.
(** increasing lists of survivors that contain 0..k-1 start with them *)
Lemma first_ids (I : nat -> nat) k N : (forall s t, s < t -> t < N -> I s < I t) -> (forall v, v < k -> exists s, s < N /\ I s = v) -> forall v, v < k -> v < N /\ I v = v.
Proof.
  intros INC SUR. assert (GE : forall s, s < N -> s <= I s) by (induction s as [|s IH]; intros L; [lia|]; specialize (INC s (S s)); lia).
  induction v as [v IH] using lt_wf_ind. intros L. destruct (SUR v L) as (s & Ls & E). pose proof (GE s Ls) as G. destruct (Nat.eq_dec s v) as [->|NE]; [auto|]. assert (LT : s < v) by lia. destruct (IH s LT) as (_ & Q); [lia|]. lia.
Qed.
Lemma forall2_seq (I : nat -> nat) k N l : (forall v, v < k -> v < N /\ I v = v) -> (forall s t, s < N -> t < N -> I s = I t -> s = t) -> (forall s, In s l -> s < N) -> Forall2 (fun v s => I s = v) (seq 0 k) l -> l = seq 0 k.
Proof.
  intros ID INJ. assert (G : forall j a l, a + j <= k -> (forall s, In s l -> s < N) -> Forall2 (fun v s => I s = v) (seq a j) l -> l = seq a j).
  { induction j as [|j IH]; intros a l' L R F; cbn [seq] in *; inversion F as [|v s l1 l2 Q F']; subst; [reflexivity|]. f_equal; [|apply IH; [lia|intros s' Q'; apply R; right; auto|auto]]. destruct (ID (I s)) as (L1 & E1); [lia|]. symmetry. apply INJ; auto. apply R. left; auto. }
  intros R F. apply (G k 0); auto.
Qed.
