(** splitting a tetrahedron along one of its edges, for all affine attributes at once *)
From Coq Require Import Reals Lra Psatz ZArith List Bool Permutation.
From Verif Require Import Vec PyExn NumpyModel UpEnvModel.
Import ListNotations.
Open Scope R_scope.

(** [attr q v] is attribute q of vertex v; attributes 0, 1, 2 are the coordinates *)
Definition vol3 (attr : nat -> nat -> R) (t : tet) : R :=
  match t with
  | [a; b; c; d] =>
      ((attr 0%nat b - attr 0%nat a) * ((attr 1%nat c - attr 1%nat a) * (attr 2%nat d - attr 2%nat a) - (attr 2%nat c - attr 2%nat a) * (attr 1%nat d - attr 1%nat a))
       + (attr 1%nat b - attr 1%nat a) * ((attr 2%nat c - attr 2%nat a) * (attr 0%nat d - attr 0%nat a) - (attr 0%nat c - attr 0%nat a) * (attr 2%nat d - attr 2%nat a))
       + (attr 2%nat b - attr 2%nat a) * ((attr 0%nat c - attr 0%nat a) * (attr 1%nat d - attr 1%nat a) - (attr 1%nat c - attr 1%nat a) * (attr 0%nat d - attr 0%nat a))) / 6
  | _ => 0
  end.
Definition weights (w : list R) : Prop := List.length w = 4%nat /\ Forall (fun x => 0 <= x) w /\ dotl w [1; 1; 1; 1] = 1.
Definition mix (w : list R) (t : tet) (f : nat -> R) : R := dotl w (map f t).
(** the vertices of s are points of t, and every point of t is a point of one of the pieces *)
Definition within (attr : nat -> nat -> R) (s t : tet) : Prop := forall v, In v s -> exists w, weights w /\ forall q, attr q v = mix w t (attr q).
Definition covers (attr : nat -> nat -> R) (g : list tet) (t : tet) : Prop := forall w, weights w -> exists s w', In s g /\ weights w' /\ forall q, mix w t (attr q) = mix w' s (attr q).
Definition total (attr : nat -> nat -> R) (g : list tet) : R := fold_right (fun s r => Rabs (vol3 attr s) + r) 0 g.
Record subdivides (attr : nat -> nat -> R) (t : tet) (g : list tet) : Prop := { sub_vol : total attr g = Rabs (vol3 attr t); sub_in : Forall (fun s => within attr s t) g; sub_cov : covers attr g t }.

Lemma vol3_distinct attr a b c d : vol3 attr [a; b; c; d] <> 0 -> a <> b /\ a <> c /\ a <> d /\ b <> c /\ b <> d /\ c <> d.
Proof. intro H. repeat split; intros ->; apply H; unfold vol3; field. Qed.
Lemma weights4 w : weights w -> exists a b c d, w = [a; b; c; d] /\ 0 <= a /\ 0 <= b /\ 0 <= c /\ 0 <= d /\ a + b + c + d = 1.
Proof.
  intros (L & F & S). destruct w as [|a [|b [|c [|d [|e w]]]]]; try discriminate L. exists a, b, c, d. split; [reflexivity|].
  inversion F as [|? ? A F1]; subst. inversion F1 as [|? ? B F2]; subst. inversion F2 as [|? ? C F3]; subst. inversion F3 as [|? ? D F4]; subst. cbn in S. repeat split; lra.
Qed.
Lemma mk_weights a b c d : 0 <= a -> 0 <= b -> 0 <= c -> 0 <= d -> a + b + c + d = 1 -> weights [a; b; c; d].
Proof. intros. split; [reflexivity|]. split; [repeat (apply Forall_cons; [assumption|]); apply Forall_nil|]. cbn. lra. Qed.
Lemma contains_in t e : contains t e = true <-> In (fst e) t /\ In (snd e) t.
Proof.
  unfold contains. rewrite andb_true_iff, !existsb_exists. split.
  - intros [(x & I & E) (y & J & E2)]. apply Nat.eqb_eq in E, E2. subst. auto.
  - intros [I J]. split; [exists (fst e)|exists (snd e)]; rewrite Nat.eqb_refl; auto.
Qed.

(** the twelve ways an ordered edge sits in a tetrahedron *)
Definition position (a b c d x y o p : nat) : Prop :=
  (x, y, o, p) = (a, b, c, d) \/ (x, y, o, p) = (b, a, c, d) \/ (x, y, o, p) = (a, c, b, d) \/ (x, y, o, p) = (c, a, b, d) \/
  (x, y, o, p) = (a, d, b, c) \/ (x, y, o, p) = (d, a, b, c) \/ (x, y, o, p) = (b, c, a, d) \/ (x, y, o, p) = (c, b, a, d) \/
  (x, y, o, p) = (b, d, a, c) \/ (x, y, o, p) = (d, b, a, c) \/ (x, y, o, p) = (c, d, a, b) \/ (x, y, o, p) = (d, c, a, b).
Lemma keep_position a b c d x y : a <> b -> a <> c -> a <> d -> b <> c -> b <> d -> c <> d -> In x [a; b; c; d] -> In y [a; b; c; d] -> x <> y ->
  exists o p, keep_op [a; b; c; d] (x, y) = [o; p] /\ position a b c d x y o p.
Proof.
  intros N1 N2 N3 N4 N5 N6 IX IY XY. unfold keep_op, position. cbn [fst snd filter].
  assert (E : forall u v : nat, u <> v -> Nat.eqb u v = false) by (intros; apply Nat.eqb_neq; assumption).
  assert (S : forall u v : nat, u <> v -> v <> u) by (intros; congruence).
  destruct IX as [<-|[<-|[<-|[<-|[]]]]]; destruct IY as [<-|[<-|[<-|[<-|[]]]]]; try contradiction;
    rewrite ?Nat.eqb_refl; repeat (rewrite E by (first [assumption|apply S; assumption])); cbn [orb negb]; eexists; eexists; (split; [reflexivity|]); tauto.
Qed.

Section Split.
  Variable attr : nat -> nat -> R.
  Variable a b c d x y o p v : nat.
  Variable mu : R.
  Hypothesis pos : position a b c d x y o p.
  Hypothesis mu01 : 0 < mu < 1.
  Hypothesis vx : forall q, attr q v = (1 - mu) * attr q x + mu * attr q y.
  Lemma split_vol : Rabs (vol3 attr [x; v; o; p]) = mu * Rabs (vol3 attr [a; b; c; d]) /\ Rabs (vol3 attr [y; v; o; p]) = (1 - mu) * Rabs (vol3 attr [a; b; c; d]).
  Proof.
    assert (E : (vol3 attr [x; v; o; p] = mu * vol3 attr [a; b; c; d] \/ vol3 attr [x; v; o; p] = - mu * vol3 attr [a; b; c; d]) /\
                (vol3 attr [y; v; o; p] = (1 - mu) * vol3 attr [a; b; c; d] \/ vol3 attr [y; v; o; p] = - (1 - mu) * vol3 attr [a; b; c; d])).
    { cbn [vol3]. rewrite !vx. destruct pos as [E|[E|[E|[E|[E|[E|[E|[E|[E|[E|[E|E]]]]]]]]]]]; injection E as -> -> -> ->;
        (split; [first [left; field|right; field]|first [left; field|right; field]]). }
    assert (A : forall k z w, 0 < k -> z = k * w \/ z = - k * w -> Rabs z = k * Rabs w).
    { intros k z w K [->| ->]; rewrite Rabs_mult, ?Rabs_Ropp, (Rabs_right k) by lra; reflexivity. }
    destruct E as [E1 E2]. split; apply A; (lra || assumption).
  Qed.
  Lemma split_within : within attr [x; v; o; p] [a; b; c; d] /\ within attr [y; v; o; p] [a; b; c; d].
  Proof.
    assert (O : forall u, In u [a; b; c; d] -> exists w, weights w /\ forall q, attr q u = mix w [a; b; c; d] (attr q)).
    { intros u [<-|[<-|[<-|[<-|[]]]]]; [exists [1; 0; 0; 0]|exists [0; 1; 0; 0]|exists [0; 0; 1; 0]|exists [0; 0; 0; 1]]; (split; [apply mk_weights; lra|intro q; unfold mix; cbn [map dotl]; ring]). }
    assert (V : exists w, weights w /\ forall q, attr q v = mix w [a; b; c; d] (attr q)).
    { destruct pos as [E|[E|[E|[E|[E|[E|[E|[E|[E|[E|[E|E]]]]]]]]]]]; injection E as -> -> -> ->;
        [exists [1 - mu; mu; 0; 0]|exists [mu; 1 - mu; 0; 0]|exists [1 - mu; 0; mu; 0]|exists [mu; 0; 1 - mu; 0]|exists [1 - mu; 0; 0; mu]|exists [mu; 0; 0; 1 - mu]|
         exists [0; 1 - mu; mu; 0]|exists [0; mu; 1 - mu; 0]|exists [0; 1 - mu; 0; mu]|exists [0; mu; 0; 1 - mu]|exists [0; 0; 1 - mu; mu]|exists [0; 0; mu; 1 - mu]];
        (split; [apply mk_weights; lra|intro q; rewrite vx; unfold mix; cbn [map dotl]; ring]). }
    assert (IN : In x [a; b; c; d] /\ In y [a; b; c; d] /\ In o [a; b; c; d] /\ In p [a; b; c; d]).
    { destruct pos as [E|[E|[E|[E|[E|[E|[E|[E|[E|[E|[E|E]]]]]]]]]]]; injection E as -> -> -> ->; cbn; tauto. }
    destruct IN as (I1 & I2 & I3 & I4). split; intros u [<-|[<-|[<-|[<-|[]]]]]; auto.
  Qed.
  Lemma split_covers : covers attr [[x; v; o; p]; [y; v; o; p]] [a; b; c; d].
  Proof.
    intros w W. apply weights4 in W. destruct W as (wa & wb & wc & wd & -> & A & B & C & D & S).
    (* reorder the weights along the position *)
    assert (R : exists wx wy wo wp, 0 <= wx /\ 0 <= wy /\ 0 <= wo /\ 0 <= wp /\ wx + wy + wo + wp = 1 /\
      forall q, mix [wa; wb; wc; wd] [a; b; c; d] (attr q) = wx * attr q x + wy * attr q y + wo * attr q o + wp * attr q p).
    { destruct pos as [E|[E|[E|[E|[E|[E|[E|[E|[E|[E|[E|E]]]]]]]]]]]; injection E as -> -> -> ->;
        [exists wa, wb, wc, wd|exists wb, wa, wc, wd|exists wa, wc, wb, wd|exists wc, wa, wb, wd|exists wa, wd, wb, wc|exists wd, wa, wb, wc|
         exists wb, wc, wa, wd|exists wc, wb, wa, wd|exists wb, wd, wa, wc|exists wd, wb, wa, wc|exists wc, wd, wa, wb|exists wd, wc, wa, wb];
        (repeat (split; [lra|])); intro q; unfold mix; cbn [map dotl]; ring. }
    destruct R as (wx & wy & wo & wp & X0 & Y0 & O0 & P0 & S' & EQ).
    destruct (Rle_lt_dec (wy * (1 - mu)) (wx * mu)) as [L|L].
    - exists [x; v; o; p], [wx - wy * (1 - mu) / mu; wy / mu; wo; wp]. split; [left; reflexivity|].
      assert (K : wy * (1 - mu) / mu <= wx) by (apply (Rmult_le_reg_r mu); [lra|]; unfold Rdiv; rewrite Rmult_assoc, Rinv_l by lra; lra).
      assert (K2 : 0 <= wy / mu) by (apply Rmult_le_pos; [exact Y0|apply Rlt_le, Rinv_0_lt_compat; lra]).
      assert (K3 : wx - wy * (1 - mu) / mu + wy / mu = wx + wy) by (field; lra).
      split; [apply mk_weights; lra|]. intro q. rewrite EQ. unfold mix. cbn [map dotl]. rewrite vx. field. lra.
    - exists [y; v; o; p], [wy - wx * mu / (1 - mu); wx / (1 - mu); wo; wp]. split; [right; left; reflexivity|].
      assert (K : wx * mu / (1 - mu) <= wy) by (apply (Rmult_le_reg_r (1 - mu)); [lra|]; unfold Rdiv; rewrite Rmult_assoc, Rinv_l by lra; lra).
      assert (K2 : 0 <= wx / (1 - mu)) by (apply Rmult_le_pos; [exact X0|apply Rlt_le, Rinv_0_lt_compat; lra]).
      assert (K3 : wy - wx * mu / (1 - mu) + wx / (1 - mu) = wx + wy) by (field; lra).
      split; [apply mk_weights; lra|]. intro q. rewrite EQ. unfold mix. cbn [map dotl]. rewrite vx. field. lra.
  Qed.
  Lemma split_subdivides : subdivides attr [a; b; c; d] [[x; v; o; p]; [y; v; o; p]].
  Proof.
    split; [|destruct split_within; repeat (apply Forall_cons; [assumption|]); apply Forall_nil|apply split_covers].
    cbn [total fold_right]. destruct split_vol as [-> ->]. ring.
  Qed.
End Split.
