From Verif Require Import NumpyModel NumpyProofs PyExn TopoModel TopoSpec TopoProofs HemProofs SubdivModel SubdivSpec.
From Coq Require Import Permutation Psatz.
Open Scope Z_scope.

Lemma NoDup_app_iff {X} (l1 l2 : list X) : NoDup (l1 ++ l2) <-> NoDup l1 /\ NoDup l2 /\ (forall x, In x l1 -> In x l2 -> False).
Proof.
  induction l1 as [|a l1 IH]; cbn.
  - split; [intros H; split; [constructor | split; auto] | tauto].
  - rewrite !NoDup_cons_iff, IH, in_app_iff. split.
    + intros (A & B & C & D). repeat split; auto. intros x [<-|I] J; [tauto | eauto].
    + intros ((A & B) & C & D). repeat split; auto; [|intros x I J; apply (D x); auto]. intros [I|I]; auto. apply (D a); auto.
Qed.
Lemma same_edge_refl e : same_edge e e. Proof. left; auto. Qed.
Lemma same_edge_sym e f : same_edge e f -> same_edge f e. Proof. unfold same_edge. intuition. Qed.
Lemma same_edge_trans e f g : same_edge e f -> same_edge f g -> same_edge e g.
Proof. unfold same_edge. intuition congruence. Qed.
Lemma same_edgeb_iff e f : same_edgeb e f = true <-> same_edge e f.
Proof. unfold same_edgeb, same_edge. rewrite orb_true_iff, !andb_true_iff, !Z.eqb_eq. tauto. Qed.

(** index in E of the undirected edge e *)
Fixpoint eidx (E : list edge) (e : edge) : nat :=
  match E with [] => O | x :: r => if same_edgeb e x then O else S (eidx r e) end.
Lemma eidx_spec E e : (exists e', In e' E /\ same_edge e e') -> exists e', nth_error E (eidx E e) = Some e' /\ same_edge e e'.
Proof.
  induction E as [|x E IH]; intros (e' & I & S); [destruct I|]. cbn. destruct (same_edgeb e x) eqn:T.
  - exists x. split; auto. apply same_edgeb_iff; auto.
  - apply IH. exists e'. split; auto. destruct I as [->|]; auto. apply same_edgeb_iff in S. congruence.
Qed.

Lemma enum_snd {A} (l : list A) : map snd (enum l) = l.
Proof.
  unfold enum. generalize 0%nat. induction l as [|x l IH]; intros s; cbn; auto. f_equal; auto.
Qed.
Lemma enum_nth {A} (l : list A) p : In p (enum l) -> exists k, fst p = Z.of_nat k /\ nth_error l k = Some (snd p).
Proof.
  unfold enum. assert (G : forall s, In p (combine (map Z.of_nat (seq s (length l))) l) -> exists k, fst p = Z.of_nat (s + k) /\ nth_error l k = Some (snd p)).
  { induction l as [|x l IH]; intros s I; [destruct I|]. cbn in I. destruct I as [<-|I].
    - exists 0%nat. cbn. rewrite Nat.add_0_r. auto.
    - apply IH in I as (k & -> & E). exists (S k). split; auto. rewrite Nat.add_succ_comm; auto. }
  intros I. apply (G 0%nat) in I. auto.
Qed.
Lemma enum_length {A} (l : list A) : length (enum l) = length l.
Proof. unfold enum. rewrite combine_length, map_length, seq_length. lia. Qed.
Lemma enum_nth_error {A} (l : list A) k x : nth_error l k = Some x -> nth_error (enum l) k = Some (Z.of_nat k, x).
Proof.
  unfold enum. assert (G : forall s, nth_error l k = Some x -> nth_error (combine (map Z.of_nat (seq s (length l))) l) k = Some (Z.of_nat (s + k), x)).
  { revert k. induction l as [|y l IH]; intros [|k] s H; cbn in *; try discriminate.
    - injection H as ->. rewrite Nat.add_0_r. auto.
    - rewrite (IH k (S s) H). rewrite Nat.add_succ_comm. auto. }
  intros H. apply (G 0%nat). auto.
Qed.

(** the abstract subdivided face list for a midpoint numbering M *)
Definition upF (M : edge -> Z) (F : list tri) : list tri :=
  map (fun t => let '(a,b,c) := t in (a, M (a,b), M (c,a))) F ++
  map (fun t => let '(a,b,c) := t in (M (a,b), b, M (b,c))) F ++
  map (fun t => let '(a,b,c) := t in (M (c,a), M (b,c), c)) F ++
  map (fun t => let '(a,b,c) := t in (M (c,a), M (a,b), M (b,c))) F.

Section M.
  Variables (F : list tri) (n : Z) (M : edge -> Z).
  Hypothesis GM : good_mesh F.
  Hypothesis RG : in_range n F.
  (** M numbers the undirected edges of F injectively from n on *)
  Hypothesis MG : forall e, In e (all_sides F) -> n <= M e.
  Hypothesis MI : forall e f, In e (all_sides F) -> In f (all_sides F) -> (M e = M f <-> same_edge e f).

  Let A := map (fun e : edge => (fst e, M e)) (all_sides F).
  Let B := map (fun e : edge => (M e, snd e)) (all_sides F).
  Let C := flat_map (fun t : tri => let '(a,b,c) := t in [(M (a,b), M (c,a)); (M (b,c), M (a,b)); (M (c,a), M (b,c))]) F.

  Lemma sides_in t : In t F -> let '(a,b,c) := t in In (a,b) (all_sides F) /\ In (b,c) (all_sides F) /\ In (c,a) (all_sides F).
  Proof. destruct t as [[a b] c]. intros I. unfold all_sides. rewrite !in_flat_map. repeat split; exists (a,b,c); cbn; auto. Qed.
  Lemma sides_range e : In e (all_sides F) -> 0 <= fst e < n /\ 0 <= snd e < n.
  Proof.
    unfold all_sides. rewrite in_flat_map. intros ([[a b] c] & I & S). apply RG in I. cbn in *.
    destruct S as [<-|[<-|[<-|[]]]]; cbn; lia.
  Qed.

  Lemma all_sides_app F1 F2 : all_sides (F1 ++ F2) = all_sides F1 ++ all_sides F2.
  Proof. unfold all_sides. rewrite flat_map_app. auto. Qed.

  Definition edge_dec (x y : edge) : {x = y} + {x <> y}.
  Proof. decide equality; apply Z.eq_dec. Defined.
  Definition cnt (x : edge) (l : list edge) : nat := count_occ edge_dec l x.
  Lemma cnt_app x l1 l2 : cnt x (l1 ++ l2) = (cnt x l1 + cnt x l2)%nat.
  Proof. apply count_occ_app. Qed.
  Lemma cnt_cons x y l : cnt x (y :: l) = (cnt x [y] + cnt x l)%nat.
  Proof. change (y :: l) with ([y] ++ l). apply cnt_app. Qed.

  Lemma upF_sides_perm : Permutation (all_sides (upF M F)) (A ++ B ++ C ++ map rev_edge C).
  Proof.
    unfold A, B, C, upF. clear. apply (Permutation_count_occ edge_dec). intros x.
    enough (H : cnt x (all_sides (upF M F)) = cnt x (map (fun e : edge => (fst e, M e)) (all_sides F) ++ map (fun e : edge => (M e, snd e)) (all_sides F) ++
      flat_map (fun t : tri => let '(a,b,c) := t in [(M (a,b), M (c,a)); (M (b,c), M (a,b)); (M (c,a), M (b,c))]) F ++
      map rev_edge (flat_map (fun t : tri => let '(a,b,c) := t in [(M (a,b), M (c,a)); (M (b,c), M (a,b)); (M (c,a), M (b,c))]) F))) by exact H.
    unfold upF. rewrite !all_sides_app, !cnt_app.
    induction F as [|[[a b] c] G IH]; [reflexivity|].
    unfold all_sides in *. cbn [map flat_map sides app fst snd].
    repeat match goal with |- context [cnt x (?y :: ?l)] => lazymatch l with [] => fail | _ => rewrite (cnt_cons x y l) end end.
    unfold rev_edge at 1 2 3; cbn [fst snd]. lia.
  Qed.

  (** rotations of faces, as "x then y then z" *)
  Lemma rot_sides x y z : rot_in F x y z -> In (x,y) (all_sides F) /\ In (y,z) (all_sides F) /\ In (z,x) (all_sides F).
  Proof. intros [I|[I|I]]; apply sides_in in I; tauto. Qed.
  Lemma rot_proper x y z : rot_in F x y z -> x <> y /\ y <> z /\ z <> x.
  Proof. destruct GM as (_ & P & _). intros [I|[I|I]]; apply P in I; cbn in I; tauto. Qed.
  Lemma rot_flip x y z : rot_in F x y z -> rot_in F x z y -> False.
  Proof.
    intros R1 R2. destruct (rot_proper _ _ _ R1) as (N1 & N2 & N3). destruct GM as (_ & _ & D).
    destruct R1 as [I|[I|I]], R2 as [J|[J|J]];
      (assert (Q : forall s t, s = t -> In s F -> In t F -> True) by auto; clear Q);
      pose proof (D _ _ I J) as Q; unfold same_tri, perms3 in Q; cbn [In] in Q;
      assert (Q' := Q ltac:(auto 8)); congruence.
  Qed.
  Lemma C_in x y : In (x, y) C <-> exists u v w, rot_in F u v w /\ x = M (u,v) /\ y = M (w,u).
  Proof.
    unfold C. rewrite in_flat_map. split.
    - intros ([[a b] c] & I & H). cbn in H. unfold rot_in.
      destruct H as [H|[H|[H|[]]]]; injection H as <- <-.
      + exists a, b, c. auto.
      + exists b, c, a. auto.
      + exists c, a, b. auto.
    - intros (u & v & w & [I|[I|I]] & -> & ->); eexists; (split; [exact I|]); cbn; auto.
  Qed.
  (** two edges of a corner determine the corner *)
  Lemma corner_unique u v w u' v' w' : rot_in F u v w -> rot_in F u' v' w' ->
    M (u,v) = M (u',v') -> M (w,u) = M (w',u') -> u = u' /\ v = v' /\ w = w'.
  Proof.
    intros R R' E1 E2. destruct (rot_sides _ _ _ R) as (S1 & _ & S3). destruct (rot_sides _ _ _ R') as (S1' & _ & S3').
    apply MI in E1; auto. apply MI in E2; auto.
    destruct (rot_proper _ _ _ R) as (N1 & N2 & N3). destruct (rot_proper _ _ _ R') as (N1' & N2' & N3').
    unfold same_edge in *; cbn [fst snd] in *. destruct E1 as [[? ?]|[? ?]], E2 as [[? ?]|[? ?]]; subst; try congruence; auto.
  Qed.
  Lemma corner_flip u v w u' v' w' : rot_in F u v w -> rot_in F u' v' w' ->
    M (u,v) = M (w',u') -> M (w,u) = M (u',v') -> False.
  Proof.
    intros R R' E1 E2. destruct (rot_sides _ _ _ R) as (S1 & _ & S3). destruct (rot_sides _ _ _ R') as (S1' & _ & S3').
    apply MI in E1; auto. apply MI in E2; auto.
    destruct (rot_proper _ _ _ R) as (N1 & N2 & N3). destruct (rot_proper _ _ _ R') as (N1' & N2' & N3').
    assert (u = u' /\ v = w' /\ w = v') as (-> & -> & ->).
    { unfold same_edge in *; cbn [fst snd] in *. destruct E1 as [[? ?]|[? ?]], E2 as [[? ?]|[? ?]]; subst; try congruence; auto. }
    apply (rot_flip _ _ _ R R').
  Qed.

  Lemma NoDup_C : NoDup C.
  Proof.
    (* C is an injective image of all_sides: side (u,v) -> corner at u *)
    destruct GM as (OM & P & D). unfold oriented_manifold in OM.
    assert (G : forall F', incl F' F -> NoDup (all_sides F') -> NoDup (flat_map (fun t : tri => let '(a,b,c) := t in [(M (a,b), M (c,a)); (M (b,c), M (a,b)); (M (c,a), M (b,c))]) F')).
    { induction F' as [|[[a b] c] F' IH]; intros IN ND; [constructor|]. cbn [flat_map].
      unfold all_sides in ND; cbn [flat_map] in ND. apply NoDup_app_iff in ND as (ND1 & ND2 & ND3).
      assert (It : In (a,b,c) F) by (apply IN; left; auto).
      assert (R1 : rot_in F a b c) by (left; auto). assert (R2 : rot_in F b c a) by (right; left; auto). assert (R3 : rot_in F c a b) by (right; right; auto).
      apply NoDup_app_iff. split; [|split].
      - pose proof (P _ It) as (N1 & N2 & N3). repeat constructor; cbn; intros H; intuition;
        match goal with H : (_, _) = (_, _) |- _ => injection H as Q1 Q2 end.
        + destruct (corner_unique _ _ _ _ _ _ R2 R1 Q1 Q2); congruence.
        + destruct (corner_unique _ _ _ _ _ _ R3 R1 Q1 Q2); congruence.
        + destruct (corner_unique _ _ _ _ _ _ R3 R2 Q1 Q2); congruence.
      - apply IH; auto. intros t I. apply IN; right; auto.
      - intros x I1 I2. apply in_flat_map in I2 as ([[a' b'] c'] & It' & I2).
        assert (exists u v w, rot_in F u v w /\ x = (M (u,v), M (w,u)) /\ In (u,v) (sides (a,b,c))) as (u & v & w & Ru & -> & Su).
        { destruct I1 as [<-|[<-|[<-|[]]]]; [exists a, b, c | exists b, c, a | exists c, a, b]; cbn; auto 6. }
        assert (It'' : In (a',b',c') F) by (apply IN; right; auto).
        assert (exists u' v' w', rot_in F u' v' w' /\ (M (u,v), M (w,u)) = (M (u',v'), M (w',u')) /\ In (u',v') (sides (a',b',c'))) as (u' & v' & w' & Ru' & Q & Su').
        { destruct I2 as [Q|[Q|[Q|[]]]]; [exists a', b', c' | exists b', c', a' | exists c', a', b']; rewrite <- Q; unfold rot_in; cbn; auto 8. }
        injection Q as Q1 Q2. destruct (corner_unique _ _ _ _ _ _ Ru Ru' Q1 Q2) as (-> & -> & ->).
        apply (ND3 (u',v') Su). apply in_flat_map. exists (a',b',c'). auto. }
    apply G; [apply incl_refl | exact OM].
  Qed.

  Lemma upF_oriented : oriented_manifold (upF M F).
  Proof.
    unfold oriented_manifold. eapply Permutation_NoDup; [symmetry; apply upF_sides_perm|].
    destruct GM as (OM & P & D). unfold oriented_manifold in OM.
    assert (CG : forall x, In x C -> n <= fst x /\ n <= snd x).
    { intros [x y] I. apply C_in in I as (u & v & w & R & -> & ->). apply rot_sides in R. cbn. split; apply MG; tauto. }
    assert (INJ : forall {X} (f : edge -> X) l, (forall x y, In x l -> In y l -> f x = f y -> x = y) -> NoDup l -> NoDup (map f l)).
    { intros X f l. induction l as [|y l IH]; intros Hf ND; cbn; constructor.
      - inversion ND; subst. intros I. apply in_map_iff in I as (z & Q & I). apply Hf in Q; cbn; auto. subst; auto.
      - inversion ND; subst. apply IH; auto. intros; apply Hf; cbn; auto. }
    repeat (apply NoDup_app_iff; split; [|split]).
    - apply INJ; auto. intros [u v] [u' v'] I J Q. cbn in Q. injection Q as -> Q. apply MI in Q; auto.
      unfold same_edge in Q; cbn in Q. intuition congruence.
    - apply INJ; auto. intros [u v] [u' v'] I J Q. cbn in Q. injection Q as Q ->. apply MI in Q; auto.
      unfold same_edge in Q; cbn in Q. intuition congruence.
    - apply NoDup_C.
    - apply INJ; [|apply NoDup_C]. intros [u v] [u' v'] _ _ Q. unfold rev_edge in Q; cbn in Q. congruence.
    - intros [x y] I J. apply C_in in I as (u & v & w & R & -> & ->). apply in_map_iff in J as ([x' y'] & Q & J).
      apply C_in in J as (u' & v' & w' & R' & -> & ->). unfold rev_edge in Q; cbn in Q. injection Q as Q1 Q2.
      eapply (corner_flip u v w u' v' w'); eauto.
    - intros x I J. unfold B in I. apply in_map_iff in I as (e & <- & I). pose proof (sides_range e I).
      apply in_app_iff in J as [J|J]; [apply CG in J; cbn in J; lia|]. apply in_map_iff in J as (y & Q & J). apply CG in J.
      unfold rev_edge in Q. injection Q as Q1 Q2. lia.
    - intros x I J. unfold A in I. apply in_map_iff in I as (e & <- & I). pose proof (sides_range e I).
      rewrite !in_app_iff in J. destruct J as [J|[J|J]].
      + unfold B in J. apply in_map_iff in J as (e' & Q & J). injection Q as Q1 Q2. apply MG in J. lia.
      + apply CG in J; cbn in J; lia.
      + apply in_map_iff in J as (y & Q & J). apply CG in J. unfold rev_edge in Q. injection Q as Q1 Q2. lia.
  Qed.

  Lemma upF_in s : In s (upF M F) <-> exists a b c, In (a,b,c) F /\
    (s = (a, M (a,b), M (c,a)) \/ s = (M (a,b), b, M (b,c)) \/ s = (M (c,a), M (b,c), c) \/ s = (M (c,a), M (a,b), M (b,c))).
  Proof.
    unfold upF. rewrite !in_app_iff, !in_map_iff. split.
    - intros [H|[H|[H|H]]]; destruct H as ([[a b] c] & <- & I); exists a, b, c; auto.
    - intros (a & b & c & I & [ -> | [ -> | [ -> | -> ] ] ]); [left | right; left | right; right; left | right; right; right]; exists (a,b,c); auto.
  Qed.
  (** corner child (as a rotation starting at the old vertex) or centre child *)
  Lemma upF_cases s : In s (upF M F) ->
    (exists u v w, rot_in F u v w /\ (s = (u, M (u,v), M (w,u)) \/ s = (M (w,u), u, M (u,v)) \/ s = (M (u,v), M (w,u), u))
       /\ (s = (u, M (u,v), M (w,u)) -> In (u,v,w) F) /\ (s = (M (w,u), u, M (u,v)) -> In (w,u,v) F) /\ (s = (M (u,v), M (w,u), u) -> In (v,w,u) F))
    \/ (exists a b c, In (a,b,c) F /\ s = (M (c,a), M (a,b), M (b,c))).
  Proof.
    intros I. apply upF_in in I as (a & b & c & I & H). pose proof (RG _ I) as Rg. cbn in Rg.
    destruct (sides_in _ I) as (S1 & S2 & S3). apply MG in S1, S2, S3.
    destruct H as [ -> | [ -> | [ -> | -> ] ] ]; [left; exists a, b, c | left; exists b, c, a | left; exists c, a, b | right; exists a, b, c; auto];
      unfold rot_in; (split; [auto|]); (split; [auto|]); repeat split; intros Q; auto; injection Q as Q1 Q2 Q3; lia.
  Qed.
  Lemma upF_proper s : In s (upF M F) -> proper s.
  Proof.
    intros I. apply upF_in in I as (a & b & c & I & H). pose proof (RG _ I) as Rg. cbn in Rg.
    destruct (sides_in _ I) as (S1 & S2 & S3). pose proof (MG _ S1). pose proof (MG _ S2). pose proof (MG _ S3).
    destruct GM as (_ & P & _). specialize (P _ I) as (N1 & N2 & N3).
    assert (M (a,b) <> M (b,c)) by (intros Q; apply MI in Q; auto; unfold same_edge in Q; cbn in Q; intuition congruence).
    assert (M (b,c) <> M (c,a)) by (intros Q; apply MI in Q; auto; unfold same_edge in Q; cbn in Q; intuition congruence).
    assert (M (c,a) <> M (a,b)) by (intros Q; apply MI in Q; auto; unfold same_edge in Q; cbn in Q; intuition congruence).
    destruct H as [ -> | [ -> | [ -> | -> ] ] ]; cbn; repeat split; auto; lia.
  Qed.
  Lemma same_tri_in x y z s : same_tri s (x,y,z) -> forall v, v = fst (fst s) \/ v = snd (fst s) \/ v = snd s -> v = x \/ v = y \/ v = z.
  Proof. unfold same_tri, perms3. cbn. intros H v V. destruct H as [<-|[<-|[<-|[<-|[<-|[<-|[]]]]]]]; cbn in V; intuition. Qed.
  Lemma upF_distinct s t : In s (upF M F) -> In t (upF M F) -> same_tri s t -> s = t.
  Proof.
    intros Is It ST. destruct GM as (OM & P & D).
    destruct (upF_cases s Is) as [(u & v & w & R & Hs & Hs1 & Hs2 & Hs3)|(a & b & c & Ia & ->)];
    destruct (upF_cases t It) as [(u' & v' & w' & R' & Ht & Ht1 & Ht2 & Ht3)|(a' & b' & c' & Ia' & ->)].
    - destruct (rot_sides _ _ _ R) as (S1 & _ & S3). destruct (rot_sides _ _ _ R') as (S1' & _ & S3').
      pose proof (MG _ S1). pose proof (MG _ S3). pose proof (MG _ S1'). pose proof (MG _ S3').
      pose proof (sides_range _ S1). pose proof (sides_range _ S1'). cbn [fst snd] in *.
      assert (PA : {u = u' /\ M (u,v) = M (u',v') /\ M (w,u) = M (w',u')} + {u = u' /\ M (u,v) = M (w',u') /\ M (w,u) = M (u',v')} + {True}) by (right; auto).
      clear PA.
      assert (PA : (u = u' /\ M (u,v) = M (u',v') /\ M (w,u) = M (w',u')) \/ (u = u' /\ M (u,v) = M (w',u') /\ M (w,u) = M (u',v'))).
      { clear Hs1 Hs2 Hs3 Ht1 Ht2 Ht3 D P.
        destruct Hs as [ -> | [ -> | -> ] ], Ht as [ -> | [ -> | -> ] ]; unfold same_tri, perms3 in ST; cbn [In] in ST;
        destruct ST as [ST|[ST|[ST|[ST|[ST|[ST|[]]]]]]]; injection ST as Q1 Q2 Q3; first [lia | left; repeat split; lia | right; repeat split; lia]. }
      destruct PA as [(-> & Q1 & Q2)|(-> & Q1 & Q2)].
      + destruct (corner_unique _ _ _ _ _ _ R R' Q1 Q2) as (_ & -> & ->).
        (* both children come from faces that are rotations of each other: same face *)
        assert (IS : In (u',v',w') F \/ In (w',u',v') F \/ In (v',w',u') F) by (unfold rot_in in R; tauto).
        pose proof (rot_proper _ _ _ R) as (N1 & N2 & N3).
        destruct Hs as [ Es | [ Es | Es ] ], Ht as [ Et | [ Et | Et ] ]; try congruence; exfalso;
          [specialize (Hs1 Es); specialize (Ht2 Et); assert (Q := D _ _ Hs1 Ht2) |
           specialize (Hs1 Es); specialize (Ht3 Et); assert (Q := D _ _ Hs1 Ht3) |
           specialize (Hs2 Es); specialize (Ht1 Et); assert (Q := D _ _ Hs2 Ht1) |
           specialize (Hs2 Es); specialize (Ht3 Et); assert (Q := D _ _ Hs2 Ht3) |
           specialize (Hs3 Es); specialize (Ht1 Et); assert (Q := D _ _ Hs3 Ht1) |
           specialize (Hs3 Es); specialize (Ht2 Et); assert (Q := D _ _ Hs3 Ht2) ];
          (unfold same_tri, perms3 in Q; cbn [In] in Q; specialize (Q ltac:(auto 8)); congruence).
      + exfalso. eapply (corner_flip u' v w u' v' w'); eauto.
    - exfalso. destruct (rot_sides _ _ _ R) as (S1 & _ & S3). apply sides_range in S1. cbn in S1.
      destruct (sides_in _ Ia') as (T1 & T2 & T3). apply MG in T1, T2, T3.
      pose proof (same_tri_in _ _ _ _ ST u) as Q. destruct Hs as [ -> | [ -> | -> ] ]; cbn in Q; specialize (Q ltac:(auto)); lia.
    - exfalso. destruct (rot_sides _ _ _ R') as (S1 & _ & S3). apply sides_range in S1. cbn in S1.
      destruct (sides_in _ Ia) as (T1 & T2 & T3). apply MG in T1, T2, T3.
      destruct Ht as [ -> | [ -> | -> ] ]; unfold same_tri, perms3 in ST; cbn [In] in ST;
        destruct ST as [ST|[ST|[ST|[ST|[ST|[ST|[]]]]]]]; injection ST as Q1 Q2 Q3; lia.
    - pose proof (sides_in _ Ia) as (T1 & T2 & T3). pose proof (sides_in _ Ia') as (T1' & T2' & T3').
      pose proof (P _ Ia) as (N1 & N2 & N3). pose proof (P _ Ia') as (N1' & N2' & N3').
      assert (Q : (a,b,c) = (a',b',c')); [|injection Q as -> -> ->; auto].
      apply D; auto. unfold same_tri, perms3 in ST; cbn [In] in ST.
      assert (MI' : forall e f, In e (all_sides F) -> In f (all_sides F) -> M e = M f -> same_edge e f) by (intros; apply MI; auto).
      destruct ST as [ST|[ST|[ST|[ST|[ST|[ST|[]]]]]]]; injection ST as Q1 Q2 Q3; symmetry in Q1, Q2, Q3;
        apply MI' in Q1; auto; apply MI' in Q2; auto; apply MI' in Q3; auto;
        clear - Q1 Q2 Q3 N1 N2 N3 N1' N2' N3'; unfold same_edge in *; cbn [fst snd] in *; unfold same_tri, perms3; cbn [In];
        destruct Q1 as [[? ?]|[? ?]], Q2 as [[? ?]|[? ?]], Q3 as [[? ?]|[? ?]]; subst; try congruence; auto 8.
  Qed.
  Lemma upF_good : good_mesh (upF M F).
  Proof. split; [apply upF_oriented|]. split; [apply upF_proper | apply upF_distinct]. Qed.
End M.
