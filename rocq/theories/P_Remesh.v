(** C77: what remesh_botsch hands to the remesher *)
From Coq Require Import Reals Lra Permutation Sorted.
From Verif Require Import Vec NumpyModel NumpyProofs PyExn TopoSpec TopoModel P_Topo GeomSpec GeomModel NormModel P_Norm RelabelModel RelabelProofs RemeshModel.
Open Scope Z_scope.

(** ** Specification *)
(** later repetitions dropped *)
Fixpoint keep_first (l : list Z) : list Z := match l with [] => [] | x :: l => x :: filter (fun y => negb (y =? x)) (keep_first l) end.
Definition face_in (n : Z) (t : Z * Z * Z) : Prop := forall c, (c < 3)%nat -> 0 <= corner t c < n.
Definition edge_in (n : Z) (e : Z * Z) : Prop := 0 <= fst e < n /\ 0 <= snd e < n.
Definition boundary_vertex (F : list (Z * Z * Z)) (v : Z) : Prop := exists e, In e (all_sides F) /\ incidence F e = 1%nat /\ (v = fst e \/ v = snd e).
(** the faces on both sides of (u,v) meet at more than [deg] degrees *)
Definition sharp_edge (V : list vec3) (F : list (Z * Z * Z)) (deg : R) (e : Z * Z) : Prop :=
  exists t s i j x, In t F /\ In s F /\ (i < 3)%nat /\ (j < 3)%nat /\ side_opp s j = rev_edge (side_opp t i) /\ same_edge (side_opp t i) e /\
    let P k := nth (Z.to_nat k) V zero3 in
    (0 <= x <= PI /\ cos x = dot3 (unit3 (fnormal P t)) (unit3 (fnormal P s)) /\ deg * PI / 180 < x)%R.
(** the corners of one side of a face: distances between its vertices *)
Definition side_length (V : list vec3) (t : Z * Z * Z) (i : nat) : R :=
  let P k := nth (Z.to_nat k) V zero3 in norm3 (sub3 (P (snd (side_opp t i))) (P (fst (side_opp t i)))).

(** ** Lists *)
Lemma keep_first_In l x : In x (keep_first l) <-> In x l.
Proof.
  induction l as [|y l IH]; [reflexivity|]. cbn. rewrite filter_In, IH, negb_true_iff, Z.eqb_neq. split; [intuition|]. intros [->|H]; [auto|]. destruct (Z.eq_dec y x); [auto|]. right. split; [exact H|congruence].
Qed.
Lemma keep_first_sorted l : StronglySorted (fun x y => (first_index x l < first_index y l)%nat) (keep_first l).
Proof.
  induction l as [|x l IH]; [constructor|]. cbn [keep_first]. constructor.
  - assert (E : forall y, y <> x -> first_index y (x :: l) = S (first_index y l)). { intros y H. cbn. destruct (eqb_spec y x); [contradiction|reflexivity]. }
    clear -IH E. induction (keep_first l) as [|y k IHk]; cbn [filter]; [constructor|]. inversion IH as [|? ? S Fa]; subst. destruct (Z.eqb_spec y x) as [->|N]; cbn [negb]; [apply IHk, S|]. constructor; [apply IHk, S|].
    rewrite Forall_forall in *. intros z Hz. apply filter_In in Hz as [Hz Hx]. rewrite negb_true_iff, Z.eqb_neq in Hx. rewrite !E by assumption. specialize (Fa z Hz). lia.
  - rewrite Forall_forall. intros y Hy. apply filter_In in Hy as [_ Hx]. rewrite negb_true_iff, Z.eqb_neq in Hx. cbn. rewrite eqb_refl. destruct (eqb_spec y x); [contradiction|lia].
Qed.
Lemma sorted_by_unique {A} (k : A -> nat) l : StronglySorted (fun x y => (k x < k y)%nat) l -> forall l', StronglySorted (fun x y => (k x < k y)%nat) l' -> (forall x, In x l <-> In x l') -> l = l'.
Proof.
  intros S. induction S as [|a l S IH Fa]; intros l' S' H.
  - destruct l' as [|b l']; auto. destruct (proj2 (H b) (or_introl eq_refl)).
  - destruct S' as [|b l' S' Fb]; [destruct (proj1 (H a) (or_introl eq_refl))|]. rewrite Forall_forall in Fa, Fb.
    assert (a = b). { destruct (proj1 (H a) (or_introl eq_refl)) as [|I]; auto. destruct (proj2 (H b) (or_introl eq_refl)) as [|J]; auto. specialize (Fa _ J). specialize (Fb _ I). lia. }
    subst b. f_equal. apply IH; auto. intros x. split; intros I.
    + destruct (proj1 (H x) (or_intror I)) as [E|]; auto. subst x. specialize (Fa _ I). lia.
    + destruct (proj2 (H x) (or_intror I)) as [E|]; auto. subst x. specialize (Fb _ I). lia.
Qed.
Lemma keep_first_NoDup l : NoDup (keep_first l).
Proof.
  pose proof (keep_first_sorted l) as S. induction S as [|a k S IH Fa]; constructor; auto. rewrite Forall_forall in Fa. intro H. specialize (Fa a H). lia.
Qed.
Lemma combine_map_key {A B C} (f : A -> B) (g : A -> C) l : combine (map f l) (map g l) = map (fun x => (f x, g x)) l.
Proof. induction l; cbn; congruence. Qed.
Lemma unique_stable_first l : unique_stable l = keep_first l.
Proof.
  apply (sorted_by_unique (fun x => first_index x l)); [|apply keep_first_sorted|].
  - unfold unique_stable, np_unique_index. rewrite map_map. pose proof (combine_map_key (fun x => Z.of_nat (first_index x l)) (fun x => x) (np_unique l)) as E. rewrite map_id in E. rewrite E. clear E.
    set (ps := map (fun x => (Z.of_nat (first_index x l), x)) (np_unique l)).
    assert (Q : forall p, In p (np_unique ps) -> fst p = Z.of_nat (first_index (snd p) l) /\ In (snd p) l).
    { intros p Hp. rewrite In_np_unique in Hp. unfold ps in Hp. apply in_map_iff in Hp as (x & <- & Hx). rewrite In_np_unique in Hx. auto. }
    pose proof (np_unique_sorted ps) as S. induction S as [|p k S IH Fa]; [constructor|]. cbn. constructor; [apply IH; intros; apply Q; right; assumption|].
    rewrite Forall_forall in *. intros y Hy. apply in_map_iff in Hy as (q & <- & Hq). specialize (Fa q Hq). destruct (Q p (or_introl eq_refl)) as [P1 P2]. destruct (Q q (or_intror Hq)) as [Q1 Q2].
    unfold Lto in Fa. cbn [cmp Ord_pair] in Fa. unfold lex in Fa. rewrite P1, Q1 in Fa. cbn [cmp Ord_Z] in Fa. destruct (Z.compare_spec (Z.of_nat (first_index (snd p) l)) (Z.of_nat (first_index (snd q) l))) as [E|E|E]; [|lia|discriminate].
    exfalso. assert (snd p = snd q) as E2. { pose proof (first_index_In _ _ P2) as A. pose proof (first_index_In _ _ Q2) as B. assert (first_index (snd p) l = first_index (snd q) l) as E3 by lia. rewrite E3 in A. congruence. }
    rewrite E2, Z.compare_refl in Fa. discriminate.
  - intro x. rewrite keep_first_In. unfold unique_stable, np_unique_index. rewrite map_map. pose proof (combine_map_key (fun x => Z.of_nat (first_index x l)) (fun x => x) (np_unique l)) as E. rewrite map_id in E. rewrite E. clear E.
    rewrite in_map_iff. split.
    + intros (p & <- & Hp). rewrite In_np_unique, in_map_iff in Hp. destruct Hp as (y & <- & Hy). rewrite In_np_unique in Hy. exact Hy.
    + intro H. exists (Z.of_nat (first_index x l), x). split; [reflexivity|]. apply In_np_unique, in_map_iff. exists x. split; [reflexivity|]. apply In_np_unique, H.
Qed.
Lemma npidx_in n i : 0 <= i < n -> npidx n i = Ok i.
Proof. intro H. unfold npidx. replace (0 <=? i) with true by (symmetry; apply Z.leb_le; lia). replace (i <? n) with true by (symmetry; apply Z.ltb_lt; lia). reflexivity. Qed.
Lemma mapr_ok {A B} (f : A -> res B) (P : A -> B -> Prop) l : (forall x, In x l -> exists y, f x = Ok y /\ P x y) -> exists r, mapr f l = Ok r /\ Forall2 P l r.
Proof.
  induction l as [|x l IH]; intro H; cbn; [exists []; auto|]. destruct (H x (or_introl eq_refl)) as (y & -> & Py). cbn [bind].
  destruct IH as (r & -> & Fr); [intros; apply H; right; assumption|]. cbn [bind]. exists (y :: r). auto.
Qed.
Lemma mapr_map {A B} (f : A -> res B) (g : A -> B) l : (forall x, In x l -> f x = Ok (g x)) -> mapr f l = Ok (map g l).
Proof. induction l as [|x l IH]; intro H; [reflexivity|]. cbn. rewrite (H x) by (left; reflexivity). cbn. rewrite IH by (intros; apply H; right; assumption). reflexivity. Qed.
Lemma at1_in {A} (a : list A) d i : 0 <= i < Z.of_nat (length a) -> at1 a i = Ok (nth (Z.to_nat i) a d).
Proof. intro H. unfold at1. rewrite npidx_in by exact H. cbn [bind]. rewrite (nth_error_nth' a d) by lia. reflexivity. Qed.
Lemma at3_in {A} (a : list A) d t : face_in (Z.of_nat (length a)) t ->
  at3 a t = Ok (nth (Z.to_nat (corner t 0)) a d, nth (Z.to_nat (corner t 1)) a d, nth (Z.to_nat (corner t 2)) a d).
Proof.
  intro H. pose proof (H 0%nat ltac:(lia)) as H0. pose proof (H 1%nat ltac:(lia)) as H1. pose proof (H 2%nat ltac:(lia)) as H2. destruct t as [[i j] k]. cbn in H0, H1, H2 |- *.
  rewrite (at1_in a d i H0), (at1_in a d j H1), (at1_in a d k H2). reflexivity.
Qed.

(** the average side length *)
Definition total_length (V : list vec3) (F : list (Z * Z * Z)) : R := fold_right Rplus 0%R (map (fun t => (side_length V t 0 + side_length V t 1 + side_length V t 2)%R) F).
Lemma fold_plus_app l l' : fold_right Rplus 0%R (l ++ l') = (fold_right Rplus 0%R l + fold_right Rplus 0%R l')%R.
Proof. induction l as [|x l IH]; cbn; [ring|]. rewrite IH. ring. Qed.
Lemma mean_length_ok V F : (forall t, In t F -> face_in (Z.of_nat (length V)) t) -> mean_length V F = Ok (total_length V F / INR (3 * length F))%R.
Proof.
  intro H. unfold mean_length. set (g := fun t => (nth (Z.to_nat (corner t 0)) V zero3, nth (Z.to_nat (corner t 1)) V zero3, nth (Z.to_nat (corner t 2)) V zero3)).
  rewrite (mapr_map _ g) by (intros t Ht; apply at3_in, H, Ht). cbn [bind]. do 2 f_equal.
  - unfold total_length. clear H. induction F as [|t F IH]; [reflexivity|]. cbn [map flat_map]. rewrite fold_plus_app, IH. cbn [fold_right]. f_equal. unfold side_length, g, tri_lengths. destruct t as [[i j] k]. cbn. ring.
  - do 2 f_equal. clear H. induction F as [|t F IH]; [reflexivity|]. cbn [map flat_map]. rewrite app_length, IH. cbn. lia.
Qed.

(** the new order of the vertices *)
Lemma filter_negb_ex (l ks : list Z) : filter (fun i => negb (existsb (Z.eqb i) ks)) l = filter (fun i => if in_dec Z.eq_dec i ks then false else true) l.
Proof.
  apply filter_ext. intro i. destruct (in_dec Z.eq_dec i ks) as [H|H].
  - replace (existsb (Z.eqb i) ks) with true; [reflexivity|]. symmetry. apply existsb_exists. exists i. split; [exact H|apply Z.eqb_refl].
  - replace (existsb (Z.eqb i) ks) with false; [reflexivity|]. symmetry. apply not_true_is_false. intro Q. apply existsb_exists in Q as (j & Hj & E). apply Z.eqb_eq in E. subst. contradiction.
Qed.
Definition others (n : nat) (ks : list Z) : list Z := filter (fun i => if in_dec Z.eq_dec i ks then false else true) (map Z.of_nat (seq 0 n)).
Lemma iota_In n z : In z (map Z.of_nat (seq 0 n)) <-> 0 <= z < Z.of_nat n.
Proof. rewrite in_map_iff. split; [intros (k & <- & Hk); apply in_seq in Hk; lia|]. intro H. exists (Z.to_nat z). split; [lia|]. apply in_seq. lia. Qed.
Lemma iota_sorted n : forall a, StronglySorted Z.lt (map Z.of_nat (seq a n)).
Proof. induction n as [|n IH]; intro a; cbn; constructor; [apply IH|]. rewrite Forall_forall. intros z Hz. apply in_map_iff in Hz as (k & <- & Hk). apply in_seq in Hk. lia. Qed.
Lemma filter_sorted {A} (r : A -> A -> Prop) p l : StronglySorted r l -> StronglySorted r (filter p l).
Proof.
  induction 1 as [|a l S IH Fa]; cbn; [constructor|]. destruct (p a); [|exact IH]. constructor; [exact IH|]. rewrite Forall_forall in *. intros x Hx. apply filter_In in Hx as [Hx _]. auto.
Qed.
Lemma others_In n ks z : In z (others n ks) <-> 0 <= z < Z.of_nat n /\ ~ In z ks.
Proof. unfold others. rewrite filter_In, iota_In. destruct (in_dec Z.eq_dec z ks); intuition; discriminate. Qed.
Lemma NoDup_app' {A} (l l' : list A) : NoDup l -> NoDup l' -> (forall x, In x l -> ~ In x l') -> NoDup (l ++ l').
Proof. induction l as [|x l IH]; intros N N' D; [exact N'|]. inversion N; subst. cbn. constructor; [rewrite in_app_iff; intros [Q|Q]; [contradiction|exact (D x (or_introl eq_refl) Q)]|]. apply IH; auto. intros y Hy. apply D. right. exact Hy. Qed.
Lemma order_perm n ks : NoDup ks -> (forall k, In k ks -> 0 <= k < Z.of_nat n) -> Permutation (ks ++ others n ks) (map Z.of_nat (seq 0 n)).
Proof.
  intros N H. apply NoDup_Permutation.
  - apply NoDup_app'; [exact N|apply sorted_lt_NoDup, filter_sorted, iota_sorted|]. intros x Hx Q. apply others_In in Q as [_ Q]. contradiction.
  - apply sorted_lt_NoDup, iota_sorted.
  - intro x. rewrite in_app_iff, others_In, iota_In. split; [intros [Q|[Q _]]; auto|]. intro Q. destruct (in_dec Z.eq_dec x ks); auto.
Qed.
(** the inverse of the order *)
Definition inv_of (order : list Z) (tmp : list Z) : Prop := length tmp = length order /\ forall v, In v order -> 0 <= v < Z.of_nat (length order) ->
  exists k, nth_error tmp (Z.to_nat v) = Some k /\ 0 <= k < Z.of_nat (length order) /\ nth_error order (Z.to_nat k) = Some v.
Lemma inverse_order_ok n order : Permutation order (map Z.of_nat (seq 0 n)) -> exists tmp, inverse_order n order = Ok tmp /\ inv_of order tmp.
Proof.
  intro P. assert (L : length order = n) by (rewrite (Permutation_length P), map_length, seq_length; reflexivity).
  assert (R : forall v, In v order -> 0 <= v < Z.of_nat n) by (intros v Hv; apply iota_In; eapply Permutation_in; eassumption).
  unfold inverse_order. rewrite (mapr_map _ (fun x => x)) by (intros x Hx; apply npidx_in, R, Hx). rewrite map_id. cbn [bind]. rewrite L, Nat.eqb_refl. eexists. split; [reflexivity|].
  split; [rewrite scatter_len, repeat_length; lia|]. intros v Hv Hr. apply In_nth_error in Hv as [k Hk]. assert (Hlt : (k < length order)%nat) by (apply nth_error_Some; rewrite Hk; discriminate).
  exists (Z.of_nat k). rewrite (scatter_in order (repeat 0 n) 0 k v).
  - repeat split; [lia|lia|]. rewrite Nat2Z.id. exact Hk.
  - apply (Permutation_NoDup (Permutation_sym P)), sorted_lt_NoDup, iota_sorted.
  - rewrite repeat_length. intros j Hj. apply R, Hj.
  - exact Hk.
Qed.

(** renaming the vertices does not separate half-edges *)
Definition tmap (g : Z -> Z) (t : tri) : tri := let '(a, b, c) := t in (g a, g b, g c).
Definition emap (g : Z -> Z) (e : Z * Z) : Z * Z := (g (fst e), g (snd e)).
Lemma all_sides_tmap g F : all_sides (map (tmap g) F) = map (emap g) (all_sides F).
Proof. induction F as [|[[a b] c] F IH]; [reflexivity|]. cbn [map all_sides flat_map sides tmap app]. unfold all_sides in IH. rewrite IH. reflexivity. Qed.
Lemma incidence_tmap g F e : (incidence F e <= incidence (map (tmap g) F) (emap g e))%nat.
Proof.
  unfold incidence. rewrite all_sides_tmap. induction (all_sides F) as [|s l IH]; [reflexivity|]. cbn [map filter].
  destruct (same_edgeb e s) eqn:E; [|destruct (same_edgeb (emap g e) (emap g s)); cbn [length]; lia].
  replace (same_edgeb (emap g e) (emap g s)) with true; [cbn [length]; lia|]. symmetry. unfold same_edgeb, emap in *. cbn [fst snd]. apply orb_true_iff in E as [E|E]; apply andb_true_iff in E as [E1 E2]; apply Z.eqb_eq in E1, E2; rewrite E1, E2, !Z.eqb_refl; cbn; auto using orb_true_r.
Qed.
Lemma face_corners F n : (forall t, In t F -> face_in n t) -> forall e, In e (all_sides F) -> 0 <= fst e < n /\ 0 <= snd e < n.
Proof.
  intros H e He. unfold all_sides in He. apply in_flat_map in He as (t & Ht & He). pose proof (H t Ht 0%nat ltac:(lia)) as H0. pose proof (H t Ht 1%nat ltac:(lia)) as H1. pose proof (H t Ht 2%nat ltac:(lia)) as H2.
  destruct t as [[a b] c]. cbn in H0, H1, H2, He. destruct He as [<-|[<-|[<-|[]]]]; cbn; lia.
Qed.
Lemma boundary_range F n bv : F <> [] -> (forall t, In t F -> face_in n t) -> boundary_vertices F = Some bv -> forall v, In v bv -> 0 <= v < n.
Proof.
  intros NE H E v Hv. destruct (C05_boundary_vertices F NE) as (L & EL & _ & HL). rewrite E in EL. injection EL as <-. apply HL in Hv as (e & He & _ & Hve). destruct (face_corners F n H e He). destruct Hve; subst; lia.
Qed.
Lemma nonmanifold_nil F : F <> [] -> (forall e, (incidence F e <= 2)%nat) -> non_manifold_edges F = Some [].
Proof.
  intros NE H. destruct (C06_non_manifold_edges F NE) as (L & EL & _ & HL). rewrite EL. destruct L as [|[a b] L]; [reflexivity|]. destruct (proj1 (HL a b) (or_introl eq_refl)) as [_ Q]. specialize (H (a, b)). lia.
Qed.
Lemma nonmanifold_cons F e : F <> [] -> (2 < incidence F e)%nat -> exists x l, non_manifold_edges F = Some (x :: l).
Proof.
  intros NE H. destruct (C06_non_manifold_edges F NE) as (L & EL & _ & HL). destruct L as [|x L]; [|exists x, L; exact EL]. exfalso. destruct e as [a b]. destruct (Z_le_dec a b) as [D|D].
  - apply (HL a b). auto.
  - apply (HL b a). split; [lia|]. replace (incidence F (b, a)) with (incidence F (a, b)); [exact H|]. unfold incidence. f_equal. apply filter_ext. intros [c d]. unfold same_edgeb. cbn. rewrite orb_comm. rewrite (andb_comm (b =? c)), (andb_comm (b =? d)). reflexivity.
Qed.

(** detected edges *)
Lemma In_combine_nth {A B} (l : list A) : forall (l' : list B) x y, In (x, y) (combine l l') <-> exists k, nth_error l k = Some x /\ nth_error l' k = Some y.
Proof.
  induction l as [|a l IH]; intros [|b l'] x y; cbn; try (split; [intros []|intros ([|k] & H & H'); discriminate]).
  rewrite IH. split.
  - intros [E|(k & H & H')]; [injection E as -> ->; exists 0%nat; auto|exists (S k); auto].
  - intros ([|k] & H & H'); [injection H as ->; injection H' as ->; auto|right; exists k; auto].
Qed.
Lemma sharp_sides_In th F theta e : In e (sharp_sides th F theta) <-> exists f t r i, nth_error F f = Some t /\ nth_error theta f = Some r /\ (i < 3)%nat /\ sharper th (row3 r i) = true /\ e = side_opp t i.
Proof.
  unfold sharp_sides. rewrite !in_app_iff, !in_map_iff. split.
  - intros [H|[H|H]]; destruct H as ([t r] & <- & H); apply filter_In in H as [H S]; apply In_combine_nth in H as (f & Hf & Hr); exists f, t, r; destruct t as [[a b] c]; cbn [fst snd] in S;
      [exists 0%nat|exists 1%nat|exists 2%nat]; (split; [exact Hf|split; [exact Hr|split; [lia|split; [exact S|reflexivity]]]]).
  - intros (f & t & r & i & Hf & Hr & Hi & S & ->). destruct i as [|[|[|i]]]; [left|right; left|right; right|lia]; exists (t, r); (split; [destruct t as [[a b] c]; reflexivity|]); apply filter_In; (split; [apply In_combine_nth; exists f; auto|exact S]).
Qed.
Lemma edec (x y : Z * Z) : {x = y} + {x <> y}. Proof. decide equality; apply Z.eq_dec. Qed.
Lemma all_sides_opp F e : In e (all_sides F) -> exists g s j, nth_error F g = Some s /\ (j < 3)%nat /\ e = side_opp s j.
Proof.
  intro H. unfold all_sides in H. apply in_flat_map in H as (s & Hs & He). apply In_nth_error in Hs as [g Hg]. exists g, s. destruct s as [[a b] c].
  destruct He as [<-|[<-|[<-|[]]]]; [exists 2%nat|exists 0%nat|exists 1%nat]; (split; [exact Hg|split; [lia|reflexivity]]).
Qed.
Definition Vfun (V : list vec3) : Z -> vec3 := fun i => match at1 V i with Ok v => v | Err _ => zero3 end.
Lemma fnormal_Vfun V t : face_in (Z.of_nat (length V)) t -> fnormal (Vfun V) t = fnormal (fun k => nth (Z.to_nat k) V zero3) t.
Proof.
  intro H. pose proof (H 0%nat ltac:(lia)) as H0. pose proof (H 1%nat ltac:(lia)) as H1. pose proof (H 2%nat ltac:(lia)) as H2. destruct t as [[i j] k]. cbn in H0, H1, H2. unfold fnormal, Vfun. cbn.
  rewrite (at1_in V zero3 i H0), (at1_in V zero3 j H1), (at1_in V zero3 k H2). reflexivity.
Qed.
Lemma sort2_same e : same_edge e (sort2 e) /\ fst (sort2 e) <= snd (sort2 e).
Proof. destruct e as [a b]. unfold sort2, same_edge. destruct (Z.ltb_spec b a); cbn; split; auto; lia. Qed.
Lemma sort2_eq e u v : u <= v -> same_edge e (u, v) -> sort2 e = (u, v).
Proof. destruct e as [a b]. unfold sort2, same_edge. cbn. intros L [[-> ->]|[-> ->]]; destruct (Z.ltb_spec v u), (Z.ltb_spec u v); f_equal; lia. Qed.
Lemma dihedral_total V F : F <> [] -> exists T, dihedral_angles V F = Ok T.
Proof.
  intro NE. unfold dihedral_angles, triangle_triangle_adjacency. destruct (halfedges F) as [he|] eqn:Eh; [|destruct F; [contradiction|discriminate]].
  destruct (C07_array_correspondence _ _ (flat_he he) (map flip (flat_he he))) as [A _]. destruct A as (mp & -> & _); [|eexists; reflexivity]. destruct (flat_he he); [right; reflexivity|left; discriminate].
Qed.
Lemma prepare_edges_ok V F fe detect deg : F <> [] -> (forall t, In t F -> face_in (Z.of_nat (length V)) t) -> (forall e, In e fe -> edge_in (Z.of_nat (length V)) e) ->
  exists E, prepare_edges V F fe detect deg = Ok E /\ (detect = false -> E = fe) /\
    (detect = true -> oriented_manifold F -> (forall t, In t F -> fnormal (fun k => nth (Z.to_nat k) V zero3) t <> zero3) ->
       NoDup E /\ forall u v, In (u, v) E <-> u <= v /\ ((exists e, In e fe /\ same_edge e (u, v)) \/ sharp_edge V F deg (u, v))) /\
    forall e, In e E -> edge_in (Z.of_nat (length V)) e.
Proof.
  intros NE HF HE. unfold prepare_edges. destruct detect; [|exists fe; split; [reflexivity|split; [reflexivity|split; [discriminate|exact HE]]]].
  rewrite (mapr_map _ (fun t => (nth (Z.to_nat (corner t 0)) V zero3, nth (Z.to_nat (corner t 1)) V zero3, nth (Z.to_nat (corner t 2)) V zero3))) by (intros t Ht; apply at3_in, HF, Ht). cbn [bind].
  fold (Vfun V). destruct (dihedral_total (Vfun V) F NE) as (T & ET). rewrite ET. cbn [bind]. set (th := (deg * PI / 180)%R). set (E := np_unique (map sort2 (fe ++ sharp_sides th F T))).
  exists E. split; [reflexivity|]. split; [discriminate|]. split.
  - intros _ OM ND. split; [apply np_unique_NoDup|]. intros u v. unfold E. rewrite In_np_unique, in_map_iff.
    assert (ND' : forall t, In t F -> fnormal (Vfun V) t <> zero3) by (intros t Ht; rewrite fnormal_Vfun by (apply HF, Ht); apply ND, Ht).
    destruct (C67_dihedral (Vfun V) F NE OM ND') as (T' & ET' & LT & HT). rewrite ET in ET'. injection ET' as <-.
    assert (NN : forall f t u, nth_error F f = Some t -> nth_error (per_face_normals3 (Vfun V) F true) f = Some (Some u) -> u = unit3 (fnormal (fun k => nth (Z.to_nat k) V zero3) t)).
    { intros f t x Hf Hx. unfold per_face_normals3 in Hx. rewrite nth_error_map, Hf in Hx. cbn [option_map] in Hx. assert (In t F) as Ht by (eapply nth_error_In; exact Hf). destruct (normalize3_some _ (ND' t Ht)) as [Q _]. injection Hx as Hx.
      change (normalize3 (fnormal (Vfun V) t) = Some x) in Hx. rewrite Q in Hx. injection Hx as <-. rewrite fnormal_Vfun by (apply HF, Ht). reflexivity. }
    assert (SH : forall e, In e (sharp_sides th F T) -> forall e', same_edge e e' -> sharp_edge V F deg e').
    { intros e He e' Se. apply sharp_sides_In in He as (f & t & r & i & Hf & Hr & Hi & S & ->). destruct (HT f t i r Hf Hi Hr) as [N Y].
      destruct (in_dec edec (rev_edge (side_opp t i)) (all_sides F)) as [B|B]; [|rewrite (N B) in S; discriminate].
      apply all_sides_opp in B as (g & s & j & Hg & Hj & Q). destruct (Y g s j Hg Hj (eq_sym Q)) as (x & u0 & w & q & Rx & Nu & Nw & Bx & Cx & _). rewrite Rx in S. cbn in S. destruct (Rlt_dec th x) as [Lx|]; [|discriminate].
      exists t, s, i, j, x. repeat split; try assumption; [eapply nth_error_In; exact Hf|eapply nth_error_In; exact Hg|symmetry; exact Q|apply Bx|apply Bx|]. rewrite <- (NN f t u0 Hf Nu), <- (NN g s w Hg Nw). exact Cx. }
    assert (HS : forall e', sharp_edge V F deg e' -> exists e, In e (sharp_sides th F T) /\ same_edge e e').
    { intros e' (t & s & i & j & x & Ht & Hs & Hi & Hj & Q & Se & Bx & Cx & Lx). apply In_nth_error in Ht as [f Hf]. apply In_nth_error in Hs as [g Hg]. assert (Hlt : (f < length T)%nat) by (rewrite LT; apply nth_error_Some; rewrite Hf; discriminate).
      destruct (nth_error T f) as [r|] eqn:Hr; [|apply nth_error_None in Hr; lia]. destruct (HT f t i r Hf Hi Hr) as [_ Y]. destruct (Y g s j Hg Hj Q) as (x' & u0 & w & q & Rx & Nu & Nw & Bx' & Cx' & _).
      assert (x' = x) as ->. { rewrite <- (acos_cos x Bx), <- (acos_cos x' Bx'). f_equal. rewrite Cx, Cx'. rewrite (NN f t u0 Hf Nu), (NN g s w Hg Nw). reflexivity. }
      exists (side_opp t i). split; [|exact Se]. apply sharp_sides_In. exists f, t, r, i. repeat split; try assumption. rewrite Rx. cbn. destruct (Rlt_dec th x); [reflexivity|contradiction]. }
    split.
    + intros (e & Ee & He). destruct (sort2_same e) as [S1 S2]. rewrite Ee in S1, S2. split; [exact S2|]. apply in_app_iff in He as [He|He]; [left; exists e; auto|right; apply (SH e He), S1].
    + intros [L [(e & He & Se)|Hs]]; [exists e|destruct (HS _ Hs) as (e & He & Se); exists e]; (split; [apply sort2_eq; assumption|apply in_app_iff; auto]).
  - intros e He. unfold E in He. rewrite In_np_unique in He. apply in_map_iff in He as (e0 & <- & He).
    assert (Q : edge_in (Z.of_nat (length V)) e0).
    { apply in_app_iff in He as [He|He]; [apply HE, He|]. apply sharp_sides_In in He as (f & t & r & i & Hf & _ & Hi & _ & ->). assert (Ht : In t F) by (eapply nth_error_In; exact Hf).
      pose proof (HF t Ht 0%nat ltac:(lia)). pose proof (HF t Ht 1%nat ltac:(lia)). pose proof (HF t Ht 2%nat ltac:(lia)). destruct t as [[a b] c]. destruct i as [|[|[|i]]]; [| | |lia]; split; cbn in *; lia. }
    destruct e0 as [a b]. unfold edge_in, sort2 in *. destruct (b <? a); cbn in *; lia.
Qed.

(** ** C77: the mesh handed to the remesher is the input mesh, renumbered with the frozen vertices first *)
Definition renumbered (order : list Z) (old new : Z) : Prop := 0 <= new /\ nth_error order (Z.to_nat new) = Some old.
(** the vertices that must stay: the user's, in the order given, then the boundary in increasing order; each once *)
Definition frozen (feature bv : list Z) : list Z := keep_first (feature ++ bv).
Lemma core (V : list vec3) (F : list tri) (feature : list Z) (fe : list (Z * Z)) (bv : list Z) n : n = Z.of_nat (length V) -> F <> [] -> (forall t, In t F -> face_in n t) -> (forall v, In v feature -> 0 <= v < n) -> (forall e, In e fe -> edge_in n e) -> (forall v, In v bv -> 0 <= v < n) ->
  exists (V' : list vec3) (F' : list tri) (fe' : list (Z * Z)) (order : list Z),
    (match feature ++ bv with
     | [] => Ok (V, F, fe, [])
     | _ => do rest <- np_delete (length V) (unique_stable (feature ++ bv));
            do tmp <- inverse_order (length V) (unique_stable (feature ++ bv) ++ rest);
            do V' <- mapr (at1 V) (unique_stable (feature ++ bv) ++ rest);
            do F' <- mapr (at3 tmp) F; do fe' <- mapr (at2 tmp) fe;
            Ok (V', F', fe', firstn (length (unique_stable (feature ++ bv))) (map Z.of_nat (seq 0 (length V))))
     end) = Ok (V', F', fe', map Z.of_nat (seq 0 (length (frozen feature bv)))) /\
    order = frozen feature bv ++ others (length V) (frozen feature bv) /\ Permutation order (map Z.of_nat (seq 0 (length V))) /\
    Forall2 (fun v x => nth_error V (Z.to_nat v) = Some x) order V' /\
    Forall2 (fun t t' => forall c, (c < 3)%nat -> renumbered order (corner t c) (corner t' c)) F F' /\
    Forall2 (fun e e' => renumbered order (fst e) (fst e') /\ renumbered order (snd e) (snd e')) fe fe' /\ (exists g, F' = map (tmap g) F) /\ (exists g, F = map (tmap g) F').
Proof.
  intros En NE HF HV HE HB. set (ks := frozen feature bv). set (order := ks ++ others (length V) ks).
  assert (HK : forall k, In k ks -> 0 <= k < Z.of_nat (length V)) by (intros k Hk; unfold ks, frozen in Hk; apply keep_first_In, in_app_iff in Hk as [Hk|Hk]; [apply HV in Hk|apply HB in Hk]; lia).
  assert (PO : Permutation order (map Z.of_nat (seq 0 (length V)))) by (apply order_perm; [apply keep_first_NoDup|exact HK]).
  assert (LO : length order = length V) by (rewrite (Permutation_length PO), map_length, seq_length; reflexivity).
  assert (RO : forall v, 0 <= v < n -> In v order) by (intros v Hv; apply (Permutation_in _ (Permutation_sym PO)), iota_In; lia).
  assert (LK : (length ks <= length V)%nat) by (rewrite <- LO; unfold order; rewrite app_length; lia).
  destruct (feature ++ bv) as [|x0 l0] eqn:Ef.
  - assert (K0 : ks = []) by (unfold ks, frozen; rewrite Ef; reflexivity).
    assert (O0 : order = map Z.of_nat (seq 0 (length V))). { unfold order. rewrite K0. cbn [app]. unfold others. rewrite (filter_ext _ (fun _ => true)) by (intro; destruct in_dec; [contradiction|reflexivity]). clear. induction (map Z.of_nat (seq 0 (length V))) as [|a l IH]; cbn; [reflexivity|congruence]. }
    assert (RN : forall v, 0 <= v < n -> renumbered order v v). { intros v Hv. split; [lia|]. rewrite O0, nth_error_map. rewrite (nth_error_nth' _ 0%nat) by (rewrite seq_length; lia). rewrite seq_nth by lia. cbn. f_equal. lia. }
    exists V, F, fe, order. rewrite K0. split; [reflexivity|]. split; [unfold order; rewrite K0; reflexivity|]. split; [exact PO|]. split.
    { rewrite O0. clear. assert (Q : forall (l : list vec3) a (f : nat -> option vec3), (forall k, nth_error l k = f (a + k)%nat) -> Forall2 (fun v x => f (Z.to_nat v) = Some x) (map Z.of_nat (seq a (length l))) l).
      { induction l as [|x l IH]; intros a f H; [constructor|]; cbn; constructor; [rewrite Nat2Z.id; specialize (H 0%nat); rewrite Nat.add_0_r in H; symmetry; exact H|]. apply IH. intro k. specialize (H (S k)). cbn in H. rewrite H. f_equal. lia. }
      apply (Q V 0%nat (fun k => nth_error V k)). reflexivity. }
    split; [clear -HF RN En; induction F as [|t F IH]; [constructor|]; constructor; [intros c Hc; apply RN, HF; [left; reflexivity|exact Hc]|apply IH; intros t0 Ht0; apply HF; right; exact Ht0]|].
    split; [clear -HE RN; induction fe as [|e fe IH]; [constructor|]; constructor; [split; apply RN; apply (HE e (or_introl eq_refl))|apply IH; intros; apply HE; right; assumption]|].
    split; exists (fun x => x); rewrite <- (map_id F) at 1; apply map_ext; intros [[a b] c]; reflexivity.
  - rewrite unique_stable_first. rewrite <- Ef. fold (frozen feature bv). fold ks. unfold np_delete. rewrite (mapr_map _ (fun x => x)) by (intros k Hk; apply npidx_in, HK, Hk). rewrite map_id. cbn [bind]. rewrite filter_negb_ex. fold (others (length V) ks). fold order.
    destruct (inverse_order_ok (length V) order PO) as (tmp & -> & LT & IT). cbn [bind]. rewrite LO in LT, IT.
    destruct (mapr_ok (at1 V) (fun v x => nth_error V (Z.to_nat v) = Some x) order) as (V' & -> & FV).
    { intros v Hv. assert (0 <= v < Z.of_nat (length V)) by (apply iota_In; eapply Permutation_in; eassumption). exists (nth (Z.to_nat v) V zero3). split; [apply at1_in; assumption|apply nth_error_nth'; lia]. }
    cbn [bind]. set (g := fun v => nth (Z.to_nat v) tmp 0). rewrite (mapr_map (at3 tmp) (tmap g)).
    2: { intros t Ht. rewrite (at3_in tmp 0) by (rewrite LT, <- En; apply HF, Ht). destruct t as [[a b] c]. reflexivity. }
    cbn [bind]. rewrite (mapr_map (at2 tmp) (emap g)).
    2: { intros e He. destruct (HE e He) as [E1 E2]. unfold at2. rewrite (at1_in tmp 0 (fst e)), (at1_in tmp 0 (snd e)) by (rewrite LT, <- En; assumption). reflexivity. }
    cbn [bind]. assert (RN : forall v, 0 <= v < n -> renumbered order v (g v)).
    { intros v Hv. destruct (IT v (RO v Hv) ltac:(lia)) as (k & Hk & Bk & Ok_). unfold g. rewrite (nth_error_nth _ _ _ Hk). split; [lia|exact Ok_]. }
    exists V', (map (tmap g) F), (map (emap g) fe), order. split; [|split; [reflexivity|split; [exact PO|split; [exact FV|split; [|split; [|split]]]]]].
    + do 2 f_equal. f_equal. clear -LK. revert LK. generalize (length ks) as k. generalize (length V) as m. intros m k H. replace m with (k + (m - k))%nat by lia. rewrite seq_app, map_app, firstn_app, map_length, seq_length, Nat.sub_diag, firstn_O, app_nil_r. rewrite <- (map_length Z.of_nat (seq 0 k)) at 1 || idtac. apply firstn_all2. rewrite map_length, seq_length. lia.
    + clear -HF RN. induction F as [|t F IH]; cbn [map]; [constructor|]; constructor; [|apply IH; intros t0 Ht0; apply HF; right; exact Ht0]. intros c Hc. pose proof (HF t (or_introl eq_refl) c Hc) as Q. apply RN in Q. destruct t as [[x y] z]. destruct c as [|[|[|c]]]; [exact Q|exact Q|exact Q|lia].
    + clear -HE RN. induction fe as [|e fe IH]; cbn [map]; [constructor|]; constructor; [split; apply RN; apply (HE e (or_introl eq_refl))|apply IH; intros; apply HE; right; assumption].
    + exists g. reflexivity.
    + exists (fun k => nth (Z.to_nat k) order 0). rewrite map_map. rewrite <- (map_id F) at 1. apply map_ext_in. intros t Ht.
      assert (Q : forall v, 0 <= v < n -> nth (Z.to_nat (g v)) order 0 = v) by (intros v Hv; destruct (RN v Hv) as [_ Q]; apply (nth_error_nth _ _ _ Q)).
      pose proof (HF t Ht 0%nat ltac:(lia)) as H0. pose proof (HF t Ht 1%nat ltac:(lia)) as H1. pose proof (HF t Ht 2%nat ltac:(lia)) as H2. destruct t as [[a b] c]. cbn in H0, H1, H2 |- *. rewrite !Q by assumption. reflexivity.
Qed.

Theorem C77_arguments : forall V F i h project feature fe detect deg, let n := Z.of_nat (length V) in
  F <> [] -> (forall t, In t F -> face_in n t) -> (forall v, In v feature -> 0 <= v < n) -> (forall e, In e fe -> edge_in n e) -> (forall e, (incidence F e <= 2)%nat) ->
  exists a bv E order,
    (forall (mesh : Type) (cpp : rargs -> mesh), remesh_botsch cpp V F i h project feature fe detect deg = Ok (cpp a)) /\
    riter a = i /\ rproj a = project /\ rh a = match h with Some h => h | None => (total_length V F / INR (3 * length F))%R end /\
    (* the new order of the vertices: frozen ones first, the others in their old order *)
    StronglySorted Z.lt bv /\ (forall v, In v bv <-> boundary_vertex F v) /\ order = frozen feature bv ++ others (length V) (frozen feature bv) /\ Permutation order (map Z.of_nat (seq 0 (length V))) /\
    Forall2 (fun v x => nth_error V (Z.to_nat v) = Some x) order (rV a) /\
    Forall2 (fun t t' => forall c, (c < 3)%nat -> renumbered order (corner t c) (corner t' c)) F (rF a) /\
    rfeat a = map Z.of_nat (seq 0 (length (frozen feature bv))) /\
    (* the feature edges, renumbered *)
    Forall2 (fun e e' => renumbered order (fst e) (fst e') /\ renumbered order (snd e) (snd e')) E (redges a) /\ (detect = false -> E = fe) /\
    (detect = true -> oriented_manifold F -> (forall t, In t F -> fnormal (fun k => nth (Z.to_nat k) V zero3) t <> zero3) ->
       NoDup E /\ forall u v, In (u, v) E <-> u <= v /\ ((exists e, In e fe /\ same_edge e (u, v)) \/ sharp_edge V F deg (u, v))).
Proof.
  intros V F i h project feature fe detect deg n NE HF HV HE HM. destruct (prepare_edges_ok V F fe detect deg NE HF HE) as (E & EE & E1 & E2 & E3).
  destruct (C05_boundary_vertices F NE) as (bv & EB & SB & HB). pose proof (boundary_range F n bv NE HF EB) as RB.
  destruct (core V F feature E bv n eq_refl NE HF HV E3 RB) as (V' & F' & fe' & order & EC & EO & PO & FV & FF & FE & (g & EG) & (g' & EG')).
  assert (NM : non_manifold_edges F' = Some []).
  { apply nonmanifold_nil; [rewrite EG; destruct F; [contradiction|discriminate]|]. intro e. pose proof (incidence_tmap g' F' e) as Q. rewrite <- EG' in Q. specialize (HM (emap g' e)). lia. }
  exists {| rV := V'; rF := F'; riter := i; rh := match h with Some h => h | None => (total_length V F / INR (3 * length F))%R end; rfeat := map Z.of_nat (seq 0 (length (frozen feature bv))); redges := fe'; rproj := project |}, bv, E, order.
  split. { intros mesh cpp. unfold remesh_botsch, remesh_args. assert (Q : match h with Some h => Ok h | None => mean_length V F end = Ok match h with Some h => h | None => (total_length V F / INR (3 * length F))%R end) by (destruct h; [reflexivity|apply mean_length_ok, HF]).
    rewrite Q. cbn [bind]. rewrite EE. cbn [bind]. rewrite EB. cbn [lift bind]. rewrite EC. cbn [bind]. rewrite NM. reflexivity. }
  split; [reflexivity|]. split; [reflexivity|]. split; [reflexivity|]. split; [exact SB|]. split; [exact HB|]. split; [exact EO|]. split; [exact PO|]. split; [exact FV|]. split; [exact FF|]. split; [reflexivity|]. split; [exact FE|]. split; [exact E1|exact E2].
Qed.

Definition wrap (n i : Z) : Z := if i <? 0 then i + n else i.
Lemma npidx_wrap n i : - n <= i < n -> npidx n i = Ok (wrap n i) /\ 0 <= wrap n i < n.
Proof.
  intro H. unfold npidx, wrap. destruct (Z.ltb_spec i 0) as [L|L].
  - replace (0 <=? i) with false by (symmetry; apply Z.leb_gt; lia). cbn [andb]. replace (- n <=? i) with true by (symmetry; apply Z.leb_le; lia). split; [reflexivity|lia].
  - replace (0 <=? i) with true by (symmetry; apply Z.leb_le; lia). replace (i <? n) with true by (symmetry; apply Z.ltb_lt; lia). split; [reflexivity|lia].
Qed.
Lemma npidx_out n i : i < - n \/ n <= i -> npidx n i = Err IndexError.
Proof.
  intro H. unfold npidx. destruct (Z.leb_spec 0 i), (Z.ltb_spec i n), (Z.leb_spec (- n) i), (Z.ltb_spec i 0); cbn; try reflexivity; lia.
Qed.
Lemma mapr_npidx_out n l v : In v l -> v < - n \/ n <= v -> mapr (npidx n) l = Err IndexError.
Proof.
  intros H O. induction l as [|x l IH]; [destruct H|]. cbn. destruct (Z_lt_dec x (- n)) as [D|D]; [rewrite npidx_out by lia; reflexivity|]. destruct (Z_le_dec n x) as [D'|D']; [rewrite npidx_out by lia; reflexivity|].
  destruct (npidx_wrap n x ltac:(lia)) as [-> _]. cbn [bind]. destruct H as [->|H]; [lia|]. rewrite IH by exact H. reflexivity.
Qed.
Lemma NoDup_map_inj {A B} (f : A -> B) l x y : NoDup (map f l) -> In x l -> In y l -> f x = f y -> x = y.
Proof.
  induction l as [|a l IH]; intros N Hx Hy E; [destruct Hx|]. cbn in N. inversion N as [|? ? NI N']; subst. destruct Hx as [->|Hx], Hy as [->|Hy]; auto.
  - exfalso. apply NI. rewrite E. apply in_map, Hy.
  - exfalso. apply NI. rewrite <- E. apply in_map, Hx.
Qed.

(** ** C77: what is rejected, and what is not *)
Theorem C77_errors : forall (mesh : Type) (cpp : rargs -> mesh) V F i h project feature fe detect deg, let n := Z.of_nat (length V) in
  (* an edge in three or more faces *)
  (F <> [] -> (forall t, In t F -> face_in n t) -> (forall v, In v feature -> 0 <= v < n) -> (forall e, In e fe -> edge_in n e) -> (exists e, (2 < incidence F e)%nat) ->
     remesh_botsch cpp V F i h project feature fe detect deg = Err ValueError) /\
  (* a feature that is no vertex *)
  (F <> [] -> (forall t, In t F -> face_in n t) -> (exists v, In v feature /\ (v < - n \/ n <= v)) -> remesh_botsch cpp V F i h project feature fe false deg = Err IndexError) /\
  (* one vertex named twice, once from the end *)
  (F <> [] -> (forall t, In t F -> face_in n t) -> (forall v, In v feature -> - n <= v < n) -> (exists v, In v feature /\ v < 0 /\ (In (v + n) feature \/ boundary_vertex F (v + n))) ->
     remesh_botsch cpp V F i h project feature fe false deg = Err ValueError) /\
  (* no faces *)
  (forall h, remesh_botsch cpp V [] i (Some h) project feature fe detect deg = Err AssertionError) /\
  (* on a closed mesh without features the feature edges are passed on unchecked *)
  (F <> [] -> (forall e, (incidence F e <= 2)%nat) -> (forall v, ~ boundary_vertex F v) -> forall h, exists a, remesh_botsch cpp V F i (Some h) project [] fe false deg = Ok (cpp a) /\ redges a = fe).
Proof.
  intros mesh cpp V F i h project feature fe detect deg n. split; [|split; [|split; [|split]]].
  - intros NE HF HV HE [e He]. destruct (prepare_edges_ok V F fe detect deg NE HF HE) as (E & EE & E1 & E2 & E3).
    destruct (C05_boundary_vertices F NE) as (bv & EB & SB & HB). pose proof (boundary_range F n bv NE HF EB) as RB.
    destruct (core V F feature E bv n eq_refl NE HF HV E3 RB) as (V' & F' & fe' & order & EC & EO & PO & FV & FF & FE & (g & EG) & (g' & EG')).
    destruct (nonmanifold_cons F' (emap g e)) as (x & l & EL); [rewrite EG; destruct F; [contradiction|discriminate]| |].
    { pose proof (incidence_tmap g F e) as Q. rewrite <- EG in Q. lia. }
    unfold remesh_botsch, remesh_args. assert (Q : match h with Some h => Ok h | None => mean_length V F end = Ok match h with Some h => h | None => (total_length V F / INR (3 * length F))%R end) by (destruct h; [reflexivity|apply mean_length_ok, HF]).
    rewrite Q. cbn [bind]. rewrite EE. cbn [bind]. rewrite EB. cbn [lift bind]. rewrite EC. cbn [bind]. rewrite EL. reflexivity.
  - intros NE HF (v & Hv & Ov). unfold remesh_botsch, remesh_args. assert (Q : match h with Some h => Ok h | None => mean_length V F end = Ok match h with Some h => h | None => (total_length V F / INR (3 * length F))%R end) by (destruct h; [reflexivity|apply mean_length_ok, HF]).
    rewrite Q. cbn [bind prepare_edges]. destruct (C05_boundary_vertices F NE) as (bv & EB & _). rewrite EB. cbn [lift bind]. destruct feature as [|f0 feature']; [destruct Hv|]. cbn [app]. set (l := f0 :: feature' ++ bv) in *.
    unfold np_delete. rewrite unique_stable_first. rewrite (mapr_npidx_out _ _ v); [reflexivity| |exact Ov]. apply keep_first_In. change l with ((f0 :: feature') ++ bv). apply in_app_iff. auto.
  - intros NE HF HV (v & Hv & Nv & Tv). unfold remesh_botsch, remesh_args. assert (Q : match h with Some h => Ok h | None => mean_length V F end = Ok match h with Some h => h | None => (total_length V F / INR (3 * length F))%R end) by (destruct h; [reflexivity|apply mean_length_ok, HF]).
    rewrite Q. cbn [bind prepare_edges]. destruct (C05_boundary_vertices F NE) as (bv & EB & _ & HB). pose proof (boundary_range F n bv NE HF EB) as RB. rewrite EB. cbn [lift bind].
    assert (In (v + n) (feature ++ bv)) as Tv' by (apply in_app_iff; destruct Tv as [|Tv]; [auto|right; apply HB, Tv]). assert (In v (feature ++ bv)) as Hv' by (apply in_app_iff; auto).
    assert (RA : forall z, In z (feature ++ bv) -> - n <= z < n) by (intros z Hz; apply in_app_iff in Hz as [Hz|Hz]; [apply HV, Hz|apply RB in Hz; lia]).
    destruct (feature ++ bv) as [|x0 l0] eqn:El; [destruct Hv'|]. rewrite unique_stable_first. set (ks := keep_first (x0 :: l0)) in *. assert (HK : forall z, In z ks -> - n <= z < n) by (intros z Hz; apply RA, keep_first_In, Hz).
    unfold np_delete. fold n. rewrite (mapr_map _ (wrap n)) by (intros z Hz; apply npidx_wrap, HK, Hz). cbn [bind]. rewrite filter_negb_ex. fold (others (length V) (map (wrap n) ks)). set (order := ks ++ others (length V) (map (wrap n) ks)).
    unfold inverse_order. fold n. assert (HO : forall z, In z order -> - n <= z < n) by (intros z Hz; apply in_app_iff in Hz as [Hz|Hz]; [apply HK, Hz|apply others_In in Hz; lia]).
    rewrite (mapr_map _ (wrap n)) by (intros z Hz; apply npidx_wrap, HO, Hz). cbn [bind]. destruct (Nat.eqb_spec (length order) (length V)) as [L|L]; [exfalso|reflexivity].
    assert (N : NoDup (map (wrap n) order)).
    { apply (NoDup_incl_NoDup (l := map Z.of_nat (seq 0 (length V)))); [apply sorted_lt_NoDup, iota_sorted|rewrite !map_length, seq_length; lia|]. intros z Hz. apply iota_In in Hz. unfold order. rewrite map_app, in_app_iff.
      destruct (in_dec Z.eq_dec z (map (wrap n) ks)) as [|NI]; [auto|]. right. apply in_map_iff. exists z. split; [unfold wrap; destruct (Z.ltb_spec z 0); [lia|reflexivity]|]. apply others_In. auto. }
    assert (I1 : In v order) by (apply in_app_iff; left; apply (proj2 (keep_first_In (x0 :: l0) v)), Hv'). assert (I2 : In (v + n) order) by (apply in_app_iff; left; apply (proj2 (keep_first_In (x0 :: l0) (v + n))), Tv').
    assert (v = v + n) as E; [|pose proof (RA v Hv'); lia]. apply (NoDup_map_inj _ _ _ _ N I1 I2). pose proof (RA (v + n) Tv'). pose proof (RA v Hv'). unfold wrap. destruct (Z.ltb_spec v 0), (Z.ltb_spec (v + n) 0); lia.
  - intro h0. unfold remesh_botsch, remesh_args. cbn [bind]. destruct detect; reflexivity.
  - intros NE HM HB h0. destruct (C05_boundary_vertices F NE) as (bv & EB & SB & HBv). assert (bv = []) as ->. { destruct bv as [|v bv]; [reflexivity|]. destruct (HB v). apply HBv. left. reflexivity. }
    unfold remesh_botsch, remesh_args. cbn [bind prepare_edges]. rewrite EB. cbn [lift bind app]. rewrite (nonmanifold_nil F NE HM). cbn [lift bind]. eexists. split; reflexivity.
Qed.

(** a strip of two triangles with a third vertex pinned, folded by a right angle: the hypotheses hold and the fold is found *)
Theorem C77_example : let V := [(0, 0, 0); (1, 0, 0); (0, 1, 0); (0, 0, 1)]%R in let F := [(0, 1, 2); (1, 0, 3)] in
  (forall t, In t F -> face_in (Z.of_nat (length V)) t) /\ (forall e, (incidence F e <= 2)%nat) /\ oriented_manifold F /\ (forall t, In t F -> fnormal (fun k => nth (Z.to_nat k) V zero3) t <> zero3) /\
  frozen [2] [0; 1; 2; 3] = [2; 0; 1; 3] /\ (forall v, In v [0; 1; 2; 3] <-> boundary_vertex F v) /\ sharp_edge V F 45 (0, 1).
Proof.
  intros V F. assert (BV : boundary_vertices F = Some [0; 1; 2; 3]) by (vm_compute; reflexivity). assert (NE : F <> []) by discriminate. split; [|split; [|split; [|split; [|split; [|split]]]]].
  - intros t [<-|[<-|[]]] c Hc; destruct c as [|[|[|c]]]; cbn; lia.
  - intro e. destruct (le_lt_dec (incidence F e) 2) as [|L]; [assumption|]. exfalso. destruct (nonmanifold_cons F e NE L) as (x & l & Q). vm_compute in Q. discriminate.
  - unfold oriented_manifold. cbn. repeat (constructor; [cbn; intuition congruence|]). constructor.
  - intros t [<-|[<-|[]]] Q; unfold fnormal, V, cross3, sub3, zero3, X, Y, Zc in Q; cbn in Q; injection Q; intros; lra.
  - reflexivity.
  - destruct (C05_boundary_vertices F NE) as (L & EL & _ & HL). rewrite BV in EL. injection EL as <-. exact HL.
  - exists (0, 1, 2), (1, 0, 3), 2%nat, 2%nat, (PI / 2)%R. pose proof PI_RGT_0 as PP. repeat split; try (cbn; auto; lia); try lra; [left; split; reflexivity|]. rewrite cos_PI2.
    unfold unit3. match goal with |- _ = dot3 (scal3 ?p _) (scal3 ?q _) => generalize p; generalize q end. intros p q. unfold fnormal, V, scal3, cross3, sub3, dot3, X, Y, Zc. cbn. change (Pos.to_nat 1) with 1%nat. change (Pos.to_nat 2) with 2%nat. change (Pos.to_nat 3) with 3%nat. cbn. ring.
Qed.
Print Assumptions C77_arguments.
