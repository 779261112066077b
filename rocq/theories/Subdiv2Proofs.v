From Verif Require Import NumpyModel NumpyProofs PyExn TopoModel TopoSpec TopoProofs HemProofs MatModel MatProofs Vec GeomSpec SubdivModel SubdivSpec SubdivProofs.
From Coq Require Import Permutation Psatz.
Open Scope Z_scope.

(** midpoint numbering used by the code *)
Definition midx (n : Z) (E : list edge) (e : edge) : Z := n + Z.of_nat (eidx E e).

Lemma side_in_sides F f i t : nth_error F f = Some t -> (i < 3)%nat -> In (side_opp t i) (all_sides F).
Proof.
  intros Hf Hi. apply nth_error_In in Hf. destruct t as [[a b] c]. destruct (sides_in F _ Hf) as (S1 & S2 & S3).
  destruct i as [|[|[|i]]]; cbn; auto; lia.
Qed.
Lemma incidence_side F e : In e (all_sides F) -> (0 < incidence F e)%nat.
Proof.
  intros I. unfold incidence. assert (J : In e (filter (same_edgeb e) (all_sides F))).
  { apply filter_In. split; auto. apply same_edgeb_iff, same_edge_refl. }
  destruct (filter _ _); [destruct J|cbn; lia].
Qed.
Section H.
  Variables (F : list tri) (E : list edge) (h2e : table) (e2h : list ((Z*Z)*(Z*Z))) (n : Z).
  Hypothesis HR : HemResult F E h2e e2h.
  Lemma eidx_side e : In e (all_sides F) -> exists e', nth_error E (eidx E e) = Some e' /\ same_edge e e'.
  Proof. intros I. apply eidx_spec. destruct HR as (H & _). apply H, incidence_side, I. Qed.
  Lemma h2e_eidx f i t : nth_error F f = Some t -> (i < 3)%nat -> h2e (Z.of_nat f) (Z.of_nat i) = Z.of_nat (eidx E (side_opp t i)).
  Proof.
    intros Hf Hi. destruct (eidx_side (side_opp t i) (side_in_sides F f i t Hf Hi)) as (e' & He & Se).
    destruct HR as (_ & U & _ & H4 & _). destruct (H4 f i t Hf Hi) as (k & e & h0 & h1 & -> & Hk & Sk & _).
    f_equal. eapply U; eauto. eapply same_edge_trans; eauto.
  Qed.
  Lemma midx_inj e f : In e (all_sides F) -> In f (all_sides F) -> (midx n E e = midx n E f <-> same_edge e f).
  Proof.
    intros Ie If. destruct (eidx_side e Ie) as (e' & He & Se). destruct (eidx_side f If) as (f' & Hf & Sf). unfold midx. split.
    - intros Q. assert (eidx E e = eidx E f) as Q' by lia. rewrite Q', Hf in He. injection He as ->.
      eapply same_edge_trans; [exact Se|]. apply same_edge_sym; auto.
    - intros S. f_equal. f_equal. destruct HR as (_ & U & _). eapply U; eauto.
      eapply same_edge_trans; [apply same_edge_sym; eauto|]. eapply same_edge_trans; eauto.
  Qed.
  Lemma midx_range e : In e (all_sides F) -> n <= midx n E e < n + Z.of_nat (length E).
  Proof. intros I. destruct (eidx_side e I) as (e' & He & _). assert (eidx E e < length E)%nat by (apply nth_error_Some; congruence). unfold midx. lia. Qed.
  Lemma upsample_faces_eq : upsample_faces n F h2e = upF (midx n E) F.
  Proof.
    unfold upsample_faces, upF.
    assert (G : forall (g : Z * tri -> tri) (h : tri -> tri), (forall k t, nth_error F k = Some t -> g (Z.of_nat k, t) = h t) -> map g (enum F) = map h F).
    { intros g h H. rewrite <- (enum_snd F) at 2. rewrite map_map. apply map_ext_in. intros [z t] I. apply enum_nth in I as (k & Ek & Hk). cbn [fst snd] in *. subst z. auto. }
    f_equal; [|f_equal; [|f_equal]]; apply G; intros k [[a b] c] Hk;
      pose proof (h2e_eidx k 0 _ Hk ltac:(lia)) as E0; pose proof (h2e_eidx k 1 _ Hk ltac:(lia)) as E1; pose proof (h2e_eidx k 2 _ Hk ltac:(lia)) as E2;
      change (Z.of_nat 0) with 0 in E0; change (Z.of_nat 1) with 1 in E1; change (Z.of_nat 2) with 2 in E2;
      rewrite ?E0, ?E1, ?E2; unfold midx, side_opp, corner; reflexivity.
  Qed.
  Lemma E_sides e : In e E -> In e (all_sides F).
  Proof.
    intros I. apply In_nth_error in I as [k Hk]. destruct HR as (_ & _ & _ & _ & H5). destruct (H5 k e Hk) as (f & i & t & h1 & _ & Hi & Hf & <- & _).
    eapply side_in_sides; eauto.
  Qed.
End H.

Lemma mapO_ok {A B} (f : A -> option B) (g : A -> B) l : (forall x, In x l -> f x = Some (g x)) -> mapO f l = Some (map g l).
Proof. induction l as [|x l IH]; intros H; cbn; auto. rewrite (H x), IH; cbn; auto. intros; apply H; right; auto. Qed.
Lemma getZ_ok {P} (V : list P) i : 0 <= i < Z.of_nat (length V) -> getZ V i = nth_error V (Z.to_nat i).
Proof. intros H. unfold getZ, norm_index. destruct (Z.leb_spec 0 i), (Z.ltb_spec i (Z.of_nat (length V))); cbn; auto; lia. Qed.

Section P.
  Context {P : Type} (mid : P -> P -> P).
  Lemma append_mids_ok V E : (forall e, In e E -> 0 <= fst e < Z.of_nat (length V) /\ 0 <= snd e < Z.of_nat (length V)) ->
    exists Vu, append_mids mid V E = Some Vu /\ length Vu = (length V + length E)%nat
      /\ (forall i, (i < length V)%nat -> nth_error Vu i = nth_error V i)
      /\ (forall k e, nth_error E k = Some e -> exists x y, nth_error V (Z.to_nat (fst e)) = Some x /\ nth_error V (Z.to_nat (snd e)) = Some y
            /\ nth_error Vu (length V + k) = Some (mid x y)).
  Proof.
    intros B. destruct V as [|p0 V0] eqn:EV.
    { destruct E as [|e E]; [|exfalso; destruct (B e (or_introl eq_refl)); cbn in *; lia].
      exists []. cbn. repeat split; auto. intros [|k] e H; discriminate. }
    rewrite <- EV in *.
    assert (NE : forall i, 0 <= i < Z.of_nat (length V) -> nth_error V (Z.to_nat i) = Some (nth (Z.to_nat i) V p0)).
    { intros i Hi. apply nth_error_nth'. lia. }
    unfold append_mids. rewrite (mapO_ok _ (fun e => mid (nth (Z.to_nat (fst e)) V p0) (nth (Z.to_nat (snd e)) V p0))).
    2:{ intros e I. destruct (B e I). rewrite !getZ_ok, !NE by auto. auto. }
    eexists. split; [reflexivity|]. rewrite app_length, map_length. split; auto. split.
    - intros i Hi. apply nth_error_app1; auto.
    - intros k e Hk. destruct (B e (nth_error_In _ _ Hk)) as [B1 B2].
      do 2 eexists. split; [apply NE; auto|]. split; [apply NE; auto|].
      rewrite nth_error_app2 by lia. replace (length V + k - length V)%nat with k by lia. rewrite nth_error_map, Hk. reflexivity.
  Qed.


  Lemma upF_nth M F f a b c : nth_error F f = Some (a,b,c) ->
    children (length F) f (upF M F) (a, M (a,b), M (c,a)) (M (a,b), b, M (b,c)) (M (c,a), M (b,c), c) (M (c,a), M (a,b), M (b,c)).
  Proof.
    intros Hf. assert (L : (f < length F)%nat) by (apply nth_error_Some; congruence). unfold children, upF.
    repeat split.
    - rewrite nth_error_app1 by (rewrite map_length; auto). rewrite nth_error_map, Hf. auto.
    - rewrite nth_error_app2 by (rewrite map_length; lia). rewrite map_length. replace (length F + f - length F)%nat with f by lia.
      rewrite nth_error_app1 by (rewrite map_length; auto). rewrite nth_error_map, Hf. auto.
    - rewrite nth_error_app2 by (rewrite map_length; lia). rewrite map_length.
      rewrite nth_error_app2 by (rewrite map_length; lia). rewrite map_length. replace (2 * length F + f - length F - length F)%nat with f by lia.
      rewrite nth_error_app1 by (rewrite map_length; auto). rewrite nth_error_map, Hf. auto.
    - rewrite nth_error_app2 by (rewrite map_length; lia). rewrite map_length.
      rewrite nth_error_app2 by (rewrite map_length; lia). rewrite map_length. 
      rewrite nth_error_app2 by (rewrite map_length; lia). rewrite map_length. replace (3 * length F + f - length F - length F - length F)%nat with f by lia.
      rewrite nth_error_map, Hf. auto.
  Qed.

  Lemma upsample_ok (mid_comm : forall x y, mid x y = mid y x) V F : F <> [] -> (2 <= length V)%nat -> good_mesh F -> in_range (Z.of_nat (length V)) F ->
    exists Vu Fu E, upsample_triangle_mesh mid V F = Ok (Vu, Fu, E)
     /\ length Vu = (length V + length E)%nat /\ length Fu = (4 * length F)%nat
     /\ (forall i, (i < length V)%nat -> nth_error Vu i = nth_error V i)
     /\ good_mesh Fu /\ in_range (Z.of_nat (length Vu)) Fu
     /\ (forall e, (exists e', In e' E /\ same_edge e e') <-> (0 < incidence F e)%nat)
     /\ (forall k l e f, nth_error E k = Some e -> nth_error E l = Some f -> same_edge e f -> k = l)
     /\ (forall k e, nth_error E k = Some e -> exists x y, at_ V (fst e) x /\ at_ V (snd e) y /\ at_ Vu (Z.of_nat (length V + k)) (mid x y))
     /\ (forall f t x y z, nth_error F f = Some t -> at3 V t x y z -> exists s0 s1 s2 s3,
           children (length F) f Fu s0 s1 s2 s3
           /\ at3 Vu s0 x (mid x y) (mid z x) /\ at3 Vu s1 (mid x y) y (mid y z)
           /\ at3 Vu s2 (mid z x) (mid y z) z /\ at3 Vu s3 (mid z x) (mid x y) (mid y z)).
  Proof.
    intros NE LV GM RG. destruct (hem_ok F NE (proj1 GM)) as (E & h2e & e2h & Q & HR).
    set (n := Z.of_nat (length V)) in *.
    assert (BE : forall e, In e E -> 0 <= fst e < n /\ 0 <= snd e < n).
    { intros e I. apply (sides_range F n RG), (E_sides F E h2e e2h HR), I. }
    destruct (append_mids_ok V E BE) as (Vu & EV & LVu & Hold & Hnew).
    assert (UP : upsample_triangle_mesh mid V F = Ok (Vu, upF (midx n E) F, E)).
    { unfold upsample_triangle_mesh. destruct F as [|t0 F0] eqn:EF; [congruence|]. rewrite <- EF in *. rewrite Q.
      destruct (Nat.leb_spec (length V) 1); [lia|]. rewrite EV. cbn [lift bind]. fold n. rewrite (upsample_faces_eq F E h2e e2h n HR). auto. }
    assert (MR : forall e, In e (all_sides F) -> n <= midx n E e < n + Z.of_nat (length E)) by (intros; eapply midx_range; eauto).
    assert (MG : forall e, In e (all_sides F) -> n <= midx n E e) by (intros e I; apply MR, I).
    assert (MI : forall e f, In e (all_sides F) -> In f (all_sides F) -> (midx n E e = midx n E f <-> same_edge e f)) by (intros; eapply midx_inj; eauto).
    exists Vu, (upF (midx n E) F), E. split; auto. split; auto. split; [unfold upF; rewrite !app_length, !map_length; lia|]. split; auto.
    split; [apply (upF_good F n); auto|]. split.
    { intros [[x y] z] I. rewrite LVu, Nat2Z.inj_add. fold n.
      apply upF_in in I as (a & b & c & I & H). pose proof (RG _ I) as Rg. cbn in Rg. destruct (sides_in F _ I) as (S1 & S2 & S3).
      apply MR in S1, S2, S3. destruct H as [H|[H|[H|H]]]; injection H as -> -> ->; lia. }
    split; [apply HR|]. split; [apply HR|].
    assert (HN : forall k e, nth_error E k = Some e -> exists x y, at_ V (fst e) x /\ at_ V (snd e) y /\ at_ Vu (Z.of_nat (length V + k)) (mid x y)).
    { intros k e Hk. destruct (Hnew k e Hk) as (x & y & Hx & Hy & Hm). destruct (BE e (nth_error_In _ _ Hk)).
      exists x, y. unfold at_. rewrite Nat2Z.id. repeat split; auto; lia. }
    split; auto.
    intros f [[a b] c] x y z Hf (Ha & Hb & Hc). do 4 eexists. split; [apply upF_nth; eauto|].
    assert (OLD : forall i p, at_ V i p -> at_ Vu i p).
    { intros i p [Hi H]. split; auto. rewrite Hold; auto. apply nth_error_Some. congruence. }
    assert (MID : forall u v p q, In (u,v) (all_sides F) -> at_ V u p -> at_ V v q -> at_ Vu (midx n E (u,v)) (mid p q)).
    { intros u v p q I Hu Hv. destruct (eidx_side F E h2e e2h HR (u,v) I) as (e' & He & Se).
      destruct (HN _ _ He) as (x' & y' & Hx & Hy & Hm). unfold midx. unfold n.
      replace (Z.of_nat (length V) + Z.of_nat (eidx E (u,v))) with (Z.of_nat (length V + eidx E (u,v))) by lia.
      destruct e' as [u' v']. destruct Se as [[S1 S2]|[S1 S2]]; cbn in S1, S2, Hx, Hy; subst u' v'; destruct Hu as [_ Hu], Hv as [_ Hv], Hx as [_ Hx], Hy as [_ Hy].
      - replace p with x' by congruence. replace q with y' by congruence. auto.
      - replace p with y' by congruence. replace q with x' by congruence. rewrite mid_comm. auto. }
    destruct (sides_in F _ (nth_error_In _ _ Hf)) as (S1 & S2 & S3).
    unfold at3. repeat split; try (apply MID; auto); try (apply OLD; auto).
    all: try (apply (OLD _ _ Ha)); try (apply (OLD _ _ Hb)); try (apply (OLD _ _ Hc)).
    all: try (apply (MID _ _ _ _ S1 Ha Hb)); try (apply (MID _ _ _ _ S2 Hb Hc)); try (apply (MID _ _ _ _ S3 Hc Ha)).
  Qed.

  (** any number of iterations *)
  Lemma subdivide_ok (mid_comm : forall x y, mid x y = mid y x) k : forall V F, F <> [] -> (2 <= length V)%nat -> good_mesh F -> in_range (Z.of_nat (length V)) F ->
    exists Vu Fu, subdivide_upsample mid k V F = Ok (Vu, Fu)
      /\ length Fu = (4 ^ k * length F)%nat /\ good_mesh Fu /\ in_range (Z.of_nat (length Vu)) Fu
      /\ (forall i, (i < length V)%nat -> nth_error Vu i = nth_error V i).
  Proof.
    induction k as [|k IH]; intros V F NE LV GM RG; cbn [subdivide_upsample].
    - exists V, F. repeat split; auto; try apply GM. cbn; lia.
    - destruct (upsample_ok mid_comm V F NE LV GM RG) as (Vu & Fu & E & -> & LVu & LFu & Old & GM' & RG' & _). cbn [bind].
      assert (NF : Fu <> []) by (destruct F; [congruence|]; intros ->; cbn in LFu; lia).
      assert (LV' : (2 <= length Vu)%nat) by lia.
      destruct (IH Vu Fu NF LV' GM' RG') as (Vw & Fw & -> & LFw & GMw & RGw & Ow).
      + exists Vw, Fw. repeat split; auto; try apply GMw.
        * rewrite LFw, LFu. cbn [Nat.pow]. lia.
        * intros i Hi. rewrite Ow by lia. auto.
  Qed.

  (** polylines *)
  Lemma upsample_polyline_ok V E : E <> [] -> (2 <= length V)%nat ->
    (forall e, In e E -> 0 <= fst e < Z.of_nat (length V) /\ 0 <= snd e < Z.of_nat (length V)) ->
    exists Vu Eu, upsample_polyline mid V E = Ok (Vu, Eu)
     /\ length Vu = (length V + length E)%nat /\ length Eu = (2 * length E)%nat
     /\ (forall i, (i < length V)%nat -> nth_error Vu i = nth_error V i)
     /\ (forall e, In e Eu -> 0 <= fst e < Z.of_nat (length Vu) /\ 0 <= snd e < Z.of_nat (length Vu))
     /\ (forall k a b x y, nth_error E k = Some (a,b) -> at_ V a x -> at_ V b y ->
          let c := Z.of_nat (length V + k) in
          nth_error Eu k = Some (a, c) /\ nth_error Eu (length E + k) = Some (c, b) /\ at_ Vu c (mid x y)).
  Proof.
    intros NE LV B. destruct (append_mids_ok V E B) as (Vu & EV & LVu & Hold & Hnew).
    unfold upsample_polyline. destruct (Nat.leb_spec (length V) 1); [lia|]. destruct E as [|e0 E0] eqn:EE; [congruence|]. rewrite <- EE in *.
    rewrite EV. cbn [lift bind]. do 2 eexists. split; [reflexivity|]. split; auto. split; [rewrite app_length, !map_length, enum_length; lia|]. split; auto. split.
    - intros e I. rewrite LVu. apply in_app_iff in I as [I|I]; apply in_map_iff in I as (p & <- & I); apply enum_nth in I as (k & -> & Hk);
        assert (k < length E)%nat by (apply nth_error_Some; congruence); destruct (B _ (nth_error_In _ _ Hk)); cbn; lia.
    - intros k a b x y Hk Ha0 Hb0. set (c := Z.of_nat (length V + k)). destruct Ha0 as [_ Ha], Hb0 as [_ Hb]. destruct (Hnew k _ Hk) as (x' & y' & Hx & Hy & Hm). cbn in Hx, Hy.
      assert (k < length E)%nat by (apply nth_error_Some; congruence). pose proof (enum_nth_error E k _ Hk) as EN.
      split; [|split].
      + rewrite nth_error_app1 by (rewrite map_length, enum_length; auto). rewrite nth_error_map, EN. cbn. unfold c. do 2 f_equal. lia.
      + rewrite nth_error_app2 by (rewrite map_length, enum_length; lia). rewrite map_length, enum_length. replace (length E + k - length E)%nat with k by lia.
        rewrite nth_error_map, EN. cbn. unfold c. do 2 f_equal. lia.
      + unfold at_, c. rewrite Nat2Z.id. split; [lia|]. rewrite Hm. congruence.
  Qed.
  Lemma subdivide_polyline_ok k : forall V E, E <> [] -> (2 <= length V)%nat ->
    (forall e, In e E -> 0 <= fst e < Z.of_nat (length V) /\ 0 <= snd e < Z.of_nat (length V)) ->
    exists Vu Eu, subdivide_polyline mid k V E = Ok (Vu, Eu) /\ length Eu = (2 ^ k * length E)%nat
     /\ (forall e, In e Eu -> 0 <= fst e < Z.of_nat (length Vu) /\ 0 <= snd e < Z.of_nat (length Vu))
     /\ (forall i, (i < length V)%nat -> nth_error Vu i = nth_error V i).
  Proof.
    induction k as [|k IH]; intros V E NE LV B; cbn [subdivide_polyline].
    - exists V, E. repeat split; auto; try (apply B; auto). cbn; lia.
    - destruct (upsample_polyline_ok V E NE LV B) as (Vu & Eu & -> & LVu & LEu & Old & B' & _). cbn [bind].
      assert (NF : Eu <> []) by (destruct E; [congruence|]; intros ->; cbn in LEu; lia).
      assert (LV' : (2 <= length Vu)%nat) by lia.
      destruct (IH Vu Eu NF LV' B') as (Vw & Ew & -> & LEw & Bw & Ow).
      + exists Vw, Ew. repeat split; auto; try (apply Bw; auto).
        * rewrite LEw, LEu. cbn [Nat.pow]. lia.
        * intros i Hi. rewrite Ow by lia. auto.
  Qed.
End P.
