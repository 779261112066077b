From Coq Require Import List Arith ZArith Reals Bool Lia Lra.
From Verif Require Import PyExn LoopsModel LoopsProofs QuadModel QuadOpsModel QuadSpec QuadProofs Quad2Proofs Quad3Proofs Quad4Proofs Quad5Proofs Quad6Proofs Quad7Proofs Quad8Proofs.
Import ListNotations.
Open Scope Z_scope.

Lemma filter_two p n a b : (a < b < n)%nat -> (forall i, (i < n)%nat -> p i = true <-> i = a \/ i = b) -> filter p (seq 0 n) = [a; b].
Proof.
  intros H P.
  assert (forall m x, (forall i, (x <= i < x + m)%nat -> p i = false) -> filter p (seq x m) = []) as Z.
  { induction m as [|m IH]; intros x Hx; [reflexivity|]. cbn [seq filter]. rewrite Hx by lia. apply IH. intros; apply Hx; lia. }
  replace n with (a + (1 + ((b - a - 1) + (1 + (n - b - 1)))))%nat by lia. rewrite !seq_app, !filter_app.
  rewrite (Z a 0%nat), (Z (b - a - 1)%nat), (Z (n - b - 1)%nat).
  - replace (0 + a)%nat with a by lia. replace (a + 1 + (b - a - 1))%nat with b by lia. cbn [seq filter]. rewrite (proj2 (P a ltac:(lia))), (proj2 (P b ltac:(lia))) by auto. reflexivity.
  - intros i Hi. apply not_true_iff_false. intro Q. apply P in Q; lia.
  - intros i Hi. apply not_true_iff_false. intro Q. apply P in Q; lia.
  - intros i Hi. apply not_true_iff_false. intro Q. apply P in Q; lia.
Qed.
Lemma first_deepest_ok T : forall l best, In (first_deepest T best l) (best :: l) /\ forall m, In m (best :: l) -> (depth T m <= depth T (first_deepest T best l))%nat.
Proof.
  induction l as [|m l IH]; intro best; cbn [first_deepest]; [split; [left; auto|intros m [<-|[]]; auto]|].
  fold (depth T best) (depth T m). destruct (IH (if (depth T best <? depth T m)%nat then m else best)) as [A B]. destruct (Nat.ltb_spec (depth T best) (depth T m)).
  - split; [destruct A as [A|A]; [right; left; auto|right; right; auto]|]. specialize (B m ltac:(left; auto)) as Bm. intros j [<-|[<-|Hj]]; [lia|lia|apply B; right; auto].
  - split; [destruct A as [A|A]; [left; auto|right; right; auto]|]. specialize (B best ltac:(left; auto)) as Bb. intros j [<-|[<-|Hj]]; [lia|lia|apply B; right; auto].
Qed.
Lemma overlap_nest dj xj a xm b y : overlap dj xj (dj + a + b) y -> overlap (dj + a) xm (dj + a + b) y -> overlap dj xj (dj + a) xm.
Proof.
  rewrite <- Nat.add_assoc. rewrite overlap_cf. rewrite Nat.add_assoc, !overlap_cf, pw_add. pose proof (pw_pos a). pose proof (pw_pos b). intros [A B] [C D]. split; nia.
Qed.

Section dirs.
Context (dim : nat) (lo : nat -> R) (w0 : R) (T : qtree) (X : nat -> nat -> Z).
Hypothesis I : inv dim lo w0 T X.
Notation D := (depth T).
Lemma leaf_overlap i j : (i < qn T)%nat -> (j < qn T)%nat -> rowof T i = lrow dim -> (D i <= D j)%nat ->
  (forall k, (k < dim)%nat -> overlap (D i) (X i k) (D j) (X j k)) -> i = j.
Proof using I.
  intros Hi Hj L HD O. destruct (Nat.eq_dec (D i) (D j)) as [E|N].
  - apply (uniq _ _ _ _ _ I (D i)); auto. intros k Hk. specialize (O k Hk). rewrite <- E in O. unfold overlap in O. pose proof (pw_pos (D i)). nia.
  - exfalso. destruct (i_rng _ _ _ _ _ I i Hi) as [D1 _].
    destruct (climb_ok _ _ _ _ _ I (D i) (D j) j Hj D1 eq_refl ltac:(lia)) as (p & n0 & c & _ & K & Hc & Dp & B).
    pose proof (k_lt _ _ _ _ _ K). pose proof (k_in _ _ _ _ _ K).
    assert (i = p).
    { apply (uniq _ _ _ _ _ I (D i)); auto; [lia|]. intros k Hk. specialize (O k Hk). specialize (B k Hk). rewrite (k_x _ _ _ _ _ K c k Hc Hk) in B. unfold kid in B.
      pose proof (fine_overlap (D i) (D j - S (D i)) (X i k) (X p k) (bit k c) 0 (X j k) ltac:(lia) (bit_range k c) B) as F.
      replace (S (D i) + (D j - S (D i)))%nat with (D j) in F by lia. apply F, O. }
    subst p. apply (krow_not_leaf dim n0). rewrite <- (k_row _ _ _ _ _ K). exact L.
Qed.
Lemma kid_touch c p n0 q k s : (c < qn T)%nat -> (k < dim)%nat -> kids dim T X p n0 -> (q < 2 ^ dim)%nat -> (D c <= D p)%nat ->
  qA T c (n0 + q) = code k s <-> qA T c p = code k s /\ bit k q = (if s then 0 else 1).
Proof using I.
  intros Hc Hk K Hq HD. pose proof (k_lt _ _ _ _ _ K). pose proof (k_in _ _ _ _ _ K).
  rewrite <- !(i_adj _ _ _ _ _ I) by (auto; lia). rewrite (k_dep _ _ _ _ _ K q Hq).
  rewrite (dirg_ext dim s _ _ (X c) _ _ (kid (X p) q) k) by (auto; intros; apply (k_x _ _ _ _ _ K); auto).
  pose proof (coarse_child dim s (D c) (D p - D c) (X c) (X p) q k) as E. replace (D c + (D p - D c))%nat with (D p) in E by lia. exact E.
Qed.
Lemma anc_touch c k s e : (c < qn T)%nat -> (k < dim)%nat -> (D c <= e)%nat -> forall t m, (m < qn T)%nat -> (D m = e + S t)%nat -> qA T c m = code k s ->
  exists a n0, kids dim T X a n0 /\ D a = e /\ qA T c a = code k s.
Proof using I.
  intros Hc Hk He. induction t as [|t IH]; intros m Hm Dm A.
  - destruct (i_par _ _ _ _ _ I m) as (p & n0 & q & K & Hq & ->).
    { split; [|auto]. destruct m; [|lia]. rewrite (i_d0 _ _ _ _ _ I) in Dm. destruct (i_rng _ _ _ _ _ I c Hc). lia. }
    rewrite (k_dep _ _ _ _ _ K q Hq) in Dm. exists p, n0. split; [exact K|]. split; [lia|]. apply (kid_touch c p n0 q k s) in A; auto; [tauto|lia].
  - destruct (i_par _ _ _ _ _ I m) as (p & n0 & q & K & Hq & ->).
    { split; [|auto]. destruct m; [|lia]. rewrite (i_d0 _ _ _ _ _ I) in Dm. lia. }
    rewrite (k_dep _ _ _ _ _ K q Hq) in Dm. pose proof (k_lt _ _ _ _ _ K). pose proof (k_in _ _ _ _ _ K). apply (IH p); [lia|lia|]. apply (kid_touch c p n0 q k s) in A; auto; [tauto|lia].
Qed.
Lemma bit_of dim' k v : (dim' = 2 \/ dim' = 3)%nat -> (k < dim')%nat -> v = 0 \/ v = 1 -> exists q, (q < 2 ^ dim')%nat /\ bit k q = v.
Proof using.
  intros Hd Hk Hv. destruct (find_q dim' (fun _ => v =? 1) Hd) as (q & Hq & B). exists q. split; [auto|]. rewrite B by auto. destruct Hv as [-> | ->]; reflexivity.
Qed.
Lemma leaf_touch c k s : (c < qn T)%nat -> (k < dim)%nat -> forall t m, (qn T - m <= t)%nat -> (m < qn T)%nat -> (D c <= D m)%nat -> qA T c m = code k s ->
  exists m', (m' < qn T)%nat /\ rowof T m' = lrow dim /\ (D m <= D m')%nat /\ qA T c m' = code k s.
Proof using I.
  intros Hc Hk. induction t as [|t IH]; intros m Ht Hm HD A; [lia|]. destruct (i_row _ _ _ _ _ I m Hm) as [R|[n0 K]]; [exists m; auto|].
  destruct (bit_of dim k (if s then 0 else 1) (i_dim _ _ _ _ _ I) Hk ltac:(destruct s; auto)) as (q & Hq & B). pose proof (k_lt _ _ _ _ _ K). pose proof (k_in _ _ _ _ _ K).
  pose proof (k_dep _ _ _ _ _ K q Hq) as Dq.
  destruct (IH (n0 + q)%nat) as (m' & Hm' & R' & D' & A'); [lia|lia|lia|apply (kid_touch c m n0 q k s); auto|]. exists m'. repeat split; auto. lia.
Qed.
Lemma same_depth_touch c a a' k s : (c < qn T)%nat -> (a < qn T)%nat -> (a' < qn T)%nat -> (k < dim)%nat -> D a = D c -> D a' = D c -> qA T c a = code k s -> qA T c a' = code k s -> a = a'.
Proof using I.
  intros Hc Ha Ha' Hk E E' A A'. apply (i_adj _ _ _ _ _ I) in A, A'; auto.
  assert (forall x y, abut (D c) x (D c) y <-> x + 1 = y) as Ab by (intros; unfold abut; pose proof (pw_pos (D c)); nia).
  assert (forall x y, overlap (D c) x (D c) y <-> x = y) as Ov by (intros; unfold overlap; pose proof (pw_pos (D c)); split; intros; nia).
  apply (uniq _ _ _ _ _ I (D c)); auto. intros l Hl. rewrite E in A. rewrite E' in A'. unfold dirg, touchg in A, A'.
  destruct s; destruct A as [A1 A2], A' as [B1 B2]; rewrite Ab in A1, B1; (destruct (Nat.eq_dec l k) as [->|N]; [lia|]); specialize (A2 l Hl N); specialize (B2 l Hl N); rewrite Ov in A2, B2; lia.
Qed.
Lemma touch_contains c m k (s : bool) : (c < qn T)%nat -> (m < qn T)%nat -> (k < dim)%nat -> (D m <= D c)%nat -> qA T c m = code k s ->
  forall l, (l < dim)%nat -> overlap (D m) (X m l) (D c) (if Nat.eqb l k then (if s then X c k + 1 else X c k - 1) else X c l).
Proof using I.
  intros Hc Hm Hk HD A l Hl. apply (i_adj _ _ _ _ _ I) in A; auto. unfold dirg, touchg in A. replace (D c) with (D m + (D c - D m))%nat in * by lia. pose proof (pw_pos (D c - D m)).
  destruct s; destruct A as [A1 A2]; (destruct (Nat.eqb_spec l k) as [->|N]; [|first [solve [apply A2; auto] | solve [apply overlap_sym, A2; auto]]]).
  - apply abut_fc in A1. apply overlap_cf. nia.
  - apply abut_cf in A1. apply overlap_cf. nia.
Qed.
(** the only leaf not deeper than c on that side *)
Lemma coarse_leaf_unique c m j k s : (c < qn T)%nat -> (m < qn T)%nat -> (j < qn T)%nat -> (k < dim)%nat -> (D j <= D m <= D c)%nat -> rowof T j = lrow dim ->
  qA T c m = code k s -> qA T c j = code k s -> j = m.
Proof using I.
  intros Hc Hm Hj Hk HD L A A'. apply leaf_overlap; auto; [lia|]. intros l Hl.
  pose proof (touch_contains c m k s Hc Hm Hk ltac:(lia) A l Hl) as O1. pose proof (touch_contains c j k s Hc Hj Hk ltac:(lia) A' l Hl) as O2.
  set (y := if Nat.eqb l k then _ else _) in *. clearbody y.
  pose proof (overlap_nest (D j) (X j l) (D m - D j) (X m l) (D c - D m) y) as ON. replace (D j + (D m - D j))%nat with (D m) in ON by lia. replace (D m + (D c - D m))%nat with (D c) in ON by lia. auto.
Qed.
Lemma deepest_leaf c m k s : (c < qn T)%nat -> (m < qn T)%nat -> (k < dim)%nat -> (D m <= D c)%nat -> qA T c m = code k s ->
  (forall j, (j < qn T)%nat -> qA T c j = code k s -> (D j <= D m)%nat) -> rowof T m = lrow dim.
Proof using I.
  intros Hc Hm Hk HD A Mx. destruct (Nat.eq_dec (D m) (D c)) as [E|N].
  - destruct (i_row _ _ _ _ _ I m Hm) as [R|[n0 K]]; [exact R|exfalso].
    destruct (bit_of dim k (if s then 0 else 1) (i_dim _ _ _ _ _ I) Hk ltac:(destruct s; auto)) as (q & Hq & B). pose proof (k_in _ _ _ _ _ K).
    specialize (Mx (n0 + q)%nat ltac:(lia)). rewrite (k_dep _ _ _ _ _ K q Hq) in Mx. assert (S (D m) <= D m)%nat; [|lia]. apply Mx. apply (kid_touch c m n0 q k s); auto; lia.
  - pose proof (no_neighbour _ _ _ _ _ I c m k s Hc Hm Hk A) as NN.
    destruct (neighbour_exists _ _ _ _ _ I c k s Hc Hk NN) as (j & Hj & Dj & C & Aj). specialize (Mx j Hj Aj). destruct C as [C|C]; [lia|].
    rewrite <- (coarse_leaf_unique c m j k s); auto; lia.
Qed.
End dirs.

(** ** the directional stencils of a graded quadtree *)
Definition sgn (s : bool) : R := if s then 1%R else (-1)%R.
Inductive stencil (T : qtree) (c k : nat) (s : bool) : option (R * list (nat * R)) -> Prop :=
| st_none : (forall m, (m < qn T)%nat -> qA T c m <> code k s) -> stencil T c k s None
| st_one m : leaf 2 T m -> qA T c m = code k s -> (depth T m <= depth T c)%nat ->
    (forall j, leaf 2 T j -> qA T c j = code k s -> j = m) ->
    centre T m k = (centre T c k + sgn s * ((width T c + width T m) / 2))%R ->
    (depth T m = depth T c -> forall l, (l < 2)%nat -> l <> k -> centre T m l = centre T c l) ->
    stencil T c k s (Some (((width T c + width T m) / 2.0)%R, [(m, 1.0%R)]))
| st_two a b : leaf 2 T a -> leaf 2 T b -> (a < b)%nat -> qA T c a = code k s -> qA T c b = code k s ->
    (forall j, leaf 2 T j -> qA T c j = code k s -> j = a \/ j = b) -> depth T a = S (depth T c) -> depth T b = S (depth T c) ->
    (forall i, i = a \/ i = b -> centre T i k = (centre T c k + sgn s * ((width T c + width T b) / 2))%R) ->
    (forall l, (l < 2)%nat -> l <> k -> (centre T a l + centre T b l = 2 * centre T c l)%R) ->
    stencil T c k s (Some (((width T c + width T b) / 2.0)%R, [(a, 0.5%R); (b, 0.5%R)])).

Section dirs2.
Context (lo : nat -> R) (w0 : R) (T : qtree) (X : nat -> nat -> Z).
Hypothesis I : inv 2 lo w0 T X.
Hypothesis Hw : (0 < w0)%R.
Notation D := (depth T).
Lemma touch_centre c m k s : (c < qn T)%nat -> (m < qn T)%nat -> (k < 2)%nat -> qA T c m = code k s -> centre T m k = (centre T c k + sgn s * ((width T c + width T m) / 2))%R.
Proof using I Hw.
  intros Hc Hm Hk A. apply (i_adj _ _ _ _ _ I) in A; auto. unfold dirg in A.
  destruct s; apply (touch_iff _ _ _ _ _ I) in A; auto; destruct A as [A _]; unfold high, low, sgn in *; lra.
Qed.
Lemma dir_nb_ok c k s : graded_tree 2 T -> leaf 2 T c -> (k < 2)%nat -> exists x, dir_nb T c (code k s) = Ok x /\ stencil T c k s x.
Proof using I Hw.
  intros G Lc Hk. pose proof (proj1 Lc) as Hc. unfold dir_nb. set (js := filter (fun m => qA T c m =? code k s) (seq 0 (qn T))).
  assert (forall m, In m js <-> (m < qn T)%nat /\ qA T c m = code k s) as Js. { intro m. unfold js. rewrite filter_In, in_seq, Z.eqb_eq. split; intros []; split; auto; lia. }
  destruct js as [|m0 r] eqn:Ejs.
  - exists None. split; [reflexivity|]. constructor. intros m Hm A. apply (proj2 (Js m)). auto.
  - fold (depth T c). destruct (first_deepest_ok T r m0) as [F1 F2]. set (m := first_deepest T m0 r) in *. fold (depth T m) (width T c) (width T m).
    apply Js in F1 as [Hm Am]. assert (forall j, (j < qn T)%nat -> qA T c j = code k s -> (D j <= D m)%nat) as Mx by (intros j Hj Aj; apply F2, Js; auto).
    destruct (Nat.leb_spec (D m) (D c)) as [Le|Lt].
    + pose proof (deepest_leaf _ _ _ _ _ I c m k s Hc Hm Hk Le Am Mx) as R. assert (leaf 2 T m) as Lm by (apply (leaf_iff _ _ _ _ _ I); auto).
      unfold c2c. rewrite (proj2 (is_leaf_iff _ _ _ _ _ I m) Lm). rewrite (proj2 (Z.leb_le _ _) (Nat2Z.is_nonneg _)).
      eexists. split; [reflexivity|]. apply st_one; auto.
      * intros j Lj Aj. pose proof (proj1 Lj) as Hj. apply (leaf_iff _ _ _ _ _ I) in Lj; auto. apply (coarse_leaf_unique _ _ _ _ _ I c m j k s); auto.
      * apply touch_centre; auto.
      * intros E l Hl N. rewrite !(i_c _ _ _ _ _ I) by auto. rewrite !(width_eq _ _ _ _ _ I), E by auto.
        apply (i_adj _ _ _ _ _ I) in Am; auto. rewrite E in Am.
        assert (forall x y, overlap (D c) x (D c) y -> x = y) as Ov by (intros x y; unfold overlap; pose proof (pw_pos (D c)); intros; nia).
        unfold dirg, touchg in Am. destruct s; destruct Am as [_ Am]; specialize (Am l Hl N); apply Ov in Am; rewrite Am; reflexivity.
    + destruct (anc_touch _ _ _ _ _ I c k s (D c) Hc Hk (le_n _) (D m - D c - 1) m Hm ltac:(lia) Am) as (a & n0 & K & Da & Aa).
      pose proof (k_lt _ _ _ _ _ K). pose proof (k_in _ _ _ _ _ K) as Kin.
      assert (exists q0 q1, (q0 < q1 < 4)%nat /\ bit k q0 = (if s then 0 else 1) /\ bit k q1 = (if s then 0 else 1) /\ (forall q, (q < 4)%nat -> bit k q = (if s then 0 else 1) -> q = q0 \/ q = q1) /\
        forall l, (l < 2)%nat -> l <> k -> bit l q0 + bit l q1 = 1) as (q0 & q1 & Hq & B0 & B1 & Only & Bl).
      { destruct k as [|[|]]; [| |lia]; destruct s; [exists 0%nat, 2%nat|exists 1%nat, 3%nat|exists 0%nat, 1%nat|exists 2%nat, 3%nat]; (split; [lia|]); (split; [reflexivity|]); (split; [reflexivity|]);
          (split; [intros q Hq Q; destruct q as [|[|[|[|]]]]; try lia; try discriminate|]); intros l Hl N; destruct l as [|[|]]; try lia; reflexivity. }
      change (2 ^ 2)%nat with 4%nat in Kin.
      assert (filter (fun m => Nat.eqb (D m) (D c + 1)) (m0 :: r) = [(n0 + q0)%nat; (n0 + q1)%nat]) as EF.
      { rewrite <- Ejs. unfold js.
        assert (forall (l : list nat) (f g : nat -> bool), filter f (filter g l) = filter (fun x => g x && f x) l) as FF.
        { clear. induction l as [|x l IH]; intros f g; [reflexivity|]. cbn [filter]. destruct (g x); cbn [filter andb]; rewrite IH; reflexivity. }
        rewrite FF. apply filter_two; [lia|]. intros i Hi. rewrite andb_true_iff, Z.eqb_eq, Nat.eqb_eq. split.
        - intros [A E]. destruct (i_par _ _ _ _ _ I i) as (p & n1 & q & K' & Hq' & ->).
          { split; [|auto]. destruct i; [|lia]. rewrite (i_d0 _ _ _ _ _ I) in E. destruct (i_rng _ _ _ _ _ I c Hc). lia. }
          pose proof (k_lt _ _ _ _ _ K'). pose proof (k_in _ _ _ _ _ K'). rewrite (k_dep _ _ _ _ _ K' q Hq') in E.
          apply (kid_touch _ _ _ _ _ I c p n1 q k s) in A as [A Bq]; auto; [|lia].
          assert (p = a) by (apply (same_depth_touch _ _ _ _ _ I c p a k s); auto; lia). subst p. pose proof (kids_unique _ _ _ _ _ _ K K'). subst n1.
          change (2 ^ 2)%nat with 4%nat in Hq'. destruct (Only q Hq' Bq); lia.
        - intros [->| ->]; (split; [apply (kid_touch _ _ _ _ _ I c a n0 _ k s); auto; [cbn; lia|lia]|rewrite (k_dep _ _ _ _ _ K) by (cbn; lia); lia]). }
      cbv zeta in EF |- *. fold (depth T). change (fun m : nat => (nth m (qD T) 0 =? D c + 1)%nat) with (fun m : nat => (D m =? D c + 1)%nat). rewrite EF.
      assert (forall q, (q < 4)%nat -> bit k q = (if s then 0 else 1) -> qA T c (n0 + q) = code k s /\ leaf 2 T (n0 + q)) as Lq.
      { intros q Hq' Bq. assert (qA T c (n0 + q) = code k s) as Aq by (apply (kid_touch _ _ _ _ _ I c a n0 q k s); auto; lia). split; [exact Aq|].
        apply (leaf_iff _ _ _ _ _ I); [lia|]. destruct (i_row _ _ _ _ _ I (n0 + q)%nat ltac:(lia)) as [R|[n1 K1]]; [exact R|exfalso].
        pose proof (k_dep _ _ _ _ _ K q Hq') as Dq. pose proof (k_lt _ _ _ _ _ K1). pose proof (k_in _ _ _ _ _ K1).
        assert (qA T c (n1 + q) = code k s) as A1 by (apply (kid_touch _ _ _ _ _ I c (n0 + q) n1 q k s); auto; lia).
        pose proof (k_dep _ _ _ _ _ K1 q Hq') as Dq1. change (2 ^ 2)%nat with 4%nat in *.
        destruct (leaf_touch _ _ _ _ _ I c k s Hc Hk (qn T) (n1 + q)%nat ltac:(lia) ltac:(lia) ltac:(lia) A1) as (m' & Hm' & R' & D' & A').
        assert (D m' <= D c + 1)%nat; [|lia]. apply G; auto; [apply (leaf_iff _ _ _ _ _ I); auto|].
        destruct (i_codes _ _ _ _ _ I m' c Hm' Hc) as [Z0|(k' & s' & Hk' & C)]; [|rewrite C; apply code_pos].
        apply (i_adj _ _ _ _ _ I) in A'; auto. rewrite dirg_sym in A'. apply (i_adj _ _ _ _ _ I) in A'; auto. rewrite A'. apply code_pos. }
      destruct (Lq q0 ltac:(lia) B0) as [A0 L0]. destruct (Lq q1 ltac:(lia) B1) as [A1 L1].
      rewrite (proj2 (is_leaf_iff _ _ _ _ _ I _) L0), (proj2 (is_leaf_iff _ _ _ _ _ I _) L1). cbn [andb]. eexists. split; [reflexivity|]. fold (width T (n0 + q1)).
      assert (D (n0 + q0) = S (D c)) as D0 by (rewrite (k_dep _ _ _ _ _ K q0 ltac:(cbn; lia)); lia). assert (D (n0 + q1) = S (D c)) as D1 by (rewrite (k_dep _ _ _ _ _ K q1 ltac:(cbn; lia)); lia).
      assert (width T (n0 + q0) = width T (n0 + q1)) as Ew by (rewrite !(width_eq _ _ _ _ _ I) by lia; rewrite D0, D1; reflexivity).
      apply st_two; auto; [lia| | |].
      * intros j Lj Aj. pose proof (proj1 Lj) as Hj.
        destruct (le_lt_dec (D j) (D c)) as [Lj1|Lj1].
        -- exfalso. pose proof (proj1 (leaf_iff _ _ _ _ _ I j Hj) Lj) as Rj. assert (j = a) by (apply (coarse_leaf_unique _ _ _ _ _ I c a j k s); auto; lia). subst j.
           apply (krow_not_leaf 2 n0). rewrite <- (k_row _ _ _ _ _ K). exact Rj.
        -- assert (D j <= D c + 1)%nat as Lj2. { apply G; auto. apply (i_adj _ _ _ _ _ I) in Aj; auto. rewrite dirg_sym in Aj. apply (i_adj _ _ _ _ _ I) in Aj; auto. rewrite Aj. apply code_pos. }
           assert (In j [(n0 + q0)%nat; (n0 + q1)%nat]) as Ij. { rewrite <- EF. apply filter_In. split; [apply Js; auto|apply Nat.eqb_eq; lia]. }
           destruct Ij as [<-|[<-|[]]]; auto.
      * intros i [->| ->]; [rewrite <- Ew|]; apply touch_centre; auto; lia.
      * intros l Hl N. rewrite !(i_c _ _ _ _ _ I) by (auto; lia). rewrite Ew. rewrite !(k_x _ _ _ _ _ K) by (cbn; lia). unfold kid.
        assert (X a l = X c l) as Xa.
        { apply (i_adj _ _ _ _ _ I) in Aa; auto; [|lia]. rewrite Da in Aa.
          assert (forall x y, overlap (D c) x (D c) y -> x = y) as Ov by (intros x y; unfold overlap; pose proof (pw_pos (D c)); intros; nia).
          unfold dirg, touchg in Aa. destruct s; destruct Aa as [_ Aa]; specialize (Aa l Hl N); apply Ov in Aa; auto. }
        rewrite Xa. rewrite !(width_eq _ _ _ _ _ I) by lia. rewrite D1, pw_S. rewrite !plus_IZR, !mult_IZR.
        pose proof (Bl l Hl N) as E. apply (f_equal IZR) in E. rewrite plus_IZR in E.
        assert (IZR (pw (D c)) <> 0)%R by (apply not_0_IZR; pose proof (pw_pos (D c)); lia).
        replace (IZR (bit l q1)) with (1 - IZR (bit l q0))%R by lra. field. auto.
Qed.
End dirs2.
