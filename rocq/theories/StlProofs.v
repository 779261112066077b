From Coq Require Import String Ascii List ZArith Bool Lia Arith.
From Verif Require Import TextModel StlModel.
Import ListNotations.
Open Scope string_scope.

(** ** strings *)
Lemma app_len a b : String.length (a ++ b) = (String.length a + String.length b)%nat.
Proof. induction a; cbn; auto. Qed.
Lemma app_assoc_s a b c : (a ++ b) ++ c = a ++ (b ++ c).
Proof. induction a; cbn; congruence. Qed.
Lemma app_nil_s a : a ++ "" = a.
Proof. induction a; cbn; congruence. Qed.
Lemma drop_app a b : drop (String.length a) (a ++ b) = b.
Proof. induction a; cbn; auto. Qed.
Lemma drop_len n : forall s, String.length (drop n s) = (String.length s - n)%nat.
Proof. induction n; destruct s; cbn; auto. Qed.
Lemma get_drop n : forall s k, String.get k (drop n s) = String.get (n + k) s.
Proof. induction n; intros s k; [reflexivity|]. destruct s; cbn [drop Nat.add String.get]; [destruct k; reflexivity|apply IHn]. Qed.
Lemma at_drop n s k : at_ (drop n s) k = at_ s (n + k).
Proof. unfold at_. rewrite get_drop. reflexivity. Qed.
Lemma u32_drop n s k : u32 (drop n s) k = u32 s (n + k).
Proof. unfold u32. rewrite !at_drop. repeat (f_equal; try lia). all: f_equal; try lia. Qed.
Lemma at_app a b k : at_ (a ++ b) (String.length a + k) = at_ b k.
Proof. rewrite <- at_drop, drop_app. reflexivity. Qed.
Lemma value_byte z : (0 <= z < 256)%Z -> value (byte z) = z.
Proof. intros H. unfold value, byte. rewrite nat_ascii_embedding by lia. lia. Qed.
Definition is32 (z : Z) : Prop := (0 <= z < 4294967296)%Z.
Lemma u32_le32 z s : is32 z -> u32 (le32 z ++ s) 0 = z.
Proof.
  intros H. unfold is32 in H. unfold u32, le32, at_. cbn [Nat.add append String.get].
  rewrite !value_byte by (apply Z.mod_pos_bound; lia).
  pose proof (Z.div_mod z 256 ltac:(lia)). pose proof (Z.div_mod (z / 256) 256 ltac:(lia)). pose proof (Z.div_mod (z / 65536) 256 ltac:(lia)).
  replace (z / 256 / 256)%Z with (z / 65536)%Z in * by (rewrite Z.div_div by lia; reflexivity).
  assert (z / 65536 / 256 = z / 16777216)%Z by (rewrite Z.div_div by lia; reflexivity).
  assert (0 <= z / 16777216 < 256)%Z by (split; [apply Z.div_pos; lia|apply Z.div_lt_upper_bound; lia]).
  rewrite (Z.mod_small (z / 16777216) 256) by lia. lia.
Qed.
Lemma u32_at a z s : is32 z -> u32 (a ++ le32 z ++ s) (String.length a) = z.
Proof. intros H. rewrite <- (u32_le32 z s H) at 2. pose proof (u32_drop (String.length a) (a ++ le32 z ++ s) 0) as E. rewrite drop_app, Nat.add_0_r in E. symmetry. exact E. Qed.
Lemma le32_len z : String.length (le32 z) = 4%nat. Proof. reflexivity. Qed.

(** ** binary files *)
Definition point32 (p : point) : Prop := let '(x, y, z) := p in is32 x /\ is32 y /\ is32 z.
Definition facet32_ok (f : facet) : Prop := let '(a, b, c) := f in point32 a /\ point32 b /\ point32 c.
Lemma le_point_len p : String.length (le_point p) = 12%nat.
Proof. destruct p as [[x y] z]. reflexivity. Qed.
Lemma point_le p s : point32 p -> point_at (le_point p ++ s) 0 = p.
Proof.
  destruct p as [[x y] z]. intros (A & B & C). unfold point_at, le_point. rewrite !app_assoc_s. cbn [Nat.add].
  rewrite u32_le32 by auto. change 4%nat with (String.length (le32 x)). rewrite u32_at by auto.
  change 8%nat with (String.length (le32 x ++ le32 y)). rewrite <- (app_assoc_s (le32 x)), u32_at by auto. reflexivity.
Qed.
Lemma point_drop n s k : point_at (drop n s) k = point_at s (n + k).
Proof. unfold point_at. rewrite !u32_drop. f_equal; [f_equal; f_equal; lia|f_equal; lia]. Qed.
Lemma point_in a p s : point32 p -> point_at (a ++ le_point p ++ s) (String.length a) = p.
Proof. intros H. rewrite <- (point_le p s H) at 2. pose proof (point_drop (String.length a) (a ++ le_point p ++ s) 0) as E. rewrite drop_app, Nat.add_0_r in E. symmetry. exact E. Qed.
Lemma wfb_len f : String.length (write_facet_binary f) = 50%nat.
Proof. destruct f as [[a b] c]. unfold write_facet_binary. rewrite !app_len, !le_point_len. reflexivity. Qed.
Lemma wfb_points a b c s : facet32_ok (a, b, c) ->
  let t := write_facet_binary (a, b, c) ++ s in point_at t 12 = a /\ point_at t 24 = b /\ point_at t 36 = c.
Proof.
  intros (A & B & C). cbv zeta. unfold write_facet_binary. set (n := le_point (0,0,0)%Z). rewrite !app_assoc_s. split; [|split].
  - change 12%nat with (String.length n). apply point_in; auto.
  - replace 24%nat with (String.length (n ++ le_point a)) by (rewrite app_len, !le_point_len; reflexivity). rewrite <- (app_assoc_s n). apply point_in; auto.
  - replace 36%nat with (String.length (n ++ le_point a ++ le_point b)) by (rewrite !app_len, !le_point_len; reflexivity).
    replace (n ++ le_point a ++ le_point b ++ le_point c ++ rep 2 zero ++ s) with ((n ++ le_point a ++ le_point b) ++ le_point c ++ rep 2 zero ++ s) by (rewrite !app_assoc_s; reflexivity).
    apply point_in; auto.
Qed.
Lemma facets_back fs s : Forall facet32_ok fs -> read_facets (List.length fs) (cat (map write_facet_binary fs) ++ s) = Ret fs.
Proof.
  induction fs as [|[[a b] c] fs IH]; intros H; [reflexivity|]. inversion H as [|? ? H1 H2]; subst. cbn [List.length read_facets map cat].
  rewrite app_assoc_s. destruct (Nat.ltb_spec (String.length (write_facet_binary (a, b, c) ++ cat (map write_facet_binary fs) ++ s)) 50) as [L|L].
  - rewrite app_len, wfb_len in L. lia.
  - replace (drop 50 (write_facet_binary (a, b, c) ++ cat (map write_facet_binary fs) ++ s)) with (cat (map write_facet_binary fs) ++ s)
      by (pose proof (drop_app (write_facet_binary (a, b, c)) (cat (map write_facet_binary fs) ++ s)) as Q; rewrite wfb_len in Q; symmetry; exact Q).
    rewrite IH by auto. cbn [obind]. destruct (wfb_points a b c (cat (map write_facet_binary fs) ++ s) H1) as (-> & -> & ->). reflexivity.
Qed.
Lemma header_len n : String.length ("microstl" ++ rep 72 zero ++ le32 n) = 84%nat. Proof. reflexivity. Qed.
Lemma cat_wfb_len fs : String.length (cat (map write_facet_binary fs)) = (50 * List.length fs)%nat.
Proof. induction fs as [|f fs IH]; [reflexivity|]. cbn [map cat List.length]. rewrite app_len, wfb_len, IH. lia. Qed.
Lemma binary_len fs : String.length (write_binary fs) = (84 + 50 * List.length fs)%nat.
Proof. unfold write_binary. rewrite <- !app_assoc_s, app_len, app_assoc_s, header_len, cat_wfb_len. reflexivity. Qed.
Lemma binary_not_ascii fs : is_ascii (write_binary fs) = false.
Proof. reflexivity. Qed.
Lemma binary_back getf junk fs : Forall facet32_ok fs -> (1 <= List.length fs)%nat -> (Z.of_nat (List.length fs) <= 500000000)%Z -> read_stream getf junk (write_binary fs) = Ret fs.
Proof.
  intros H L1 L2. unfold read_stream. rewrite binary_not_ascii. unfold read_binary.
  assert (L : (String.length (write_binary fs) = 84 + 50 * List.length fs)%nat) by apply binary_len.
  destruct (Nat.ltb_spec (String.length (write_binary fs)) 80); [lia|]. destruct (Nat.ltb_spec (String.length (write_binary fs)) 84); [lia|].
  assert (N : u32 (write_binary fs) 80 = Z.of_nat (List.length fs)).
  { unfold write_binary. change 80%nat with (String.length ("microstl" ++ rep 72 zero)). rewrite <- (app_assoc_s "microstl"). rewrite Z.mod_small by lia.
    apply u32_at. unfold is32. lia. }
  rewrite N. destruct (Z.eqb_spec (Z.of_nat (List.length fs)) 0); [lia|]. destruct (Z.ltb_spec 500000000 (Z.of_nat (List.length fs))); [lia|]. rewrite Nat2Z.id.
  replace (drop 84 (write_binary fs)) with (cat (map write_facet_binary fs)).
  - rewrite <- (app_nil_s (cat _)). apply facets_back; auto.
  - pose proof (drop_app ("microstl" ++ rep 72 zero ++ le32 (Z.of_nat (List.length fs) mod 4294967296)) (cat (map write_facet_binary fs))) as Q.
    rewrite header_len in Q. symmetry. exact Q.
Qed.
Lemma read_facets_spec n : forall s fs, read_facets n s = Ret fs <->
  (50 * n <= String.length s)%nat /\ List.length fs = n /\ forall i f, nth_error fs i = Some f -> f = (point_at s (50 * i + 12), point_at s (50 * i + 24), point_at s (50 * i + 36)).
Proof.
  induction n as [|n IH]; intros s fs; cbn [read_facets].
  - split; [intros Q; injection Q as <-; repeat split; [lia|intros [|i] f; discriminate]|]. intros (_ & L & _). destruct fs; [reflexivity|discriminate].
  - destruct (Nat.ltb_spec (String.length s) 50) as [L|L]; [split; [discriminate|intros (B & _); lia]|].
    split.
    + destruct (read_facets n (drop 50 s)) as [gs|] eqn:E; cbn [obind]; [|discriminate]. intros Q; injection Q as <-. apply IH in E as (B & LE & G). rewrite drop_len in B.
      split; [lia|]. split; [cbn; lia|]. intros [|i] f K; cbn in K.
      * injection K as <-. reflexivity.
      * rewrite (G i f K), !point_drop. replace (50 * S i + 12)%nat with (50 + (50 * i + 12))%nat by lia. replace (50 * S i + 24)%nat with (50 + (50 * i + 24))%nat by lia. replace (50 * S i + 36)%nat with (50 + (50 * i + 36))%nat by lia. reflexivity.
    + intros (B & LE & G). destruct fs as [|f gs]; [discriminate|]. injection LE as LE.
      assert (E : read_facets n (drop 50 s) = Ret gs).
      { apply IH. rewrite drop_len. split; [lia|]. split; [exact LE|]. intros i g K. rewrite (G (S i) g K), !point_drop. replace (50 * S i + 12)%nat with (50 + (50 * i + 12))%nat by lia. replace (50 * S i + 24)%nat with (50 + (50 * i + 24))%nat by lia. replace (50 * S i + 36)%nat with (50 + (50 * i + 36))%nat by lia. reflexivity. }
      rewrite E. cbn [obind]. rewrite (G O f eq_refl). reflexivity.
Qed.
