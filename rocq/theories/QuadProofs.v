From Coq Require Import List Arith ZArith Reals Bool Lia Lra.
From Verif Require Import PyExn LoopsModel LoopsProofs QuadModel QuadSpec.
Import ListNotations.
Open Scope Z_scope.

Definition bit (k q : nat) : Z := Z.b2z (Nat.testbit q k).
Lemma bit_range k q : 0 <= bit k q <= 1.
Proof. unfold bit. destruct (Nat.testbit q k); simpl; lia. Qed.

(** ** integer coordinates *)
Definition pw (d : nat) : Z := 2 ^ Z.of_nat d.
Lemma pw_pos d : 0 < pw d.
Proof. unfold pw. apply Z.pow_pos_nonneg; lia. Qed.
Lemma pw_S d : pw (S d) = 2 * pw d.
Proof. unfold pw. rewrite Nat2Z.inj_succ, Z.pow_succ_r by lia. reflexivity. Qed.
Lemma pw_add a b : pw (a + b) = pw a * pw b.
Proof. unfold pw. rewrite Nat2Z.inj_add, Z.pow_add_r by lia. reflexivity. Qed.
(** along one axis: abutting and overlapping of dyadic intervals *)
Definition abut (d : nat) (x : Z) (d' : nat) (x' : Z) : Prop := (x + 1) * pw d' = x' * pw d.
Definition overlap (d : nat) (x : Z) (d' : nat) (x' : Z) : Prop := x * pw d' < (x' + 1) * pw d /\ x' * pw d < (x + 1) * pw d'.
Lemma overlap_sym d x d' x' : overlap d x d' x' <-> overlap d' x' d x.
Proof. unfold overlap. tauto. Qed.
(** cancelling the common power *)
Lemma abut_cf d x e y : abut d x (d + e) y <-> (x + 1) * pw e = y.
Proof. unfold abut. rewrite pw_add. pose proof (pw_pos d). nia. Qed.
Lemma abut_fc d x e y : abut (d + e) y d x <-> y + 1 = x * pw e.
Proof. unfold abut. rewrite pw_add. pose proof (pw_pos d). nia. Qed.
Lemma overlap_cf d x e y : overlap d x (d + e) y <-> x * pw e <= y < (x + 1) * pw e.
Proof.
  unfold overlap. rewrite pw_add. pose proof (pw_pos d).
  split; intros [A B].
  - split; [|nia]. assert (x * pw e < y + 1); [nia|lia].
  - split; nia.
Qed.
(** coarse cell against a child of a cell of depth at least its own *)
Lemma abut_cf_child d x e y b : 0 <= b <= 1 -> abut d x (S (d + e)) (2 * y + b) <-> abut d x (d + e) y /\ b = 0.
Proof. intro Hb. replace (S (d + e)) with (d + S e)%nat by lia. rewrite !abut_cf, pw_S. split; intros; [|nia]. split; [|nia]. nia. Qed.
Lemma abut_fc_child d x e y b : 0 <= b <= 1 -> abut (S (d + e)) (2 * y + b) d x <-> abut (d + e) y d x /\ b = 1.
Proof. intro Hb. replace (S (d + e)) with (d + S e)%nat by lia. rewrite !abut_fc, pw_S. split; intros; [|nia]. split; nia. Qed.
Lemma overlap_cf_child d x e y b : 0 <= b <= 1 -> overlap d x (S (d + e)) (2 * y + b) <-> overlap d x (d + e) y.
Proof. intro Hb. replace (S (d + e)) with (d + S e)%nat by lia. rewrite !overlap_cf, pw_S. split; intros; nia. Qed.
(** fine cell z inside cell 2y+c of depth d+1, against a cell x of depth d and its child 2x+b *)
Section fine.
Context (d e : nat) (x y c b z : Z).
Hypothesis Hb : 0 <= b <= 1.
Hypothesis Hc : 0 <= c <= 1.
Hypothesis Hz : (2 * y + c) * pw e <= z < (2 * y + c + 1) * pw e.
Lemma fine_abut_l : abut (S d + e) z d x <-> y + 1 = x /\ c = 1 /\ z + 1 = (2 * y + c + 1) * pw e.
Proof using Hb Hc Hz.
  replace (S d + e)%nat with (d + S e)%nat by lia. rewrite abut_fc, pw_S. pose proof (pw_pos e).
  split; [|intros (<- & -> & E); lia].
  intro E. assert (2 * y + c + 1 = 2 * x) by nia. nia.
Qed.
Lemma fine_abut_l_child : abut (S d + e) z (S d) (2 * x + b) <-> 2 * y + c + 1 = 2 * x + b /\ z + 1 = (2 * y + c + 1) * pw e.
Proof using Hb Hc Hz.
  rewrite abut_fc. pose proof (pw_pos e). split; [|intros (E & E'); nia].
  intro E. assert (2 * y + c + 1 = 2 * x + b) by nia. nia.
Qed.
Lemma fine_abut_r : abut d x (S d + e) z <-> x + 1 = y /\ c = 0 /\ z = (2 * y + c) * pw e.
Proof using Hb Hc Hz.
  replace (S d + e)%nat with (d + S e)%nat by lia. rewrite abut_cf, pw_S. pose proof (pw_pos e).
  split; [|intros (<- & -> & E); lia].
  intro E. assert (2 * y + c = 2 * (x + 1)) by nia. nia.
Qed.
Lemma fine_abut_r_child : abut (S d) (2 * x + b) (S d + e) z <-> 2 * x + b + 1 = 2 * y + c /\ z = (2 * y + c) * pw e.
Proof using Hb Hc Hz.
  rewrite abut_cf. pose proof (pw_pos e). split; [|intros (E & E'); nia].
  intro E. assert (2 * x + b + 1 = 2 * y + c) by nia. nia.
Qed.
Lemma fine_overlap : overlap d x (S d + e) z <-> x = y.
Proof using Hb Hc Hz.
  replace (S d + e)%nat with (d + S e)%nat by lia. rewrite overlap_cf, pw_S. pose proof (pw_pos e).
  split; [intros [A B]; nia|intros ->; nia].
Qed.
Lemma fine_overlap_child : overlap (S d) (2 * x + b) (S d + e) z <-> 2 * x + b = 2 * y + c.
Proof using Hb Hc Hz.
  rewrite overlap_cf. pose proof (pw_pos e). split; [intros [A B]; nia|intros ->; nia].
Qed.
End fine.

(** ** the lookup tables *)
Definition code (k : nat) (plus : bool) : Z := 2 * Z.of_nat k + (if plus then 2 else 1).
Lemma code_pos k s : code k s <> 0.
Proof. unfold code. destruct s; lia. Qed.
Lemma code_inj k s k' s' : code k s = code k' s' -> k = k' /\ s = s'.
Proof. unfold code. destruct s, s'; intro; split; try reflexivity; lia. Qed.
Lemma flip_code dim k s : (dim = 2 \/ dim = 3)%nat -> (k < dim)%nat -> flip_dir (code k s) = code k (negb s).
Proof. intros [-> | ->] H; destruct k as [|[|[|]]], s; try lia; reflexivity. Qed.

Definition lookup_a_cols (dim : nat) (wh : Z) : list Z :=
  match filter (fun r => nth 0 r 0 =? wh) lookup_a with [r] => firstn (2 ^ (dim - 1)) (skipn 1 r) | _ => [] end.
Definition in_cols (l : list Z) (q : nat) : bool := existsb (fun x => x =? Z.of_nat q) l.
Lemma in_cols_spec l q : in_cols l q = true <-> In (Z.of_nat q) l.
Proof. unfold in_cols. rewrite existsb_exists. split; [intros (x & H & E); apply Z.eqb_eq in E; subst; auto|intro H; exists (Z.of_nat q); split; [auto|apply Z.eqb_refl]]. Qed.
Definition nodupb (l : list Z) : bool := (fix f l := match l with [] => true | x :: r => negb (existsb (Z.eqb x) r) && f r end) l.
Lemma nodupb_ok l : nodupb l = true -> NoDup l.
Proof.
  induction l as [|x l IH]; intro H; [constructor|]. cbn in H. apply andb_prop in H as [H1 H2]. constructor; [|apply IH, H2].
  intro I. apply negb_true_iff in H1. assert (existsb (Z.eqb x) l = true) as E; [|congruence].
  apply existsb_exists. exists x. split; [auto|apply Z.eqb_refl].
Qed.

Lemma table_a dim k s : (dim = 2 \/ dim = 3)%nat -> (k < dim)%nat ->
  (exists r, filter (fun r => nth 0 r 0 =? code k s) lookup_a = [r]) /\ NoDup (lookup_a_cols dim (code k s)) /\
  forall q, (q < 2 ^ dim)%nat -> in_cols (lookup_a_cols dim (code k s)) q = (bit k q =? (if s then 0 else 1)).
Proof.
  intros Hd Hk. split; [|split].
  - destruct Hd as [-> | ->]; destruct k as [|[|[|]]], s; try lia; eexists; reflexivity.
  - apply nodupb_ok. destruct Hd as [-> | ->]; destruct k as [|[|[|]]], s; try lia; reflexivity.
  - assert (forallb (fun q => Bool.eqb (in_cols (lookup_a_cols dim (code k s)) q) (bit k q =? (if s then 0 else 1))) (seq 0 (2 ^ dim)) = true) as H.
    { destruct Hd as [-> | ->]; destruct k as [|[|[|]]], s; try lia; vm_compute; reflexivity. }
    intros q Hq. rewrite forallb_forall in H. apply eqb_prop, H, in_seq. lia.
Qed.
Definition lookup_b_cols (wh : Z) (c : nat) : list Z := map snd (filter (fun e => (fst (fst e) =? wh) && (snd (fst e) =? Z.of_nat c)) lookup_b).
Lemma table_b dim k s c : (dim = 2 \/ dim = 3)%nat -> (k < dim)%nat -> (c < 2 ^ dim)%nat ->
  NoDup (lookup_b_cols (code k s) c) /\
  forall q, (q < 2 ^ dim)%nat -> in_cols (lookup_b_cols (code k s) c) q =
    (bit k c =? (if s then 1 else 0)) && (bit k q =? (if s then 0 else 1)) && forallb (fun l => Nat.eqb l k || (bit l q =? bit l c)) (seq 0 dim).
Proof.
  intros Hd Hk Hc.
  assert (forallb (fun c => nodupb (lookup_b_cols (code k s) c) && forallb (fun q => Bool.eqb (in_cols (lookup_b_cols (code k s) c) q)
      ((bit k c =? (if s then 1 else 0)) && (bit k q =? (if s then 0 else 1)) && forallb (fun l => Nat.eqb l k || (bit l q =? bit l c)) (seq 0 dim))) (seq 0 (2 ^ dim)))
      (seq 0 (2 ^ dim)) = true) as H.
  { destruct Hd as [-> | ->]; destruct k as [|[|[|]]], s; try lia; vm_compute; reflexivity. }
  rewrite forallb_forall in H. specialize (H c). rewrite andb_true_iff in H. destruct H as [H1 H2]; [apply in_seq; lia|].
  split; [apply nodupb_ok, H1|]. intros q Hq. rewrite forallb_forall in H2. apply eqb_prop, H2, in_seq. lia.
Qed.
Lemma table_sq dim q q' k s : (dim = 2 \/ dim = 3)%nat -> (q < 2 ^ dim)%nat -> (q' < 2 ^ dim)%nat -> (k < dim)%nat ->
  (square_mat dim q q' =? code k s) =
    (bit k q =? (if s then 0 else 1)) && (bit k q' =? (if s then 1 else 0)) && forallb (fun l => Nat.eqb l k || (bit l q =? bit l q')) (seq 0 dim).
Proof.
  intros Hd Hq Hq' Hk.
  assert (forallb (fun q => forallb (fun q' => Bool.eqb (square_mat dim q q' =? code k s)
    ((bit k q =? (if s then 0 else 1)) && (bit k q' =? (if s then 1 else 0)) && forallb (fun l => Nat.eqb l k || (bit l q =? bit l q')) (seq 0 dim))) (seq 0 (2 ^ dim))) (seq 0 (2 ^ dim)) = true) as H.
  { destruct Hd as [-> | ->]; destruct k as [|[|[|]]], s; try lia; vm_compute; reflexivity. }
  rewrite forallb_forall in H. specialize (H q). rewrite forallb_forall in H. apply eqb_prop, H; apply in_seq; lia.
Qed.
Lemma table_sq_codes dim q q' : (dim = 2 \/ dim = 3)%nat -> (q < 2 ^ dim)%nat -> (q' < 2 ^ dim)%nat ->
  square_mat dim q q' = 0 \/ exists k s, (k < dim)%nat /\ square_mat dim q q' = code k s.
Proof.
  intros Hd Hq Hq'.
  assert (forallb (fun q => forallb (fun q' => (square_mat dim q q' =? 0) || existsb (fun k => existsb (fun s => square_mat dim q q' =? code k s) [true; false]) (seq 0 dim)) (seq 0 (2 ^ dim))) (seq 0 (2 ^ dim)) = true) as H.
  { destruct Hd as [-> | ->]; vm_compute; reflexivity. }
  rewrite forallb_forall in H. specialize (H q). rewrite forallb_forall in H. specialize (H ltac:(apply in_seq; lia) q' ltac:(apply in_seq; lia)).
  apply orb_prop in H as [H|H]; [left; apply Z.eqb_eq, H|right].
  apply existsb_exists in H as (k & Hk & H). apply existsb_exists in H as (s & _ & H). exists k, s. apply in_seq in Hk. split; [lia|apply Z.eqb_eq, H].
Qed.
(** a child is determined by its bits *)
Lemma bits_inj dim q q' : (dim = 2 \/ dim = 3)%nat -> (q < 2 ^ dim)%nat -> (q' < 2 ^ dim)%nat ->
  (forall k, (k < dim)%nat -> bit k q = bit k q') -> q = q'.
Proof.
  intros Hd Hq Hq' H.
  assert (forallb (fun q => forallb (fun q' => negb (forallb (fun k => bit k q =? bit k q') (seq 0 dim)) || Nat.eqb q q') (seq 0 (2 ^ dim))) (seq 0 (2 ^ dim)) = true) as E.
  { destruct Hd as [-> | ->]; vm_compute; reflexivity. }
  rewrite forallb_forall in E. specialize (E q). rewrite forallb_forall in E. specialize (E ltac:(apply in_seq; lia) q' ltac:(apply in_seq; lia)).
  apply orb_prop in E as [E|E]; [|apply Nat.eqb_eq, E]. exfalso. apply negb_true_iff in E.
  assert (forallb (fun k => bit k q =? bit k q') (seq 0 dim) = true); [|congruence].
  apply forallb_forall. intros k Hk. apply in_seq in Hk. apply Z.eqb_eq, H. lia.
Qed.
