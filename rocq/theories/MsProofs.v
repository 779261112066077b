(** Proofs for marching_squares *)
From Coq Require Import List Arith ZArith Reals Lra Lia Bool Permutation.
From Verif Require Import PyExn NumpyModel RelabelModel RelabelSpec RelabelProofs MsModel MsSpec.
Import ListNotations.
Open Scope R_scope.

Definition zpos (S : nat -> nat -> R) (e : gedge) : list R :=
  let p := at_node S (node1 e) in let q := at_node S (node2 e) in
  match e with Hor i j => [INR i - p / (q - p); INR j] | Ver i j => [INR i; INR j - p / (q - p)] end.
Definition cell_segs (S : nat -> nat -> R) (i j : nat) : list (gedge * gedge) :=
  let B := Hor i j in let Rt := Ver (i + 1) j in let T := Hor i (j + 1) in let L := Ver i j in
  match pos (S i j), pos (S (i + 1)%nat j), pos (S (i + 1)%nat (j + 1)%nat), pos (S i (j + 1)%nat) with
  | true, false, false, false => [(L, B)]
  | false, true, true, true => [(B, L)]
  | false, true, false, false => [(B, Rt)]
  | true, false, true, true => [(Rt, B)]
  | true, true, false, false => [(L, Rt)]
  | false, false, true, true => [(Rt, L)]
  | false, false, true, false => [(Rt, T)]
  | true, true, false, true => [(T, Rt)]
  | true, false, true, false => [(L, B); (Rt, T)]
  | false, true, false, true => [(B, L); (T, Rt)]
  | false, true, true, false => [(B, T)]
  | true, false, false, true => [(T, B)]
  | true, true, true, false => [(L, T)]
  | false, false, false, true => [(T, L)]
  | _, _, _, _ => []
  end.
Definition cell_of (S : nat -> nat -> R) (i j : nat) := ms_cell (INR i) (INR j) (S i j) (S (i + 1)%nat j) (S (i + 1)%nat (j + 1)%nat) (S i (j + 1)%nat).
Definition ends_of (c : list (list R) * list (nat * nat)) : list (list R * list R) := map (fun e => (nth (fst e) (fst c) [], nth (snd e) (fst c) [])) (snd c).
Definition wf (c : list (list R) * list (nat * nat)) : Prop := Forall (fun e => (fst e < length (fst c))%nat /\ (snd e < length (fst c))%nat) (snd c).

Lemma pos_true x : pos x = true -> 0 < x.
Proof. unfold pos. destruct (Rgt_dec x 0); [lra|discriminate]. Qed.
Lemma pos_false x : pos x = false -> x <= 0.
Proof. unfold pos. destruct (Rgt_dec x 0); [discriminate|lra]. Qed.

Ltac corners S i j :=
  destruct (pos (S i j)) eqn:?PA, (pos (S (i + 1)%nat j)) eqn:?PB, (pos (S (i + 1)%nat (j + 1)%nat)) eqn:?PC, (pos (S i (j + 1)%nat)) eqn:?PD.
Lemma cell_ends S i j : ends_of (cell_of S i j) = map (fun s => (zpos S (fst s), zpos S (snd s))) (cell_segs S i j).
Proof.
  unfold ends_of, cell_of, ms_cell, kindex, cell_segs. 
  corners S i j; cbn; rewrite ?plus_INR; reflexivity.
Qed.
Lemma cell_wf S i j : wf (cell_of S i j).
Proof.
  unfold wf, cell_of, ms_cell, kindex. corners S i j; cbn; repeat constructor; cbn; lia.
Qed.
(** every vertex of a cell is an endpoint of one of its edges *)
Lemma cell_used S i j v : In v (fst (cell_of S i j)) -> exists s, In s (cell_segs S i j) /\ (v = zpos S (fst s) \/ v = zpos S (snd s)).
Proof.
  unfold cell_of, ms_cell, kindex, cell_segs. corners S i j; cbn; intros H;
  repeat match goal with H : _ \/ _ |- _ => destruct H as [H|H] | H : False |- _ => destruct H end; subst v; rewrite <- ?plus_INR;
  try (eexists; split; [left; reflexivity|]; cbn; unfold zpos, at_node; cbn; rewrite ?plus_INR; auto; fail);
  (eexists; split; [right; left; reflexivity|]; cbn; unfold zpos, at_node; cbn; rewrite ?plus_INR; auto).
Qed.

(** counts of one cell *)
Definition b2n (b : bool) : nat := if b then 1%nat else 0%nat.
Lemma cell_starts S i j e : starts e (cell_segs S i j) =
  match e with
  | Hor k l => (b2n (Nat.eqb k i && Nat.eqb l j && (pos (S (i + 1)%nat j) && negb (pos (S i j))))
               + b2n (Nat.eqb k i && Nat.eqb l (j + 1) && (pos (S i (j + 1)%nat) && negb (pos (S (i + 1)%nat (j + 1)%nat)))))%nat
  | Ver k l => (b2n (Nat.eqb k i && Nat.eqb l j && (pos (S i j) && negb (pos (S i (j + 1)%nat))))
               + b2n (Nat.eqb k (i + 1) && Nat.eqb l j && (pos (S (i + 1)%nat (j + 1)%nat) && negb (pos (S (i + 1)%nat j)))))%nat
  end.
Proof.
  unfold starts, cell_segs. destruct e as [k l|k l]; corners S i j; cbn [filter fst snd gedge_eqb negb andb];
   rewrite ?andb_false_r, ?andb_true_r; cbn [b2n Nat.add];
   repeat match goal with |- context[Nat.eqb ?a ?b && Nat.eqb ?c ?d] => destruct (Nat.eqb a b && Nat.eqb c d) eqn:?E end; cbn [length b2n Nat.add]; auto.
Qed.
Lemma cell_ends_cnt S i j e : ends e (cell_segs S i j) =
  match e with
  | Hor k l => (b2n (Nat.eqb k i && Nat.eqb l j && (pos (S i j) && negb (pos (S (i + 1)%nat j))))
               + b2n (Nat.eqb k i && Nat.eqb l (j + 1) && (pos (S (i + 1)%nat (j + 1)%nat) && negb (pos (S i (j + 1)%nat)))))%nat
  | Ver k l => (b2n (Nat.eqb k i && Nat.eqb l j && (pos (S i (j + 1)%nat) && negb (pos (S i j))))
               + b2n (Nat.eqb k (i + 1) && Nat.eqb l j && (pos (S (i + 1)%nat j) && negb (pos (S (i + 1)%nat (j + 1)%nat)))))%nat
  end.
Proof.
  unfold ends, cell_segs. destruct e as [k l|k l]; corners S i j; cbn [filter fst snd gedge_eqb negb andb];
   rewrite ?andb_false_r, ?andb_true_r; cbn [b2n Nat.add];
   repeat match goal with |- context[Nat.eqb ?a ?b && Nat.eqb ?c ?d] => destruct (Nat.eqb a b && Nat.eqb c d) eqn:?E end; cbn [length b2n Nat.add]; auto.
Qed.

Lemma cell_crossing S i j s : In s (cell_segs S i j) -> crossing S (fst s) /\ crossing S (snd s)
   /\ (forall e, e = fst s \/ e = snd s -> fst (node2 e) <= i + 1 /\ snd (node2 e) <= j + 1)%nat.
Proof.
  unfold cell_segs. corners S i j; cbn [In]; intros H;
  repeat match goal with H : pos _ = true |- _ => apply pos_true in H | H : pos _ = false |- _ => apply pos_false in H end;
  repeat match goal with H : _ \/ _ |- _ => destruct H as [H|H] | H : False |- _ => destruct H end; subst s; unfold crossing, at_node; cbn [fst snd node1 node2];
  (split; [lra|split; [lra|]]); intros e [->| ->]; cbn; lia.
Qed.

(** the positive corner is on the right *)
Lemma cell_turn S i j s p q : In s (cell_segs S i j) -> is_zero S (fst s) p -> is_zero S (snd s) q ->
  forall e n, e = fst s \/ e = snd s -> n = node1 e \/ n = node2 e ->
  (0 < at_node S n -> turn p q n <= 0) /\ (at_node S n <= 0 -> 0 <= turn p q n).
Proof.
  unfold cell_segs. intros H (t & Ht & Zt & Xt & Yt) (u & Hu & Zu & Xu & Yu) e n He Hn.
  corners S i j; cbn [In] in H;
  repeat match goal with H : pos _ = true |- _ => apply pos_true in H | H : pos _ = false |- _ => apply pos_false in H end;
  repeat match goal with H : _ \/ _ |- _ => destruct H as [H|H] | H : False |- _ => destruct H end; subst s; cbn [fst snd node1 node2] in *;
  subst e; cbn [node1 node2] in Hn; subst n; unfold turn, at_node in *; cbn [fst snd] in *; rewrite Xt, Yt, Xu, Yu, ?plus_INR; cbn [INR];
  split; intros SN; try lra; nra.
Qed.

Lemma append_wf st c : wf st -> wf c -> wf (ms_append st c).
Proof.
  unfold wf, ms_append. intros A B. cbn [fst snd]. rewrite app_length. apply Forall_app. split.
  - eapply Forall_impl; [|exact A]. cbn. intros; lia.
  - rewrite Forall_map. eapply Forall_impl; [|exact B]. cbn. intros; lia.
Qed.
Lemma append_ends st c : wf st -> ends_of (ms_append st c) = ends_of st ++ ends_of c.
Proof.
  intros W. unfold ends_of, ms_append. cbn [fst snd]. rewrite map_app, map_map. f_equal.
  - apply map_ext_in. intros e I. unfold wf in W. rewrite Forall_forall in W. destruct (W e I). rewrite !app_nth1 by lia. reflexivity.
  - apply map_ext. intros e. cbn [fst snd]. rewrite !app_nth2 by lia. do 2 f_equal; lia.
Qed.
Lemma fold_append cs : forall st, wf st -> Forall wf cs ->
  let r := fold_left ms_append cs st in
  wf r /\ ends_of r = ends_of st ++ flat_map ends_of cs /\ fst r = fst st ++ flat_map fst cs.
Proof.
  induction cs as [|c cs IH]; intros st W F; cbn [fold_left flat_map].
  - rewrite !app_nil_r. auto.
  - inversion F; subst. destruct (IH (ms_append st c) (append_wf st c W H1) H2) as (A & B & C). split; [exact A|]. split.
    + rewrite B, append_ends, app_assoc; auto.
    + rewrite C. unfold ms_append; cbn [fst]. rewrite app_assoc. reflexivity.
Qed.

Definition trace (S : nat -> nat -> R) (nx ny : nat) : list (gedge * gedge) :=
  flat_map (fun i => flat_map (fun j => cell_segs S i j) (seq 0 (ny - 1))) (seq 0 (nx - 1)).
Lemma flat_map_map' {A B C} (f : B -> list C) (g : A -> B) l : flat_map f (map g l) = flat_map (fun x => f (g x)) l.
Proof. induction l; cbn; congruence. Qed.
Lemma flat_map_flat_map {A B C} (f : B -> list C) (g : A -> list B) l : flat_map f (flat_map g l) = flat_map (fun x => flat_map f (g x)) l.
Proof. induction l as [|x l IH]; cbn; auto. rewrite flat_map_app, IH. reflexivity. Qed.
Lemma map_flat_map' {A B C} (f : B -> C) (g : A -> list B) l : map f (flat_map g l) = flat_map (fun x => map f (g x)) l.
Proof. induction l as [|x l IH]; cbn; auto. rewrite map_app, IH. reflexivity. Qed.
Lemma flat_map_ext' {A B} (f g : A -> list B) l : (forall x, In x l -> f x = g x) -> flat_map f l = flat_map g l.
Proof. induction l as [|x l IH]; cbn; intros H; auto. rewrite H, IH; auto. Qed.

Lemma raw_ok S nx ny : let r := ms_raw S nx ny in
  wf r /\ ends_of r = map (fun s => (zpos S (fst s), zpos S (snd s))) (trace S nx ny)
  /\ forall v, In v (fst r) -> exists s, In s (trace S nx ny) /\ (v = zpos S (fst s) \/ v = zpos S (snd s)).
Proof.
  cbn zeta. unfold ms_raw.
  assert (W0 : wf ([], [])) by constructor.
  assert (FC : Forall wf (ms_cells S nx ny)).
  { apply Forall_forall. intros c I. unfold ms_cells in I. apply in_flat_map in I as (i & _ & I). apply in_map_iff in I as (j & <- & _). apply cell_wf. }
  destruct (fold_append (ms_cells S nx ny) ([], []) W0 FC) as (A & B & C). split; [exact A|]. split.
  - rewrite B. cbn [ends_of snd map app]. unfold ms_cells, trace. rewrite flat_map_flat_map, map_flat_map'. apply flat_map_ext'. intros i _.
    rewrite flat_map_map', map_flat_map'. apply flat_map_ext'. intros j _. apply cell_ends.
  - intros v I. rewrite C in I. cbn [fst app] in I. apply in_flat_map in I as (c & Ic & Iv). unfold ms_cells in Ic.
    apply in_flat_map in Ic as (i & Ii & Ic). apply in_map_iff in Ic as (j & <- & Ij). destruct (cell_used S i j v Iv) as (s & Is & E).
    exists s. split; auto. unfold trace. apply in_flat_map. exists i. split; auto. apply in_flat_map. exists j. auto.
Qed.

(** counting over all cells *)
Fixpoint nsum (f : nat -> nat) (l : list nat) : nat := match l with [] => 0%nat | x :: r => (f x + nsum f r)%nat end.
Lemma starts_app e T T' : starts e (T ++ T') = (starts e T + starts e T')%nat.
Proof. unfold starts. rewrite filter_app, app_length. reflexivity. Qed.
Lemma ends_app e T T' : ends e (T ++ T') = (ends e T + ends e T')%nat.
Proof. unfold ends. rewrite filter_app, app_length. reflexivity. Qed.
Lemma starts_flat e f l : starts e (flat_map f l) = nsum (fun x => starts e (f x)) l.
Proof. induction l as [|x l IH]; cbn [flat_map nsum]; auto. rewrite starts_app, IH. reflexivity. Qed.
Lemma ends_flat e f l : ends e (flat_map f l) = nsum (fun x => ends e (f x)) l.
Proof. induction l as [|x l IH]; cbn [flat_map nsum]; auto. rewrite ends_app, IH. reflexivity. Qed.
Lemma nsum_ext f g l : (forall x, In x l -> f x = g x) -> nsum f l = nsum g l.
Proof. induction l; cbn; intros H; auto. Qed.
Lemma nsum_plus f g l : nsum (fun x => f x + g x)%nat l = (nsum f l + nsum g l)%nat.
Proof. induction l; cbn; lia. Qed.
Lemma nsum_zero l : nsum (fun _ => 0%nat) l = 0%nat.
Proof. induction l; cbn; auto. Qed.
Lemma nsum_pick n k g : nsum (fun x => if Nat.eqb k x then g x else 0%nat) (seq 0 n) = if Nat.ltb k n then g k else 0%nat.
Proof.
  induction n as [|n IH]; auto. rewrite seq_S. cbn [Nat.add].
  assert (AP : forall f (l l' : list nat), nsum f (l ++ l') = (nsum f l + nsum f l')%nat) by (induction l; cbn; intros; auto; rewrite IHl; lia).
  rewrite AP, IH. cbn [nsum]. destruct (Nat.eqb_spec k n), (Nat.ltb_spec k n), (Nat.ltb_spec k (S n)); subst; try lia.
Qed.
(** a pick shifted by one *)
Lemma nsum_pick1 n k g : nsum (fun x => if Nat.eqb k (x + 1) then g x else 0%nat) (seq 0 n) = if Nat.ltb 0 k && Nat.ltb (k - 1) n then g (k - 1)%nat else 0%nat.
Proof.
  destruct k as [|k].
  - cbn [Nat.ltb Nat.leb andb]. rewrite (nsum_ext _ (fun _ => 0%nat)), nsum_zero; auto. intros x _. destruct (Nat.eqb_spec 0 (x + 1)); [lia|auto].
  - change (Nat.ltb 0 (S k)) with true. cbn [andb]. replace (S k - 1)%nat with k by lia. rewrite <- (nsum_pick n k g). apply nsum_ext. intros x _. destruct (Nat.eqb_spec (S k) (x + 1)), (Nat.eqb_spec k x); subst; try lia.
Qed.

Lemma dsum nx ny (k l : nat) (b : nat -> nat -> bool) :
  nsum (fun i => nsum (fun j => b2n (Nat.eqb k i && Nat.eqb l j && b i j)) (seq 0 ny)) (seq 0 nx) = b2n (Nat.ltb k nx && Nat.ltb l ny && b k l).
Proof.
  rewrite (nsum_ext _ (fun i => if Nat.eqb k i then (if Nat.ltb l ny then b2n (b i l) else 0%nat) else 0%nat)).
  - rewrite nsum_pick. destruct (Nat.ltb k nx), (Nat.ltb l ny); auto.
  - intros i _. rewrite (nsum_ext _ (fun j => if Nat.eqb l j then (if Nat.eqb k i then b2n (b i j) else 0%nat) else 0%nat)).
    + rewrite nsum_pick. destruct (Nat.eqb k i), (Nat.ltb l ny); auto.
    + intros j _. destruct (Nat.eqb k i), (Nat.eqb l j); auto.
Qed.
Lemma dsum_j nx ny (k l : nat) (b : nat -> nat -> bool) :
  nsum (fun i => nsum (fun j => b2n (Nat.eqb k i && Nat.eqb l (j + 1) && b i j)) (seq 0 ny)) (seq 0 nx) = b2n (Nat.ltb k nx && (Nat.ltb 0 l && Nat.ltb (l - 1) ny) && b k (l - 1)%nat).
Proof.
  rewrite (nsum_ext _ (fun i => if Nat.eqb k i then (if Nat.ltb 0 l && Nat.ltb (l - 1) ny then b2n (b i (l - 1)%nat) else 0%nat) else 0%nat)).
  - rewrite nsum_pick. destruct (Nat.ltb k nx), (Nat.ltb 0 l && Nat.ltb (l - 1) ny); auto.
  - intros i _. rewrite (nsum_ext _ (fun j => if Nat.eqb l (j + 1) then (if Nat.eqb k i then b2n (b i j) else 0%nat) else 0%nat)).
    + rewrite (nsum_pick1 ny l (fun j => if Nat.eqb k i then b2n (b i j) else 0%nat)). destruct (Nat.eqb k i), (Nat.ltb 0 l && Nat.ltb (l - 1) ny); auto.
    + intros j _. destruct (Nat.eqb k i), (Nat.eqb l (j + 1)); auto.
Qed.
Lemma dsum_i nx ny (k l : nat) (b : nat -> nat -> bool) :
  nsum (fun i => nsum (fun j => b2n (Nat.eqb k (i + 1) && Nat.eqb l j && b i j)) (seq 0 ny)) (seq 0 nx) = b2n ((Nat.ltb 0 k && Nat.ltb (k - 1) nx) && Nat.ltb l ny && b (k - 1)%nat l).
Proof.
  rewrite (nsum_ext _ (fun i => if Nat.eqb k (i + 1) then (if Nat.ltb l ny then b2n (b i l) else 0%nat) else 0%nat)).
  - rewrite (nsum_pick1 nx k (fun i => if Nat.ltb l ny then b2n (b i l) else 0%nat)). destruct (Nat.ltb 0 k && Nat.ltb (k - 1) nx), (Nat.ltb l ny); auto.
  - intros i _. rewrite (nsum_ext _ (fun j => if Nat.eqb l j then (if Nat.eqb k (i + 1) then b2n (b i j) else 0%nat) else 0%nat)).
    + rewrite nsum_pick. destruct (Nat.eqb k (i + 1)), (Nat.ltb l ny); auto.
    + intros j _. destruct (Nat.eqb k (i + 1)), (Nat.eqb l j); auto.
Qed.

Lemma crossing_bool S e : crossing S e <-> pos (at_node S (node1 e)) <> pos (at_node S (node2 e)).
Proof.
  unfold crossing, pos. destruct (Rgt_dec (at_node S (node1 e)) 0), (Rgt_dec (at_node S (node2 e)) 0); split; intros H; try congruence; try lra.
Qed.

Lemma trace_counts S nx ny e : (2 <= nx)%nat -> (2 <= ny)%nat -> in_grid nx ny e -> crossing S e ->
  (inner nx ny e -> starts e (trace S nx ny) = 1%nat /\ ends e (trace S nx ny) = 1%nat)
  /\ (~ inner nx ny e -> (starts e (trace S nx ny) + ends e (trace S nx ny) = 1)%nat).
Proof.
  intros NX NY IG CR. apply crossing_bool in CR. unfold trace. rewrite starts_flat, ends_flat.
  rewrite (nsum_ext (fun x => starts e (flat_map _ _)) (fun i => nsum (fun j => starts e (cell_segs S i j)) (seq 0 (ny - 1)))) by (intros; apply starts_flat).
  rewrite (nsum_ext (fun x => ends e (flat_map _ _)) (fun i => nsum (fun j => ends e (cell_segs S i j)) (seq 0 (ny - 1)))) by (intros; apply ends_flat).
  destruct e as [k l|k l]; unfold in_grid in IG; cbn [node1 node2 fst snd] in IG, CR; unfold at_node in CR; cbn [fst snd] in CR; cbn [inner].
  - rewrite (nsum_ext _ (fun i => nsum (fun j => b2n (Nat.eqb k i && Nat.eqb l j && (fun i j => pos (S (i + 1)%nat j) && negb (pos (S i j))) i j)) (seq 0 (ny - 1))
               + nsum (fun j => b2n (Nat.eqb k i && Nat.eqb l (j + 1) && (fun i j => pos (S i (j + 1)%nat) && negb (pos (S (i + 1)%nat (j + 1)%nat))) i j)) (seq 0 (ny - 1)))%nat).
    2:{ intros i _. rewrite <- nsum_plus. apply nsum_ext. intros j _. rewrite cell_starts. reflexivity. }
    rewrite nsum_plus, dsum, dsum_j.
    rewrite (nsum_ext _ (fun i => nsum (fun j => b2n (Nat.eqb k i && Nat.eqb l j && (fun i j => pos (S i j) && negb (pos (S (i + 1)%nat j))) i j)) (seq 0 (ny - 1))
               + nsum (fun j => b2n (Nat.eqb k i && Nat.eqb l (j + 1) && (fun i j => pos (S (i + 1)%nat (j + 1)%nat) && negb (pos (S i (j + 1)%nat))) i j)) (seq 0 (ny - 1)))%nat).
    2:{ intros i _. rewrite <- nsum_plus. apply nsum_ext. intros j _. rewrite cell_ends_cnt. reflexivity. }
    rewrite nsum_plus, dsum, dsum_j.
    destruct (Nat.ltb_spec k (nx - 1)); [|lia]. cbn [andb].
    destruct (Nat.ltb_spec 0 l), (Nat.ltb_spec (l - 1) (ny - 1)), (Nat.ltb_spec l (ny - 1)); try lia; cbn [andb];
    try replace (l - 1 + 1)%nat with l by lia; destruct (pos (S k l)), (pos (S (k + 1)%nat l)); try congruence; cbn; split; intros; try lia; split; lia.
  - rewrite (nsum_ext _ (fun i => nsum (fun j => b2n (Nat.eqb k i && Nat.eqb l j && (fun i j => pos (S i j) && negb (pos (S i (j + 1)%nat))) i j)) (seq 0 (ny - 1))
               + nsum (fun j => b2n (Nat.eqb k (i + 1) && Nat.eqb l j && (fun i j => pos (S (i + 1)%nat (j + 1)%nat) && negb (pos (S (i + 1)%nat j))) i j)) (seq 0 (ny - 1)))%nat).
    2:{ intros i _. rewrite <- nsum_plus. apply nsum_ext. intros j _. rewrite cell_starts. reflexivity. }
    rewrite nsum_plus, dsum, dsum_i.
    rewrite (nsum_ext _ (fun i => nsum (fun j => b2n (Nat.eqb k i && Nat.eqb l j && (fun i j => pos (S i (j + 1)%nat) && negb (pos (S i j))) i j)) (seq 0 (ny - 1))
               + nsum (fun j => b2n (Nat.eqb k (i + 1) && Nat.eqb l j && (fun i j => pos (S (i + 1)%nat j) && negb (pos (S (i + 1)%nat (j + 1)%nat))) i j)) (seq 0 (ny - 1)))%nat).
    2:{ intros i _. rewrite <- nsum_plus. apply nsum_ext. intros j _. rewrite cell_ends_cnt. reflexivity. }
    rewrite nsum_plus, dsum, dsum_i.
    destruct (Nat.ltb_spec l (ny - 1)); [|lia]. cbn [andb].
    destruct (Nat.ltb_spec 0 k), (Nat.ltb_spec (k - 1) (nx - 1)), (Nat.ltb_spec k (nx - 1)); try lia; cbn [andb];
    try replace (k - 1 + 1)%nat with k by lia; destruct (pos (S k l)), (pos (S k (l + 1)%nat)); try congruence; cbn; split; intros; try lia; split; lia.
Qed.
