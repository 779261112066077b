(** C96: STL files.  Code: StlModel.v (microstl.h, microstl_wrappers.cpp, read_mesh.py:229-247, write_mesh.py:171-183).
    Vocabulary: TextModel.v ([split_on NL s], the pieces between newlines).  A float is its bit pattern; [to32] and [to64] are the
    conversions from and to double precision; [junk] is the uninitialised byte that the reader appends to the last line. *)
From Coq Require Import String Ascii List ZArith Bool Lia Arith Sorting.Sorted.
From Verif Require Import NumpyModel TextModel TextProofs RelabelModel P_Relabel StlModel StlProofs StlAscii StlAscii2.
Import ListNotations.
Open Scope string_scope.

(** rows of three coordinates, faces of at least three indices in range *)
Definition mesh_ok {Dbl} (V : list (list Dbl)) (F : list (list Z)) : Prop :=
  Forall (fun r => List.length r = 3%nat) V /\ Forall (fun f => (3 <= List.length f)%nat /\ Forall (fun j => (0 <= j < Z.of_nat (List.length V))%Z) f) F.
(** (V', F') is the triangle soup of (V, F): three new rows per face, its first three corners, each coordinate passed through conv *)
Definition soup_of {Dbl} (conv : Dbl -> Dbl) (V : list (list Dbl)) (F : list (list Z)) (V' : list (list Dbl)) (F' : list (list Z)) : Prop :=
  List.length V' = (3 * List.length F)%nat /\ List.length F' = List.length F /\
  forall i f, nth_error F i = Some f ->
    nth_error F' i = Some [Z.of_nat (3 * i); Z.of_nat (3 * i + 1); Z.of_nat (3 * i + 2)] /\
    forall k j row, (k < 3)%nat -> nth_error f k = Some j -> nth_error V (Z.to_nat j) = Some row -> nth_error V' (3 * i + k) = Some (map conv row).
(** (S, G) is the soup with equal rows merged *)
Definition merged_of {Dbl} (conv : Dbl -> Dbl) (V : list (list Dbl)) (F : list (list Z)) (SV : list (list Dbl)) (G : list (list Z)) : Prop :=
  NoDup SV /\ List.length G = List.length F /\ Forall (fun g => List.length g = 3%nat) G /\
  (forall i f k j row, nth_error F i = Some f -> (k < 3)%nat -> nth_error f k = Some j -> nth_error V (Z.to_nat j) = Some row ->
     exists g n, nth_error G i = Some g /\ nth_error g k = Some (Z.of_nat n) /\ nth_error SV n = Some (map conv row)) /\
  (forall x, In x SV -> exists i f k j row, nth_error F i = Some f /\ (k < 3)%nat /\ nth_error f k = Some j /\ nth_error V (Z.to_nat j) = Some row /\ x = map conv row).

(** what operator<< and operator>> on floats have to do: every number is written as at most 64 printable characters without blanks;
    a finite one is read back, as rt of it, up to the next blank or the end, after skipping blanks; nan and inf are not read *)
Record float_io (getf : string -> option (Z * string)) (show : Z -> string) (finite : Z -> Prop) (rt : Z -> Z) : Prop := {
  io_zero : finite 0%Z;
  io_show : forall x, show x <> "" /\ all_chars graphic (show x) /\ (String.length (show x) <= 64)%nat;
  io_get : forall x r, finite x -> (r = "" \/ exists r', r = String SP r') -> getf (show x ++ r) = Some (rt x, r);
  io_skip : forall s, getf (String SP s) = getf s;
  io_nonfinite : forall x r, ~ finite x -> getf (show x ++ r) = None;
  io_finite : forall x, finite x \/ ~ finite x }.

Lemma F2_length {A B} (R : A -> B -> Prop) xs ys : Forall2 R xs ys -> List.length xs = List.length ys.
Proof. induction 1; cbn; congruence. Qed.

Section Claims.
Context {Dbl : Type}.
Variable to32 : Dbl -> Z.
Variable to64 : Z -> Dbl.
Lemma facets_some V F : mesh_ok V F -> exists fs, facets32 to32 V F = Some fs.
Proof.
  intros (HV & HF). induction HF as [|f F (L & R) HF (fs & IH)]; [eexists; reflexivity|]. cbn [facets32]. rewrite IH.
  assert (C : forall k, (k < 3)%nat -> exists p, corner32 to32 V f k = Some p).
  { intros k K. unfold corner32. destruct (nth_error f k) as [j|] eqn:E; [|apply nth_error_None in E; lia].
    rewrite Forall_forall in R. specialize (R j (nth_error_In _ _ E)). destruct (Z.ltb_spec j 0); [lia|].
    destruct (nth_error V (Z.to_nat j)) as [r|] eqn:Q; [|apply nth_error_None in Q; lia]. rewrite Forall_forall in HV. specialize (HV r (nth_error_In _ _ Q)).
    destruct r as [|x [|y [|z [|]]]]; try discriminate. eauto. }
  unfold facet32. destruct (C 0%nat ltac:(lia)) as (a & ->), (C 1%nat ltac:(lia)) as (b & ->), (C 2%nat ltac:(lia)) as (c & ->). eauto.
Qed.
(** floats g such that every corner satisfies P *)
Lemma facets_all (P : Z -> Prop) V F fs : facets32 to32 V F = Some fs -> (forall row x, In row V -> In x row -> P (to32 x)) -> Forall (fin_facet P) fs.
Proof.
  revert fs. induction F as [|f F IH]; intros fs E H; cbn in E; [injection E as <-; constructor|].
  destruct (facet32 to32 V f) as [[[a b] c]|] eqn:G; [|discriminate]. destruct (facets32 to32 V F) as [gs|]; [|discriminate]. injection E as <-.
  constructor; [|apply IH; [reflexivity|exact H]]. apply facet_inv in G as (A & B & C).
  assert (Q : forall k p, corner32 to32 V f k = Some p -> fin_point P p).
  { intros k p E. apply corner_inv in E as (j & x & y & z & r & _ & _ & E & ->). apply nth_error_In in E. cbn. repeat split; apply (H _ _ E); cbn; auto. }
  cbn [fin_facet]. split; [|split]; [exact (Q 0%nat a A)|exact (Q 1%nat b B)|exact (Q 2%nat c C)].
Qed.
Lemma soup_back (g : Z -> Z) V F fs : mesh_ok V F -> facets32 to32 V F = Some fs ->
  soup_of (fun x => to64 (g (to32 x))) V F (fst (soup to64 (map (rt_facet g) fs))) (snd (soup to64 (map (rt_facet g) fs))).
Proof.
  intros (HV & HF) E. apply facets_nth in E as (L & N). destruct (soup_len to64 (map (rt_facet g) fs)) as (L1 & L2). rewrite map_length in L1, L2.
  split; [congruence|]. split; [congruence|]. intros i f EF. destruct (N i f EF) as ([[a b] c] & E1 & E2). split.
  - rewrite soup_F by (rewrite map_length; apply nth_error_Some; congruence). cbv zeta. do 2 f_equal. f_equal; [lia|]. f_equal. lia.
  - intros k j row K Ej Er. apply facet_inv in E2 as (A & B & C).
    pose proof (soup_V to64 (map (rt_facet g) fs) i (rt_point g a) (rt_point g b) (rt_point g c) (map_nth_error (rt_facet g) i fs E1)) as (VA & VB & VC).
    assert (Q : forall p, corner32 to32 V f k = Some p -> row64 to64 (rt_point g p) = map (fun x => to64 (g (to32 x))) row).
    { intros p P. apply corner_inv in P as (j' & x & y & z & r & Ej' & _ & Er' & ->). rewrite Ej in Ej'. injection Ej' as <-. rewrite Er in Er'. injection Er' as ->.
      rewrite Forall_forall in HV. specialize (HV _ (nth_error_In _ _ Er)). destruct r; [|discriminate]. reflexivity. }
    destruct k as [|[|[|k]]]; [| | |lia].
    + rewrite <- (Q a A), Nat.add_0_r. exact VA.
    + rewrite <- (Q b B). exact VB.
    + rewrite <- (Q c C). exact VC.
Qed.
Lemma rt_id fs : map (rt_facet (fun z => z)) fs = fs.
Proof. induction fs as [|[[[[? ?] ?] [[? ?] ?]] [[? ?] ?]] fs IH]; [reflexivity|]. cbn [map]. rewrite IH. reflexivity. Qed.

(** a binary file of a mesh with 1 to 500000000 faces has 84 + 50 m bytes and reads back as the soup, rounded to single precision *)
Theorem C96_binary_roundtrip : forall getf show junk V F, (forall x, (0 <= to32 x < 4294967296)%Z) -> mesh_ok V F -> (1 <= List.length F)%nat -> (Z.of_nat (List.length F) <= 500000000)%Z ->
  exists s V' F', write_stl show to32 V F true = Some s /\ String.length s = (84 + 50 * List.length F)%nat /\
    read_stl getf junk to64 s = Ret (V', F') /\ soup_of (fun x => to64 (to32 x)) V F V' F'.
Proof.
  intros getf show junk V F R M L1 L2. destruct (facets_some V F M) as (fs & E). pose proof (facets_nth to32 V F fs E) as (L & _).
  pose proof (soup_back (fun z => z) V F fs M E) as SB. rewrite rt_id in SB.
  exists (write_binary fs), (fst (soup to64 fs)), (snd (soup to64 fs)). unfold write_stl. rewrite E. split; [reflexivity|]. split; [rewrite binary_len; congruence|]. split; [|exact SB].
  unfold read_stl. rewrite binary_back; [reflexivity| |lia|lia].
  apply (Forall_impl _ (P := fin_facet is32)); [|eapply facets_all; [exact E|intros; apply R]].
  intros [[[[? ?] ?] [[? ?] ?]] [[? ?] ?]]. cbn. tauto.
Qed.

(** an ASCII file below 8 GB of a mesh with finite coordinates reads back as the soup, each coordinate printed and read *)
Theorem C96_ascii_roundtrip : forall getf show finite rt junk V F, float_io getf show finite rt -> mesh_ok V F -> (forall row x, In row V -> In x row -> finite (to32 x)) ->
  (forall s, write_stl show to32 V F false = Some s -> (Z.of_nat (String.length s) < 8388608084)%Z) ->
  exists s V' F', write_stl show to32 V F false = Some s /\ read_stl getf junk to64 s = Ret (V', F') /\ soup_of (fun x => to64 (rt (to32 x))) V F V' F'.
Proof.
  intros getf show finite rt junk V F [Z0 S1 G1 G2 _ _] M FI SZ. destruct (facets_some V F M) as (fs & E). unfold write_stl in SZ |- *. rewrite E in SZ |- *. cbn [option_map] in SZ |- *.
  pose proof (soup_back rt V F fs M E) as SB. pose proof (facets_all finite V F fs E FI) as FF.
  exists (write_ascii show fs), (fst (soup to64 (map (rt_facet rt) fs))), (snd (soup to64 (map (rt_facet rt) fs))). split; [reflexivity|]. split; [|exact SB].
  unfold read_stl, read_stream. rewrite (ascii_is_ascii show finite Z0 (fun x _ => S1 x) fs FF (SZ _ eq_refl)).
  rewrite (ascii_back getf show junk finite rt Z0 (fun x _ => S1 x) G1 G2 fs FF). reflexivity.
Qed.

(** merge_stl=True: equal rows of what is read are merged, nothing else *)
Theorem C96_merged : forall {O : Ord (list Dbl)} getf junk conv V F V' F' s, Forall (fun f => (3 <= List.length f)%nat /\ Forall (fun j => (0 <= j < Z.of_nat (List.length V))%Z) f) F ->
  read_stl getf junk to64 s = Ret (V', F') -> soup_of conv V F V' F' ->
  exists SV G, read_stl_merged getf junk to64 s = Ret (SV, G) /\ merged_of conv V F SV G.
Proof.
  intros O getf junk conv V F V' F' s HF E (L1 & L2 & N).
  assert (HF' : Forall (Forall (fun i => (i < List.length V')%nat)) (map (map Z.to_nat) F')).
  { apply Forall_forall. intros g I. apply in_map_iff in I as (f' & <- & I). apply In_nth_error in I as (i & I). assert (K : (i < List.length F')%nat) by (apply nth_error_Some; congruence).
    destruct (nth_error F i) as [f|] eqn:EF; [|apply nth_error_None in EF; lia]. destruct (N i f EF) as (Q & _). rewrite I in Q. injection Q as ->. cbn [map]. rewrite !Nat2Z.id, L1. repeat constructor; lia. }
  destruct (C14_exact (list Dbl) O V' (map (map Z.to_nat) F') HF') as (SV & SVI & SVJ & G & ER & ND & _ & IN & _ & _ & _ & FG).
  exists SV, (map (map Z.of_nat) G). unfold read_stl_merged. rewrite E. cbn [obind fst snd]. rewrite ER. split; [reflexivity|].
  pose proof (F2_length _ _ _ FG) as LG. rewrite map_length in LG.
  assert (ROW : forall i f, nth_error F i = Some f -> exists a b c, nth_error G i = Some [a; b; c] /\ nth_error SV a = nth_error V' (3 * i) /\ nth_error SV b = nth_error V' (3 * i + 1) /\ nth_error SV c = nth_error V' (3 * i + 2)).
  { intros i f EF. destruct (N i f EF) as (Q & _). apply (map_nth_error (map Z.to_nat)) in Q. cbn [map] in Q. rewrite !Nat2Z.id in Q.
    assert (H : forall fs gs, Forall2 (Forall2 (fun i j => nth_error SV j = nth_error V' i /\ (j < List.length SV)%nat)) fs gs -> forall i b0, nth_error fs i = Some [b0; (b0 + 1)%nat; (b0 + 2)%nat] ->
      exists a b c, nth_error gs i = Some [a; b; c] /\ nth_error SV a = nth_error V' b0 /\ nth_error SV b = nth_error V' (b0 + 1) /\ nth_error SV c = nth_error V' (b0 + 2)).
    { clear -SV V'. induction 1 as [|f g fs gs A B IH]; intros [|i] b0 E; try discriminate; cbn in E |- *; [|eauto]. injection E as ->.
      inversion A as [|? a ? ? (A1 & _) A']; subst. inversion A' as [|? b ? ? (B1 & _) B']; subst. inversion B' as [|? c ? ? (C1 & _) C']; subst. inversion C'; subst. exists a, b, c. auto. }
    exact (H _ _ FG i (3 * i)%nat Q). }
  split; [exact ND|]. split; [rewrite map_length; congruence|]. split; [|split].
  - apply Forall_forall. intros g I. apply in_map_iff in I as (g' & <- & I). apply In_nth_error in I as (i & I). assert (K : (i < List.length G)%nat) by (apply nth_error_Some; congruence).
    destruct (nth_error F i) as [f|] eqn:EF; [|apply nth_error_None in EF; lia]. destruct (ROW i f EF) as (a & b & c & Q & _). rewrite I in Q. injection Q as ->. reflexivity.
  - intros i f k j row EF K Ej Er. destruct (ROW i f EF) as (a & b & c & Q & A & B & C). destruct (N i f EF) as (_ & NV). specialize (NV k j row K Ej Er).
    apply (map_nth_error (map Z.of_nat)) in Q. cbn [map] in Q. destruct k as [|[|[|k]]]; [| | |lia].
    + rewrite Nat.add_0_r in NV. exists [Z.of_nat a; Z.of_nat b; Z.of_nat c], a. split; [exact Q|split; [reflexivity|congruence]].
    + exists [Z.of_nat a; Z.of_nat b; Z.of_nat c], b. split; [exact Q|split; [reflexivity|congruence]].
    + exists [Z.of_nat a; Z.of_nat b; Z.of_nat c], c. split; [exact Q|split; [reflexivity|congruence]].
  - intros x I. apply IN in I. apply In_nth_error in I as (n & I). assert (K : (n < 3 * List.length F)%nat) by (rewrite <- L1; apply nth_error_Some; congruence).
    pose proof (Nat.div_mod n 3 ltac:(lia)) as D. pose proof (Nat.mod_upper_bound n 3 ltac:(lia)) as MB.
    set (i := (n / 3)%nat) in *. set (k := (n mod 3)%nat) in *. clearbody i k.
    destruct (nth_error F i) as [f|] eqn:EF; [|apply nth_error_None in EF; lia]. destruct (N i f EF) as (_ & NV).
    rewrite Forall_forall in HF. destruct (HF f (nth_error_In _ _ EF)) as (L3 & R). destruct (nth_error f k) as [j|] eqn:Ej; [|apply nth_error_None in Ej; lia].
    rewrite Forall_forall in R. specialize (R j (nth_error_In _ _ Ej)). destruct (nth_error V (Z.to_nat j)) as [row|] eqn:Er; [|apply nth_error_None in Er; lia].
    specialize (NV k j row MB Ej Er). exists i, f, k, j, row. repeat split; auto. rewrite D in I. congruence.
Qed.
End Claims.
Print Assumptions C96_binary_roundtrip.
Print Assumptions C96_ascii_roundtrip.
Print Assumptions C96_merged.
