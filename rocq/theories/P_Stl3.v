(** C96, concluded: what is written but cannot be read back, and an instance.  Code: StlModel.v.  Vocabulary: P_Stl.v. *)
From Coq Require Import String Ascii List ZArith Bool Lia Arith.
From Verif Require Import NumpyModel TextModel TextProofs RelabelModel StlModel StlProofs StlAscii StlAscii2 P_Stl.
Import ListNotations.
Open Scope string_scope.

Lemma tokens_vertex getf ls ts l : tokens getf ls ts -> In l ls -> starts "vertex" l = true -> exists p, three_values getf (trim (drop 6 l)) = Some p.
Proof.
  induction 1 as [|l' ls ts C H IH|l' ls t ts R H IH]; intros I S; [destruct I| |].
  - destruct I as [->|I]; [|auto]. rewrite (C "vertex") in S by (cbn; tauto). discriminate.
  - destruct I as [->|I]; [|auto]. destruct t; cbn [reads] in R; try match type of R with _ /\ _ => destruct R as [R R'] end;
    match type of R with starts ?k l = true => try (assert (Q : starts k l = false) by (apply (excl "vertex" k l); [cbn; tauto|cbn; tauto|exact S|discriminate]); congruence) end.
    eauto.
Qed.
Lemma nonfinite_fails getf show finite rt x y z : float_io getf show finite rt -> ~ (finite x /\ finite y /\ finite z) -> three_values getf (show_point show (x, y, z)) = None.
Proof.
  intros [Z0 S1 G1 G2 G3 D] N. unfold three_values, show_point.
  destruct (D x) as [X|X]; [|rewrite G3 by exact X; reflexivity]. rewrite G1 by (auto; right; eexists; reflexivity). cbn [append]. rewrite G2.
  destruct (D y) as [Y|Y]; [|rewrite G3 by exact Y; reflexivity]. rewrite G1 by (auto; right; eexists; reflexivity). rewrite G2.
  destruct (D z) as [W|W]; [tauto|]. pose proof (G3 z "" W) as E. rewrite app_nil_s in E. rewrite E. reflexivity.
Qed.
(** an ASCII file is written for a mesh with nan or inf at a corner, and cannot be read *)
Theorem C96_nonfinite_refuted : forall {Dbl : Type} (to32 : Dbl -> Z) (to64 : Z -> Dbl) getf show finite rt junk V F f k j row x, float_io getf show finite rt -> mesh_ok V F ->
  In f F -> (k < 3)%nat -> nth_error f k = Some j -> nth_error V (Z.to_nat j) = Some row -> In x row -> ~ finite (to32 x) ->
  (forall s, write_stl show to32 V F false = Some s -> (Z.of_nat (String.length s) < 8388608084)%Z) ->
  exists s, write_stl show to32 V F false = Some s /\ forall VF, read_stl getf junk to64 s <> Ret VF.
Proof.
  intros Dbl to32 to64 getf show finite rt junk V F f k j row x IO M IF K Ej Er IX NF SZ. destruct (facets_some to32 V F M) as (fs & E). unfold write_stl in SZ |- *. rewrite E in SZ |- *. cbn [option_map] in SZ |- *.
  exists (write_ascii show fs). split; [reflexivity|]. intros VF RD. pose proof IO as [Z0 S1 G1 G2 G3 D].
  assert (ALL : Forall (fin_facet (fun _ => True)) fs) by (apply Forall_forall; intros [[[[? ?] ?] [[? ?] ?]] [[? ?] ?]] _; cbn; tauto).
  unfold read_stl, read_stream in RD. rewrite (ascii_is_ascii show (fun _ => True) I (fun x _ => S1 x) fs ALL (SZ _ eq_refl)) in RD.
  destruct (read_ascii getf junk (write_ascii show fs)) as [gs|] eqn:RA; [|discriminate]. clear RD.
  assert (SPL : split_on NL (write_ascii show fs) = (ascii_lines show fs ++ [""])%list) by (apply (split_lines_of show (fun _ => True) I (fun x _ => S1 x)); exact ALL).
  rewrite read_ascii_run in RA by (unfold short; rewrite SPL; apply Forall_app; split; [apply (lines_short show (fun _ => True) I (fun x _ => S1 x)), ALL|repeat constructor; cbn; lia]).
  apply run_tokens in RA as (ts & T & _).
  assert (P : exists p, (exists g, In g fs /\ let '(a, b, c) := g in p = a \/ p = b \/ p = c) /\ let '(u, v, w) := p in ~ (finite u /\ finite v /\ finite w)).
  { apply facets_nth in E as (_ & N). apply In_nth_error in IF as (i & IF). destruct (N i f IF) as ([[a b] c] & E1 & E2). apply facet_inv in E2 as (A & B & C).
    assert (Q : forall p, corner32 to32 V f k = Some p -> let '(u, v, w) := p in ~ (finite u /\ finite v /\ finite w)).
    { intros p P. apply corner_inv in P as (j' & u & v & w & r & Ej' & _ & Er' & ->). rewrite Ej in Ej'. injection Ej' as <-. rewrite Er in Er'. injection Er' as ->.
      destruct M as (HV & _). rewrite Forall_forall in HV. specialize (HV _ (nth_error_In _ _ Er)). destruct r; [|discriminate]. intros (Q1 & Q2 & Q3). cbn in IX. destruct IX as [<-|[<-|[<-|[]]]]; contradiction. }
    apply nth_error_In in E1. destruct k as [|[|[|k]]]; [| | |lia]; [exists a|exists b|exists c]; (split; [exists (a, b, c); split; [exact E1|tauto]|first [exact (Q _ A)|exact (Q _ B)|exact (Q _ C)]]). }
  destruct P as ([[u v] w] & (g & IG & PG) & NP).
  assert (PT : trim_left (show_point show (u, v, w)) = show_point show (u, v, w) /\ trim_right (show_point show (u, v, w)) = show_point show (u, v, w) /\ show_point show (u, v, w) <> "") by (apply (point_trim show (fun _ => True) (fun x _ => S1 x)); cbn; tauto).
  destruct PT as (T1 & T2 & T3).
  assert (LN : trim ("      vertex " ++ show_point show (u, v, w)) = "vertex " ++ show_point show (u, v, w)).
  { unfold trim. change (trim_left ("      vertex " ++ show_point show (u, v, w))) with ("vertex " ++ show_point show (u, v, w)). apply trim_right_app; auto. }
  apply (tokens_vertex getf _ ts (trim ("      vertex " ++ show_point show (u, v, w)))) in T as (q & T).
  - rewrite LN in T. change (drop 6 ("vertex " ++ show_point show (u, v, w))) with (String SP (show_point show (u, v, w))) in T.
    unfold trim in T. change (trim_left (String SP (show_point show (u, v, w)))) with (trim_left (show_point show (u, v, w))) in T. rewrite T1, T2 in T.
    rewrite (nonfinite_fails getf show finite rt) in T by auto. discriminate.
  - apply in_map. unfold file_lines. rewrite SPL, with_end_app. apply in_or_app. left. unfold ascii_lines. right. apply in_or_app. left. apply in_flat_map. exists g. split; [exact IG|].
    destruct g as [[a b] c]. cbn [facet_lines In]. destruct PG as [<-|[<-|<-]]; tauto.
  - rewrite LN. reflexivity.
Qed.
Print Assumptions C96_nonfinite_refuted.
(** a mesh without faces: the binary file is reported as empty, the ASCII file gives no triangles *)
Theorem C96_empty_refuted : forall {Dbl : Type} (to32 : Dbl -> Z) (to64 : Z -> Dbl) getf show junk V,
  (exists s, write_stl show to32 V [] true = Some s /\ String.length s = 84%nat /\ read_stl getf junk to64 s = Code (-3)) /\
  exists s, write_stl show to32 V [] false = Some s /\ read_stl getf junk to64 s = Ret ([], []).
Proof.
  intros. split.
  - exists (write_binary []). repeat split.
  - exists (write_ascii show []). split; [reflexivity|]. unfold read_stl, read_stream. replace (is_ascii (write_ascii show [])) with true by reflexivity.
    assert (E : read_ascii getf junk (write_ascii show []) = Ret []); [|rewrite E; reflexivity].
    rewrite read_ascii_run by (repeat constructor; cbn; lia). apply run_tokens. exists [TSolid; TEndSolid]. split; [|reflexivity].
    change (file_lines junk (write_ascii show [])) with ["solid microstl"; "endsolid"; ("" ++ junk_end junk)%string]. cbn [map].
    apply tokens_line; [reflexivity|]. apply tokens_line; [reflexivity|]. apply tokens_comment; [apply trim_junk|apply tokens_nil].
Qed.
Print Assumptions C96_empty_refuted.

(** ** an instance: doubles are 0 and 1 *)
Definition show1 (z : Z) : string := if (z =? 0)%Z then "0" else if (z =? 1065353216)%Z then "1" else "nan".
Fixpoint getf1 (s : string) : option (Z * string) :=
  match s with
  | String a r => if Ascii.eqb a SP then getf1 r else if Ascii.eqb a "0" then Some (0%Z, r) else if Ascii.eqb a "1" then Some (1065353216%Z, r) else None
  | EmptyString => None
  end.
Definition finite1 (z : Z) : Prop := z = 0%Z \/ z = 1065353216%Z.
Lemma io1 : float_io getf1 show1 finite1 (fun z => z).
Proof.
  split.
  - left. reflexivity.
  - intros x. unfold show1. destruct (x =? 0)%Z; [|destruct (x =? 1065353216)%Z]; (split; [discriminate|]; split; [unfold graphic, value; cbn; repeat split; lia|cbn; lia]).
  - intros x r [->| ->] _; reflexivity.
  - reflexivity.
  - intros x r N. unfold show1. destruct (Z.eqb_spec x 0) as [->|]; [exfalso; apply N; left; reflexivity|]. destruct (Z.eqb_spec x 1065353216) as [->|]; [exfalso; apply N; right; reflexivity|]. reflexivity.
  - intros x. unfold finite1. lia.
Qed.
Definition to32_1 (b : bool) : Z := if b then 1065353216%Z else 0%Z.
Definition to64_1 (z : Z) : bool := negb (z =? 0)%Z.
Definition V1 : list (list bool) := [[false; false; false]; [true; false; false]; [false; true; false]; [false; false; true]].
Definition F1 : list (list Z) := [[0; 1; 2]; [0; 3; 1]]%Z.
Lemma mesh1 : mesh_ok V1 F1.
Proof. split; repeat constructor; cbn; lia. Qed.
(** both formats give the two triangles back *)
Theorem C96_example : forall junk binary s, write_stl show1 to32_1 V1 F1 binary = Some s -> read_stl getf1 junk to64_1 s =
  Ret ([[false; false; false]; [true; false; false]; [false; true; false]; [false; false; false]; [false; false; true]; [true; false; false]], [[0; 1; 2]; [3; 4; 5]]%Z).
Proof.
  intros junk [] s E.
  - destruct (C96_binary_roundtrip to32_1 to64_1 getf1 show1 junk V1 F1) as (s' & V' & F' & E' & L & R & _); [intros []; cbn; lia|exact mesh1|cbn; lia|cbn; lia|].
    rewrite E in E'. injection E' as <-. vm_compute in E. injection E as <-. vm_compute. reflexivity.
  - vm_compute in E. injection E as <-. destruct junk as [[] [] [] [] [] [] [] []]; vm_compute; reflexivity.
Qed.
Print Assumptions C96_example.
Example C96_nonvacuous : float_io getf1 show1 finite1 (fun z => z) /\ mesh_ok V1 F1 /\ (forall row x, In row V1 -> In x row -> finite1 (to32_1 x)) /\
  (forall s, write_stl show1 to32_1 V1 F1 false = Some s -> (Z.of_nat (String.length s) < 8388608084)%Z) /\ (1 <= List.length F1)%nat /\ ~ finite1 2139095040 /\
  mesh_ok [[2139095040; 0; 0]; [0; 0; 0]]%Z [[0; 1; 0]]%Z.
Proof.
  split; [exact io1|]. split; [exact mesh1|]. split; [intros row [] _ _; [right|left]; reflexivity|]. split; [intros s E; vm_compute in E; injection E as <-; vm_compute; reflexivity|].
  split; [cbn; lia|]. split; [unfold finite1; lia|]. split; repeat constructor; cbn; lia.
Qed.
