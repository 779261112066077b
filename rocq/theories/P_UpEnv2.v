(** * C80, concrete runs: a tetrahedron cut in two, and one whose pieces do not fit *)
From Coq Require Import Reals Lra Psatz ZArith List Bool Permutation Lia.
From Verif Require Import Vec PyExn NumpyModel UpEnvModel UpEnvProofs UpEnv2Proofs UpEnv3Proofs P_UpEnv.
Import ListNotations.
Open Scope R_scope.

Lemma crosses_down d1 d2 : thr < d1 -> d2 < - thr -> crosses d1 d2 = true.
Proof.
  intros A B. pose proof thr_pos. unfold crosses. destruct (Rlt_dec d1 0); [lra|]. destruct (Rlt_dec 0 d1); [|lra]. destruct (Rlt_dec d2 0); [|lra].
  destruct (Rle_dec (Rabs (d1 - 0)) thr) as [L|L]; [rewrite Rabs_right in L by lra; lra|]. destruct (Rle_dec (Rabs (d2 - 0)) thr) as [L2|L2]; [rewrite Rabs_left in L2 by lra; lra|]. reflexivity.
Qed.
Lemma crosses_low d1 d2 : d1 <= 0 -> d2 <= 0 -> crosses d1 d2 = false.
Proof. intros A B. unfold crosses. destruct (Rlt_dec d1 0); [destruct (Rlt_dec 0 d2); [lra|reflexivity]|]. destruct (Rlt_dec 0 d1); [lra|reflexivity]. Qed.
Lemma crosses_flat d1 d2 : d1 = 0 \/ d2 = 0 -> crosses d1 d2 = false.
Proof. intros A. unfold crosses. destruct (Rlt_dec d1 0); [destruct (Rlt_dec 0 d2); [lra|reflexivity]|]. destruct (Rlt_dec 0 d1); [|reflexivity]. destruct (Rlt_dec d2 0); [lra|reflexivity]. Qed.
Lemma argmax2 x y : argmax [x; y] = if Rlt_dec x y then 1%nat else 0%nat.
Proof. cbn. destruct (Rlt_dec x y); reflexivity. Qed.
Lemma all_sgn_mixed d r : 0 < d -> (exists x, In x r /\ x < 0) -> all_sgn true (d :: r) || all_sgn false (d :: r) = false.
Proof.
  intros P (x & I & N). apply orb_false_iff. split; apply not_true_iff_false; unfold all_sgn; rewrite forallb_forall; intro H.
  - specialize (H x (or_intror I)). destruct (Rle_dec 0 x); [lra|discriminate].
  - specialize (H d (or_introl eq_refl)). destruct (Rle_dec d 0); [lra|discriminate].
Qed.

(** ** One tetrahedron with one vertex on one side and three on the other: the four pieces do not fit into the single spare row *)
Theorem C80_single_refuted (a b c d : vec3) (p q r s : R) : thr < p -> thr < q -> thr < r -> thr < s ->
  upper_envelope [a; b; c; d] [[0; 1; 2; 3]%nat] [[p; 0]; [0; q]; [0; r]; [0; s]] 2 = Err IndexError.
Proof.
  intros HP HQ HR HS. pose proof thr_pos as TP.
  assert (A1 : argmax [p; 0] = 0%nat) by (rewrite argmax2; destruct (Rlt_dec p 0); [lra|reflexivity]).
  assert (A2 : argmax [0; q] = 1%nat) by (rewrite argmax2; destruct (Rlt_dec 0 q); [reflexivity|lra]).
  unfold upper_envelope. assert (E0 : mapE (quick 2 [[p; 0]; [0; q]; [0; r]; [0; s]]) [[0; 1; 2; 3]%nat] = Ok [[true; true]]).
  { cbn [mapE]. unfold quick. cbn [rows fold_right get nth_error lift bind Nat.eqb map]. rewrite A1, A2. cbn [forallb Nat.eqb andb bind repeat]. reflexivity. }
  rewrite E0. cbn [bind List.length Nat.eqb andb negb seq materials Nat.sub].
  assert (P : pair_passes 4 1 2 0 (map (fun j => existsb (fun l => has l j) (filter (fun l => has l 0) [[true; true]])) [0; 1]%nat) [1%nat]
     {| sV := [a; b; c; d]; sD := [[p; 0]; [0; q]; [0; r]; [0; s]]; capV := 4; sF := [[0; 1; 2; 3]%nat]; sL := [[true; true]]; idxF := 1 |} = Err IndexError).
  { cbn [pair_passes map has nth filter existsb orb andb idxF sF List.length Nat.leb sD seq split_pass].
    assert (G : grow 4 1 2 {| sV := [a; b; c; d]; sD := [[p; 0]; [0; q]; [0; r]; [0; s]]; capV := 4; sF := [[0; 1; 2; 3]%nat]; sL := [[true; true]]; idxF := 1 |} =
       {| sV := [a; b; c; d]; sD := [[p; 0]; [0; q]; [0; r]; [0; s]]; capV := 8; sF := [[0; 1; 2; 3]%nat; zero_tet]; sL := [[true; true]; [false; false]]; idxF := 1 |}) by reflexivity.
    rewrite G. clear G. unfold propagate. cbn [sF get nth_error lift bind rows fold_right].
    rewrite all_sgn_mixed; [|lra|exists (0 - q); split; [left; reflexivity|lra]].
    cbn [tet_edges sorted_edge Nat.leb filter fst snd nth].
    rewrite (crosses_down (p - 0) (0 - q)), (crosses_down (p - 0) (0 - r)), (crosses_down (p - 0) (0 - s)) by lra.
    rewrite (crosses_low (0 - q) (0 - r)), (crosses_low (0 - q) (0 - s)), (crosses_low (0 - r) (0 - s)) by lra.
    cbn [sortrows fold_right insert edge_le fst snd Nat.ltb Nat.leb Nat.eqb orb andb].
    cbn [make_vertices lookup find option_map sV sD capV fst snd get nth_error lift bind app List.length Nat.ltb Nat.leb edge_eqb Nat.eqb andb sF sL idxF].
    cbn [combine split_2_edge_array fold_left flat_map contains existsb fst snd Nat.eqb orb andb split_2_edge keep_op filter negb nth app].
    cbn [mapE reorient volume_of rows fold_right get nth_error lift bind].
    repeat match goal with |- context [if Rlt_dec ?x ?y then _ else _] => destruct (Rlt_dec x y) end; reflexivity. }
  change (sL {| sV := [a; b; c; d]; sD := [[p; 0]; [0; q]; [0; r]; [0; s]]; capV := 4; sF := [[0; 1; 2; 3]%nat]; sL := [[true; true]]; idxF := 1 |}) with [[true; true]].
  rewrite P. reflexivity.
Qed.

(** ** A run that returns: one edge is cut, the two halves go to the two materials, and only the first half is returned, after the empty row *)
Definition V4 : list vec3 := [(0, 0, 0); (1, 0, 0); (0, 1, 0); (0, 0, 1)].
Definition D4 : list (list R) := [[1; 0]; [0; 1]; [0; 0]; [0; 0]].
Definition t4 : tet := [0; 1; 2; 3]%nat.
Lemma mesh4 : tet_mesh V4 [t4] D4 2.
Proof.
  split; [reflexivity|]. split.
  - intros d [<-|[<-|[<-|[<-|[]]]]]; reflexivity.
  - intros t [<-|[]]. split; [reflexivity|]. split; [intros v [<-|[<-|[<-|[<-|[]]]]]; cbn; lia|]. unfold tvol, t4, V4. cbn [map nth]. unfold dot3, cross3, sub3, X, Y, Zc. cbn [fst snd]. lra.
Qed.
Definition mid4 : vec3 := lerp3 ((0 - (1 - 0)) / ((0 - 1) - (1 - 0))) (0, 0, 0) (1, 0, 0).
Lemma mid4_is : mid4 = (1 / 2, 0, 0).
Proof. unfold mid4. apply vec3_eq; unfold lerp3, add3, scal3, sub3, X, Y, Zc; cbn [fst snd]; field. Qed.
Definition lab4 : list R := lerpl ((0 - (1 - 0)) / ((0 - 1) - (1 - 0))) [1; 0] [0; 1].
Lemma lab4_is : lab4 = [1 / 2; 1 / 2].
Proof. unfold lab4. cbn [lerpl]. f_equal; [field|f_equal; field]. Qed.
Example C80_nonvacuous : tet_mesh V4 [t4] D4 2 /\ upper_envelope V4 [t4] D4 2 = Ok (V4 ++ [(1 / 2, 0, 0)], [[0; 0; 0; 0]; [0; 4; 2; 3]]%nat, [[false; false]; [true; false]]).
Proof.
  split; [exact mesh4|]. pose proof thr_pos as TP. assert (TL : thr < 1) by (unfold thr; lra).
  assert (A1 : argmax [1; 0] = 0%nat) by (rewrite argmax2; destruct (Rlt_dec 1 0); [lra|reflexivity]).
  assert (A2 : argmax [0; 1] = 1%nat) by (rewrite argmax2; destruct (Rlt_dec 0 1); [reflexivity|lra]).
  assert (A3 : argmax [0; 0] = 0%nat) by (rewrite argmax2; destruct (Rlt_dec 0 0); [lra|reflexivity]).
  assert (A4 : argmax [1 / 2; 1 / 2] = 0%nat) by (rewrite argmax2; destruct (Rlt_dec (1 / 2) (1 / 2)); [lra|reflexivity]).
  unfold upper_envelope. assert (E0 : mapE (quick 2 D4) [t4] = Ok [[true; true]]).
  { cbn [mapE]. unfold quick, D4, t4. cbn [rows fold_right get nth_error lift bind Nat.eqb map]. rewrite A1, A2, A3. cbn [forallb Nat.eqb andb bind repeat]. reflexivity. }
  rewrite E0. cbn [bind List.length Nat.eqb andb negb seq materials Nat.sub].
  set (s1 := {| sV := V4; sD := D4; capV := List.length V4; sF := [t4]; sL := [[true; true]]; idxF := 1 |}).
  assert (P : pair_passes 4 1 2 0 (map (fun j => existsb (fun l => has l j) (filter (fun l => has l 0) (sL s1))) [0; 1]%nat) [1%nat] s1 =
     Ok {| sV := V4 ++ [mid4]; sD := D4 ++ [lab4]; capV := 8; sF := [[0; 4; 2; 3]; [1; 4; 3; 2]]%nat; sL := [[true; true]; [true; true]]; idxF := 2 |}).
  { cbn [s1 sL pair_passes map has nth filter existsb orb andb idxF sF List.length Nat.leb sD seq split_pass].
    assert (G : grow 4 1 2 s1 = {| sV := V4; sD := D4; capV := 8; sF := [t4; zero_tet]; sL := [[true; true]; [false; false]]; idxF := 1 |}) by reflexivity.
    fold s1. rewrite G. clear G. unfold propagate, D4, t4. cbn [map nth sF get nth_error lift bind rows fold_right].
    rewrite all_sgn_mixed; [|lra|exists (0 - 1); split; [left; reflexivity|lra]].
    cbn [tet_edges sorted_edge Nat.leb filter fst snd nth].
    rewrite (crosses_down (1 - 0) (0 - 1)) by lra.
    rewrite !(crosses_flat (1 - 0) (0 - 0)), !(crosses_flat (0 - 1) (0 - 0)), (crosses_flat (0 - 0) (0 - 0)) by lra.
    cbn [sortrows fold_right insert]. unfold V4.
    cbn [make_vertices lookup find option_map sV sD capV fst snd get nth_error lift bind app List.length Nat.ltb Nat.leb edge_eqb Nat.eqb andb sF sL idxF].
    cbn [combine split_2_edge_array fold_left flat_map contains existsb fst snd Nat.eqb orb andb split_2_edge keep_op filter negb nth app].
    fold mid4. fold lab4. rewrite mid4_is. cbn [mapE reorient volume_of rows fold_right get nth_error lift bind].
    destruct (Rlt_dec _ 0) as [L|L]; [exfalso; unfold dot3, cross3, sub3, X, Y, Zc in L; cbn [fst snd] in L; lra|].
    destruct (Rlt_dec _ 0) as [L2|L2]; [|exfalso; apply L2; unfold dot3, cross3, sub3, X, Y, Zc; cbn [fst snd]; lra].
    reflexivity. }
  change (List.length V4) with 4%nat in *. change (List.length [t4]) with 1%nat. rewrite P. cbn [bind]. rewrite mid4_is, lab4_is.
  assert (C0 : carve 2 0 {| sV := V4 ++ [(1 / 2, 0, 0)]; sD := D4 ++ [[1 / 2; 1 / 2]]; capV := 8; sF := [[0; 4; 2; 3]; [1; 4; 3; 2]]%nat; sL := [[true; true]; [true; true]]; idxF := 2 |} =
     Ok ({| sV := V4 ++ [(1 / 2, 0, 0)]; sD := D4 ++ [[1 / 2; 1 / 2]]; capV := 8; sF := [[1; 4; 3; 2]]%nat; sL := [[true; true]]; idxF := 2 |}, [[0; 4; 2; 3]]%nat)).
  { unfold carve. cbn [sV sD sF sL idxF capV Nat.sub seq mapE get nth_error lift bind]. unfold carved, D4. cbn [app rows fold_right get nth_error lift bind map].
    rewrite A1, A4, A3. cbn [forallb Nat.eqb andb bind]. reflexivity. }
  match goal with |- bind (bind ?x _) _ = _ => replace x with (@Ok (state * list tet) ({| sV := V4 ++ [(1 / 2, 0, 0)]; sD := D4 ++ [[1 / 2; 1 / 2]]; capV := 8; sF := [[1; 4; 3; 2]]%nat; sL := [[true; true]]; idxF := 2 |}, [[0; 4; 2; 3]]%nat)) by (symmetry; exact C0) end. cbn [bind pair_passes].
  assert (C1 : carve 2 1 {| sV := V4 ++ [(1 / 2, 0, 0)]; sD := D4 ++ [[1 / 2; 1 / 2]]; capV := 8; sF := [[1; 4; 3; 2]]%nat; sL := [[true; true]]; idxF := 2 |} =
     Ok ({| sV := V4 ++ [(1 / 2, 0, 0)]; sD := D4 ++ [[1 / 2; 1 / 2]]; capV := 8; sF := []; sL := []; idxF := 2 |}, [[1; 4; 3; 2]]%nat)).
  { unfold carve. cbn [sV sD sF sL idxF capV Nat.sub seq mapE get nth_error lift bind]. unfold carved, D4. cbn [app rows fold_right get nth_error lift bind map].
    rewrite A2, A4, A3. cbn [forallb Nat.eqb andb orb seq nth].
    destruct (Rle_dec (0 - 1) 0); [|lra]. destruct (Rle_dec (1 / 2 - 1 / 2) 0); [|lra]. destruct (Rle_dec (0 - 0) 0); [|lra]. reflexivity. }
  match goal with |- context [carve 2 1 ?x] => replace (carve 2 1 x) with (@Ok (state * list tet) ({| sV := V4 ++ [(1 / 2, 0, 0)]; sD := D4 ++ [[1 / 2; 1 / 2]]; capV := 8; sF := []; sL := []; idxF := 2 |}, [[1; 4; 3; 2]]%nat)) by (symmetry; exact C1) end. reflexivity.
Qed.
(** what the run above loses: half of the volume *)
Example C80_half : volumes (V4 ++ [(1 / 2, 0, 0)]) [[0; 4; 2; 3]%nat] = 1 / 12 /\ volumes V4 [t4] = 1 / 6.
Proof. unfold volumes, tvol, t4, V4. cbn [app fold_right map nth]. unfold dot3, cross3, sub3, X, Y, Zc. cbn [fst snd]. split; field. Qed.
(** the premises of C80_uniform_refuted hold for three copies of the tetrahedron with constant labels *)
Example C80_uniform_nonvacuous : upper_envelope V4 [t4; t4; t4] [[1; 0]; [1; 0]; [1; 0]; [1; 0]] 2 = Err IndexError.
Proof.
  apply C80_uniform_refuted; [|lia|cbn; lia|].
  - split; [reflexivity|]. split; [intros d [<-|[<-|[<-|[<-|[]]]]]; reflexivity|]. intros t I. assert (E : t = t4) by (cbn in I; intuition congruence). subst t. exact (proj2 (proj2 mesh4) t4 (or_introl eq_refl)).
  - intros d I x J. assert (E : d = [1; 0]) by (cbn in I; intuition congruence). subst d. cbn in *. destruct J as [<-|[<-|[]]]; lra.
Qed.
