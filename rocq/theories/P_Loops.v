(** C15: boundary_loops.  Vocabulary: TopoSpec.v, LoopsSpec.v; code: LoopsModel.v. *)
From Verif Require Import NumpyModel PyExn TopoModel TopoSpec LoopsModel LoopsSpec LoopsProofs TopoLemmas.
From Coq Require Import Permutation.
Open Scope Z_scope.

(** soundness for every input on which the function returns: the cyclic pairs of the loops are
    the boundary edges, each used exactly once, possibly traversed backwards only when
    allow_wrong_orientations is set *)
Theorem C15_sound : forall F allow loops, boundary_loops F allow = Ok loops ->
  exists bE T, boundary_edges F = Some bE /\ Permutation T bE
    /\ Forall2 (fun p e => p = e \/ (allow = true /\ p = (snd e, fst e))) (flat_map cyc_pairs loops) T
    /\ Forall (fun l => l <> []) loops.
Proof. exact boundary_loops_sound'. Qed.
Print Assumptions C15_sound.

(** the while loops always terminate (the model's fuel is never exhausted) *)
Theorem C15_terminates : forall F allow, boundary_loops F allow <> Err OutOfFuel.
Proof. exact boundary_loops_terminates. Qed.
Print Assumptions C15_terminates.

Theorem C15_complete : forall F allow, F <> [] -> oriented_manifold F -> simple_boundary F ->
  exists loops, boundary_loops F allow = Ok loops
    /\ NoDup (flat_map cyc_pairs loops)
    /\ (forall e, In e (flat_map cyc_pairs loops) <-> In e (all_sides F) /\ incidence F e = 1%nat)
    /\ NoDup (concat loops).
Proof. exact boundary_loops_complete. Qed.
Print Assumptions C15_complete.

Example C15_nonvacuous : boundary_loops [(0,1,2);(2,1,3);(7,8,9)] true = Ok [[0;1;3;2];[7;8;9]].
Proof. reflexivity. Qed.
Example C15_nonvacuous_hyp : oriented_manifold [(0,1,2);(2,1,3);(7,8,9)] /\ simple_boundary [(0,1,2);(2,1,3);(7,8,9)].
Proof.
  split.
  - unfold oriented_manifold. repeat (constructor; [vm_compute; intuition congruence|]). constructor.
  - intros e f I J. cbn in I, J.
    repeat (destruct I as [<-|I]); try (destruct I); repeat (destruct J as [<-|J]); try (destruct J); vm_compute;
      intros; congruence.
Qed.
