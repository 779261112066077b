(** Specification vocabulary for vertex relabelling (independent of the code). *)
From Coq Require Import List ZArith Bool Reals Sorted.
Import ListNotations.
Open Scope Z_scope.

(** [relabelled n F newF I J]: J is the increasing list of the indices >= 0 used by F; newF has the
    shape of F and refers to the same vertices through J (-1 stays -1); every position of J is
    used; I (of size n, plus a slot for -1 when it occurs) inverts J and is -1 on unused vertices *)
Definition relabelled (n : Z) (F newF : list (list Z)) (I J : list Z) : Prop :=
  StronglySorted Z.lt J
  /\ (forall v, In v J <-> 0 <= v /\ In v (concat F))
  /\ Forall2 (Forall2 (fun v g => (v = -1 /\ g = -1) \/ (0 <= v /\ 0 <= g /\ nth_error J (Z.to_nat g) = Some v))) F newF
  /\ (forall k, (k < length J)%nat -> In (Z.of_nat k) (concat newF))
  /\ Z.of_nat (length I) = (if existsb (Z.eqb (-1)) (concat F) then n + 1 else n)
  /\ (forall k j, nth_error J k = Some j -> nth_error I (Z.to_nat j) = Some (Z.of_nat k))
  /\ (forall p, (p < length I)%nat -> ~ In (Z.of_nat p) (concat F) -> nth_error I p = Some (-1)).

(** the two rows have the same length and corresponding entries within eps *)
Definition rows_close (eps : R) (r s : list R) : Prop := Forall2 (fun a b => (Rabs (a - b) <= eps)%R) r s.

