(** Model of the numpy primitives used by the combinatorial parts of gpytoolbox.
    Arrays of rows are lists.  [np.unique] is modelled by its documented
    contract: the sorted distinct values, for each its first index and its
    number of occurrences, and for every input entry the index of its value. *)
From Coq Require Export List Arith ZArith Lia Bool.
Export ListNotations.

(** Total orders given by a comparison function (lexicographic order is what
    numpy uses for rows). *)
Class Ord (A : Type) : Type := {
  cmp : A -> A -> comparison;
  cmp_eq : forall x y, cmp x y = Eq <-> x = y;
  cmp_opp : forall x y, cmp y x = CompOpp (cmp x y);
  cmp_trans : forall x y z, cmp x y = Lt -> cmp y z = Lt -> cmp x z = Lt
}.

Definition lex {A B} `{Ord A} `{Ord B} (x y : A * B) : comparison :=
  match cmp (fst x) (fst y) with
  | Eq => cmp (snd x) (snd y)
  | c => c
  end.

#[global] Program Instance Ord_Z : Ord Z := {| cmp := Z.compare |}.
Next Obligation. apply Z.compare_eq_iff. Qed.
Next Obligation. apply Z.compare_antisym. Qed.
Next Obligation.
  rewrite Z.compare_lt_iff in *. lia. Qed.

#[global] Program Instance Ord_pair A B `{Ord A} `{Ord B} : Ord (A * B) := {| cmp := lex |}.
Next Obligation.
  unfold lex; cbn. destruct (cmp a0 a) eqn:E.
  - apply cmp_eq in E; subst. rewrite cmp_eq. split; intros Q; [subst; auto | congruence].
  - split; [discriminate|]. intros Q; injection Q as -> ->.
    assert (cmp a a = Eq) by (apply cmp_eq; auto). congruence.
  - split; [discriminate|]. intros Q; injection Q as -> ->.
    assert (cmp a a = Eq) by (apply cmp_eq; auto). congruence.
Qed.
Next Obligation.
  unfold lex; cbn. rewrite (cmp_opp a0 a). destruct (cmp a0 a); cbn; auto. apply cmp_opp.
Qed.
Next Obligation.
  rename H1 into H1', H2 into H2'. revert H1' H2'. unfold lex; cbn.
  destruct (cmp a1 a0) eqn:E1; [|intros _|discriminate].
  - apply cmp_eq in E1; subst. destruct (cmp a0 a); [|auto|discriminate].
    intros; eapply cmp_trans; eauto.
  - destruct (cmp a0 a) eqn:E2; [|intros _|discriminate].
    + apply cmp_eq in E2; subst. rewrite E1; auto.
    + rewrite (cmp_trans _ _ _ E1 E2); auto.
Qed.

Section Unique.
  Context {A : Type} `{Ord A}.

  Definition eqb (x y : A) : bool := match cmp x y with Eq => true | _ => false end.

  (** insertion into a strictly sorted list, dropping duplicates *)
  Fixpoint uinsert (x : A) (l : list A) : list A :=
    match l with
    | [] => [x]
    | y :: r => match cmp x y with
                | Lt => x :: l
                | Eq => l
                | Gt => y :: uinsert x r
                end
    end.

  (** [np.unique(l)] : sorted distinct values *)
  Definition np_unique (l : list A) : list A := fold_right uinsert [] l.

  (** first index of [x] in [l] ([length l] when absent) *)
  Fixpoint first_index (x : A) (l : list A) : nat :=
    match l with
    | [] => 0
    | y :: r => if eqb x y then 0 else S (first_index x r)
    end.

  Definition count (x : A) (l : list A) : nat := length (filter (eqb x) l).

  (** [return_index=True] *)
  Definition np_unique_index (l : list A) : list nat :=
    map (fun x => first_index x l) (np_unique l).
  (** [return_counts=True] *)
  Definition np_unique_counts (l : list A) : list nat :=
    map (fun x => count x l) (np_unique l).
  (** [return_inverse=True] *)
  Definition np_unique_inverse (l : list A) : list nat :=
    map (fun x => first_index x (np_unique l)) l.
End Unique.

(** boolean mask indexing [l[mask]] *)
Fixpoint mask {A} (l : list A) (m : list bool) : list A :=
  match l, m with
  | x :: l', b :: m' => if b then x :: mask l' m' else mask l' m'
  | _, _ => []
  end.

(** [np.where(mask)[0]] *)
Definition np_where (m : list bool) : list nat := mask (seq 0 (length m)) m.

(** fancy indexing [l[idx]]; out of range entries raise IndexError ([None]) *)
Fixpoint gather {A} (l : list A) (idx : list nat) : option (list A) :=
  match idx with
  | [] => Some []
  | i :: r => match nth_error l i, gather l r with
              | Some x, Some xs => Some (x :: xs)
              | _, _ => None
              end
  end.
