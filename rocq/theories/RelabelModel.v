(** Models of remove_unreferenced.py and remove_duplicate_vertices.py *)
From Verif Require Import NumpyModel PyExn LoopsModel.
From Coq Require Import Reals.
Open Scope Z_scope.

(** [np.max] of a non-empty flattened array; ValueError on an empty one *)
Definition np_max (l : list Z) : res Z :=
  match l with
  | [] => Err ValueError
  | x :: r => Ok (fold_left Z.max r x)
  end.

(** [flat.reshape(F.shape)] for an array given by its rows *)
Fixpoint reshape_like {A B} (F : list (list A)) (flat : list B) : list (list B) :=
  match F with
  | [] => []
  | r :: F' => firstn (length r) flat :: reshape_like F' (skipn (length r) flat)
  end.

(** [I[J] = np.arange(len(J))] *)
Fixpoint scatter_arange (I : list Z) (J : list Z) (k : Z) : list Z :=
  match J with
  | [] => I
  | j :: J' => scatter_arange (set_nth I (Z.to_nat j) k) J' (k + 1)
  end.

(** [V[J,:]] for non-negative J *)
Fixpoint take_rows {A} (V : list A) (J : list Z) : res (list A) :=
  match J with
  | [] => Ok []
  | j :: J' => match nth_error V (Z.to_nat j) with
               | None => Err IndexError
               | Some x => do r <- take_rows V J'; Ok (x :: r)
               end
  end.

(** ** remove_unreferenced.py:68-96 with return_maps=True.  [V = None] is the
    documented "no vertices given" mode.  Rows of V are opaque. *)
Definition remove_unreferenced {A} (V : option (list A)) (F : list (list Z))
  : res (option (list A) * list (list Z) * list Z * list Z) :=
  let flat := concat F in
  if forallb (fun v => -1 <=? v) flat then                       (* :68 *)
    do n <- match V with
            | None => do mx <- np_max flat; Ok (mx + 1)           (* :70 *)
            | Some V' => do mx <- np_max flat;                    (* :73 *)
                         if mx <? Z.of_nat (length V') then Ok (Z.of_nat (length V')) else Err AssertionError
            end;
    let J := np_unique flat in                                    (* :75 *)
    let newF := map Z.of_nat (np_unique_inverse flat) in
    match J with
    | [] => Ok (match V with None => None | Some _ => Some [] end, [], [], [])  (* :76-82 *)
    | j0 :: J' =>
      let '(J1, newF1, I0) :=
        if j0 =? -1
        then (J', map (fun x => x - 1) newF, repeat (-1) (Z.to_nat (n + 1)))    (* :83-86 *)
        else (J, newF, repeat (-1) (Z.to_nat n)) in                             (* :88 *)
      let I := scatter_arange I0 J1 0 in                                        (* :89 *)
      let newF2 := reshape_like F newF1 in                                      (* :90 *)
      do newV <- match V with                                                   (* :91 *)
                 | None => Ok None
                 | Some V' => do r <- take_rows V' J1; Ok (Some r)
                 end;
      Ok (newV, newF2, I, J1)
    end
  else Err AssertionError.

(** ** remove_duplicate_vertices.py *)
(** fancy indexing [idx[faces]] with a 2D index array *)
Fixpoint gather2 (idx : list nat) (fs : list (list nat)) : option (list (list nat)) :=
  match fs with
  | [] => Some []
  | f :: r => match gather idx f, gather2 idx r with Some a, Some b => Some (a :: b) | _, _ => None end
  end.
(** epsilon == 0 (:41-42, :47-50): rows of an ordered type *)
Definition remove_duplicate_vertices0 {A} `{Ord A} (V : list A) (faces : list (list nat))
  : option (list A * list nat * list nat * list (list nat)) :=
  let SV := np_unique V in
  let SVI := np_unique_index V in
  let SVJ := np_unique_inverse V in
  match gather2 SVJ faces with None => None | Some G => Some (SV, SVI, SVJ, G) end.

(** [np.round] : round half to even *)
Definition round_half_even (x : R) : Z :=
  let f := Int_part x in
  let r := (x - IZR f)%R in
  if Rlt_dec r (/2) then f
  else if Rlt_dec (/2) r then f + 1
  else if Z.even f then f else f + 1.

Fixpoint lexl {A} `{Ord A} (x y : list A) : comparison :=
  match x, y with
  | [], [] => Eq
  | [], _ => Lt
  | _, [] => Gt
  | a :: x', b :: y' => match cmp a b with Eq => lexl x' y' | c => c end
  end.
#[global] Program Instance Ord_list A `{Ord A} : Ord (list A) := {| cmp := lexl |}.
Next Obligation.
  revert y; induction x as [|a x IH]; intros [|b y]; cbn; try (split; congruence).
  destruct (cmp a b) eqn:E.
  - rewrite IH. apply cmp_eq in E; subst. split; congruence.
  - split; [discriminate|]. intros Q; injection Q as -> ->.
    assert (cmp b b = Eq) by (apply cmp_eq; auto). congruence.
  - split; [discriminate|]. intros Q; injection Q as -> ->.
    assert (cmp b b = Eq) by (apply cmp_eq; auto). congruence.
Qed.
Next Obligation.
  revert y; induction x as [|a x IH]; intros [|b y]; cbn; auto.
  rewrite (cmp_opp a b). destruct (cmp a b); cbn; auto.
Qed.
Next Obligation.
  rename H0 into H1, H1 into H2. revert y z H1 H2.
  induction x as [|a x IH]; intros [|b y] [|c z]; cbn; auto; try discriminate.
  destruct (cmp a b) eqn:E1; [|intros _|discriminate].
  - apply cmp_eq in E1; subst. destruct (cmp b c) eqn:E2; [|auto|discriminate].
    intros; eapply IH; eauto.
  - destruct (cmp b c) eqn:E2; [|intros _|discriminate].
    + apply cmp_eq in E2; subst. rewrite E1; auto.
    + rewrite (cmp_trans _ _ _ E1 E2); auto.
Qed.

(** epsilon > 0 (:44-45) over exact reals: keys [round(V/epsilon)] *)
Definition dup_key (eps : R) (row : list R) : list Z := map (fun x => round_half_even (x / eps)) row.
Definition remove_duplicate_vertices_eps (V : list (list R)) (eps : R) (faces : list (list nat))
  : option (list (list R) * list nat * list nat * list (list nat)) :=
  let keys := map (dup_key eps) V in
  let SVI := np_unique_index keys in
  let SVJ := np_unique_inverse keys in
  match gather V SVI, gather2 SVJ faces with Some SV, Some G => Some (SV, SVI, SVJ, G) | _, _ => None end.
