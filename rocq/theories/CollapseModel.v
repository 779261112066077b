(** src/cpp/remesher/collapse_edges.cpp: the collapsing stage of remesh_botsch.
    Matrices and std::vectors are functions of their indices, doubles exact reals, int overflow is not modelled; -1 entries of birth2new and root_new are [None].  igl::decimate itself is not part of /repo: its result enters as a record (below) and a contract (CollapseProofs); the cost callback, the recorded merges and the remapping are modelled. *)
From Coq Require Import Reals List Arith Bool.
From Verif Require Import Vec SplitModel FlipModel.
Import ListNotations.
Open Scope nat_scope.

(** the matrices igl::decimate passes to the callbacks *)
Record dmesh := { cV : nat -> vec3; cF : nat -> nat -> nat; cE : nat -> nat * nat; cEMAP : nat -> nat; cEF : nat -> nat -> nat; cEI : nat -> nat -> nat }.
(** collapse_edges.cpp:79-85 *)
Definition feat_deg (fe : list (nat * nat)) (v : nat) : nat := fold_left (fun d r => d + (if Nat.eqb (fst r) v then 1 else 0) + (if Nat.eqb (snd r) v then 1 else 0)) fe 0.
(** :160-195: the faces around one end of edge e; the number of rounds of while(true) is bounded by fuel *)
Fixpoint circulate (fuel : nat) (m : nat) (M : dmesh) (ccw : bool) (f0 ei fi : nat) : option (list nat) :=
  match fuel with
  | O => None
  | S k =>
      let nside := if Nat.eqb (cEF M ei 0) fi then 1 else 0 in
      let nv := cEI M ei nside in
      let nf := cEF M ei nside in
      let ne := cEMAP M (nf + m * ((if ccw then nv + 2 else nv + 4) mod 3)) in
      if Nat.eqb nf f0 then Some [nf] else
      match circulate k m M ccw f0 ne nf with Some N => Some (nf :: N) | None => None end
  end.
Section Callback.
  Variables (fuel m : nat) (feature : list nat) (fe : list (nat * nat)) (high low : nat -> R) (A : nat -> list nat).
  (** :196-226 for one face f of N: true if the normal turns by more than sixty degrees; face 0 and face |N|-1 are skipped (:198) *)
  Definition turns (M : dmesh) (p : vec3) (a b len f : nat) : bool :=
    if Nat.eqb f 0 || Nat.eqb f (len - 1) then false else
    let before c := cV M (cF M f c) in
    let after c := if Nat.eqb (cF M f c) a || Nat.eqb (cF M f c) b then p else cV M (cF M f c) in
    let nrm (q : nat -> vec3) := normalize (cross3 (sub3 (q 1) (q 0)) (sub3 (q 2) (q 0))) in
    lt_b (dot3 (nrm before) (nrm after)) (norm3 (nrm after) / 2).
  (** :89-227 the cost and placement of edge e; None: the loop of :186-195 does not end within the fuel; an infinite cost is None *)
  Definition cost_and_placement (M : dmesh) (e : nat) : option (option R * vec3) :=
    let a := fst (cE M e) in let b := snd (cE M e) in
    let V := cV M in
    let len := norm3 (sub3 (V a) (V b)) in
    let p := scal3 (/ 2) (add3 (V a) (V b)) in                                             (* :101 igl::shortest_edge_and_midpoint *)
    let isf v := existsb (Nat.eqb v) feature in
    if isf a || isf b then Some (None, p) else                                             (* :106-109 *)
    let fva := Nat.leb 1 (feat_deg fe a) in let fvb := Nat.leb 1 (feat_deg fe b) in
    let corner_a := negb (Nat.eqb (feat_deg fe a) 2) in let corner_b := negb (Nat.eqb (feat_deg fe b) 2) in
    let is_fe := existsb (same_edge (a, b)) fe in
    if fva && fvb && (negb is_fe || (corner_a && corner_b)) then Some (None, p) else      (* :114-128 *)
    let p := if fva && fvb then (if corner_a then V a else if corner_b then V b else V a) (* :131-133 *)
             else if fva then V a else if fvb then V b else p in                           (* :138-139 *)
    if Rlt_dec ((low a + low b) / 2) len then Some (None, p) else                          (* :143-146 *)
    let too_far v := existsb (fun w => lt_b (high v) (norm3 (sub3 (V w) p))) (A v) in
    if negb fvb && too_far b then Some (None, p) else                                      (* :147-152 *)
    if negb fva && too_far a then Some (None, p) else                                      (* :153-158 *)
    match circulate fuel m M (Nat.ltb b a) (cEF M e 0) e (cEF M e 0) with
    | None => None
    | Some N => Some (if existsb (turns M p a b (length N)) N then None else Some len, p)
    end.
End Callback.

(** :42-49 *)
Fixpoint uf_find (fuel : nat) (parent : nat -> nat) (x : nat) : option ((nat -> nat) * nat) :=
  match fuel with
  | O => None
  | S k => if Nat.eqb (parent x) x then Some (parent, x) else let q := set1 parent x (parent (parent x)) in uf_find k q (q x)
  end.
Definition uf_union (fuel : nat) (parent : nat -> nat) (a b : nat) : option (nat -> nat) :=
  match uf_find fuel parent a with
  | None => None
  | Some (q, ra) => match uf_find fuel q b with None => None | Some (r, rb) => Some (if Nat.eqb ra rb then r else set1 r ra rb) end
  end.
(** what igl::decimate returns: U, G, I (:287; J is not used), with the numbers of vertices and faces, and the pairs recorded by the callbacks (:244-285: the ends of each edge before it was collapsed) *)
Record dresult := { rU : nat -> vec3; rG : nat -> nat -> nat; rI : nat -> nat; rn : nat; rm : nat; merges : list (nat * nat) }.
Fixpoint unions (fuel : nat) (parent : nat -> nat) (l : list (nat * nat)) : option (nat -> nat) :=
  match l with [] => Some parent | p :: r => match uf_union fuel parent (fst p) (snd p) with None => None | Some q => unions fuel q r end end.
Definition bindo {A B} (o : option A) (f : A -> option B) : option B := match o with Some a => f a | None => None end.
(** :292-302; parent is updated by every uf_find *)
Definition birth2new (fuel n : nat) (r : dresult) : option (nat -> option nat) :=
  bindo (unions fuel (fun i => i) (merges r)) (fun parent =>
  let b0 := fold_left (fun b s => set1 b (rI r s) (Some s)) (seq 0 (rn r)) (fun _ => None) in
  bindo (fold_left (fun acc o => bindo acc (fun pr => let '(parent, rnew) := pr in match b0 o with None => Some pr | Some s => bindo (uf_find fuel parent o) (fun q => Some (fst q, set1 rnew (snd q) (Some s))) end)) (seq 0 n) (Some (parent, fun _ => None))) (fun pr =>
  let root_new := snd pr in
  bindo (fold_left (fun acc o => bindo acc (fun pr => let '(parent, b) := pr in bindo (uf_find fuel parent o) (fun q => Some (fst q, set1 b o (root_new (snd q)))))) (seq 0 n) (Some (fst pr, b0))) (fun pr => Some (snd pr)))).
(** :313-336 *)
Definition remap_features (b : nat -> option nat) (feature : list nat) : list nat := flat_map (fun v => match b v with Some s => [s] | None => [] end) feature.
Definition remap_edges (b : nat -> option nat) (fe : list (nat * nat)) : list (nat * nat) :=
  fold_left (fun out r => match b (fst r), b (snd r) with
                          | Some x, Some y => if Nat.eqb x y then out else if existsb (same_edge (x, y)) out then out else out ++ [(x, y)]
                          | _, _ => out end) fe [].
(** :287-348 *)
Record collapsed := { oV : nat -> vec3; oF : nat -> nat -> nat; on_ : nat; om : nat; ohigh : nat -> R; olow : nat -> R; ofeature : list nat; ofe : list (nat * nat) }.
Definition collapse_edges (fuel n : nat) (r : dresult) (feature : list nat) (fe : list (nat * nat)) (high low : nat -> R) : option collapsed :=
  bindo (birth2new fuel n r) (fun b =>
  Some {| oV := rU r; oF := rG r; on_ := rn r; om := rm r; ohigh := fun s => high (rI r s); olow := fun s => low (rI r s);
          ofeature := remap_features b feature; ofe := remap_edges b fe |}).
