(** remesh_botsch.py:62-138.  The C++ remesher (:136) is a parameter that receives the prepared arguments; exact reals, int32 overflow not modelled.
    Arrays of vertex positions are lists of points of R^3, index arrays are lists of integers, negative indices count from the end. *)
From Coq Require Import Reals.
From Verif Require Import Vec NumpyModel PyExn TopoModel NormModel RelabelModel.
Open Scope Z_scope.

(** numpy index normalisation: IndexError outside [-n, n) *)
Definition npidx (n i : Z) : res Z := if (0 <=? i) && (i <? n) then Ok i else if (- n <=? i) && (i <? 0) then Ok (i + n) else Err IndexError.
Fixpoint mapr {A B} (f : A -> res B) (l : list A) : res (list B) :=
  match l with [] => Ok [] | x :: l => do y <- f x; do ys <- mapr f l; Ok (y :: ys) end.
(** [a[i]] and [a[I]] *)
Definition at1 {A} (a : list A) (i : Z) : res A := do k <- npidx (Z.of_nat (length a)) i; lift IndexError (nth_error a (Z.to_nat k)).
Definition at2 {A} (a : list A) (e : Z * Z) : res (A * A) := do x <- at1 a (fst e); do y <- at1 a (snd e); Ok (x, y).
Definition at3 {A} (a : list A) (t : tri) : res (A * A * A) := let '(i, j, k) := t in do x <- at1 a i; do y <- at1 a j; do z <- at1 a k; Ok (x, y, z).

(** :63, halfedge_lengths.py:41: the mean of the 3m side lengths *)
Definition tri_lengths (t : vec3 * vec3 * vec3) : list R := let '(a, b, c) := t in [norm3 (sub3 c b); norm3 (sub3 a c); norm3 (sub3 b a)].
Definition mean_length (V : list vec3) (F : list tri) : res R :=
  do ts <- mapr (at3 V) F;
  let ls := flat_map tri_lengths ts in Ok (fold_right Rplus 0%R ls / INR (length ls))%R.

(** theta > thresh; NaN compares False *)
Definition sharper (thresh : R) (x : option R) : bool := match x with Some x => if Rlt_dec thresh x then true else false | None => false end.
(** :73-83 the sides opposite corner c = 0,1,2 of the faces whose entry exceeds the threshold *)
Definition sharp_sides (thresh : R) (F : list tri) (theta : list (option R * option R * option R)) : list (Z * Z) :=
  let rows := combine F theta in
  map (fun p => let '((a, b, c), _) := p in (b, c)) (filter (fun p => sharper thresh (fst (fst (snd p)))) rows) ++
  map (fun p => let '((a, b, c), _) := p in (c, a)) (filter (fun p => sharper thresh (snd (fst (snd p)))) rows) ++
  map (fun p => let '((a, b, c), _) := p in (a, b)) (filter (fun p => sharper thresh (snd (snd p))) rows).
(** :71-88 *)
Definition prepare_edges (V : list vec3) (F : list tri) (fe : list (Z * Z)) (detect : bool) (degrees : R) : res (list (Z * Z)) :=
  if detect then
    do _ <- mapr (at3 V) F;                                                                   (* per_face_normals indexes V *)
    do theta <- dihedral_angles (fun i => match at1 V i with Ok v => v | Err _ => zero3 end) F;   (* :73 *)
    let thresh := (degrees * PI / 180)%R in                                                   (* :74 *)
    Ok (np_unique (map sort2 (fe ++ sharp_sides thresh F theta)))                          (* :85-88 *)
  else Ok fe.

(** :102-104: the distinct values in the order of their first occurrence; [ind] has no repetitions, so argsort is the sort by [ind] *)
Definition unique_stable (l : list Z) : list Z := map snd (np_unique (combine (map Z.of_nat (np_unique_index l)) (np_unique l))).
(** np.delete(np.arange(n), feature) *)
Definition np_delete (n : nat) (idx : list Z) : res (list Z) :=
  do ks <- mapr (npidx (Z.of_nat n)) idx;
  Ok (filter (fun i => negb (existsb (Z.eqb i) ks)) (map Z.of_nat (seq 0 n))).
(** tmp[order] = np.arange(n); the initial contents of np.empty do not matter, every entry is written *)
Definition inverse_order (n : nat) (order : list Z) : res (list Z) :=
  do ks <- mapr (npidx (Z.of_nat n)) order;
  if Nat.eqb (length order) n then Ok (scatter_arange (repeat 0 n) ks 0) else Err ValueError.

Record rargs := { rV : list vec3; rF : list tri; riter : Z; rh : R; rfeat : list Z; redges : list (Z * Z); rproj : bool }.
Definition remesh_args (V : list vec3) (F : list tri) (i : Z) (h : option R) (project : bool) (feature : list Z) (feature_edges : list (Z * Z)) (detect : bool) (degrees : R) : res rargs :=
  do h <- match h with Some h => Ok h | None => mean_length V F end;                          (* :62-63 *)
  do fe <- prepare_edges V F feature_edges detect degrees;                                    (* :65-88 *)
  do bv <- lift AssertionError (boundary_vertices F);
  let feature := feature ++ bv in                                                             (* :97 *)
  let n := length V in
  do r <- match feature with
    | [] => Ok (V, F, fe, [])
    | _ =>
      let feature := unique_stable feature in                                                 (* :102-104 *)
      do rest <- np_delete n feature;
      let order := feature ++ rest in                                                         (* :111 *)
      do tmp <- inverse_order n order;                                                        (* :113-114 *)
      do V' <- mapr (at1 V) order;                                                            (* :117 *)
      do F' <- mapr (at3 tmp) F;                                                              (* :119 *)
      do fe' <- mapr (at2 tmp) fe;                                                            (* :121-122 *)
      Ok (V', F', fe', firstn (length feature) (map Z.of_nat (seq 0 n)))                      (* :124 *)
    end;
  let '(V', F', fe', feature') := r in
  do ne <- lift AssertionError (non_manifold_edges F');                                       (* :131 *)
  match ne with
  | [] => Ok {| rV := V'; rF := F'; riter := i; rh := h; rfeat := feature'; redges := fe'; rproj := project |}
  | _ => Err ValueError                                                                       (* :132-134 *)
  end.
Definition remesh_botsch {mesh} (cpp : rargs -> mesh) V F i h project feature feature_edges detect degrees : res mesh :=
  do a <- remesh_args V F i h project feature feature_edges detect degrees; Ok (cpp a).       (* :136-138 *)
