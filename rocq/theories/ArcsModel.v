(** The point-cloud part of reach_for_the_arcs: src/cpp/reach_for_the_arcs/sAABB.cpp, resolve_collisions_on_sphere.cpp, locally_make_feasible.cpp, fine_tune_point_cloud_iter.cpp.
    Doubles are exact reals (so resolve_collisions' isFinite test :284 always succeeds), arrays are functions or lists, int overflow is not modelled.  The template parameter dim is the record [space]; the code is instantiated for dim = 2 ([E2]) and dim = 3 ([E3]).
    Division by the distance of two coinciding centres is x * /0 here and nan or infinity in C++: only meaningful for distinct sample positions.  In dimension 2 the comma initialisers sAABB.cpp:117-120 write a third coefficient behind the vectors; that is not modelled. *)
From Coq Require Import Reals List Arith Bool ZArith.
From Verif Require Import Vec.
Import ListNotations.
Open Scope R_scope.

Definition lt_b (x y : R) : bool := if Rlt_dec x y then true else false.
Definition le_b (x y : R) : bool := if Rle_dec x y then true else false.
Definition eq_b (x y : R) : bool := if Req_EM_T x y then true else false.
(** std::numeric_limits<double>::epsilon() *)
Definition epsilon : R := / 4503599627370496.
(** Eigen's normalized(): zero vectors stay zero *)
Definition unit2 (v : vec2) : vec2 := if Rlt_dec 0 (dot2 v v) then scal2 (/ norm2 v) v else v.
Definition unit3 (v : vec3) : vec3 := if Rlt_dec 0 (dot3 v v) then scal3 (/ norm3 v) v else v.

(** * resolve_collisions_on_sphere.cpp *)
(** :7-11 *)
Definition unit_orthogonal (v : vec2) : vec2 := unit2 (- snd v, fst v).
(** :13-22 *)
Definition in_bounds (l : list R) : bool := forallb (fun x => negb (lt_b x 0 || lt_b 1 x)) l.
(** :25-53 *)
Definition circle_circle_intersect (c1 : vec2) (r1 : R) (c2 : vec2) (r2 : R) : option (vec2 * vec2) :=
  let d := norm2 (sub2 c1 c2) in
  let a := (r1 * r1 - r2 * r2 + d * d) / (2 * d) in
  let discr := r1 * r1 - a * a in
  if lt_b discr 0 then None else
  let h := sqrt discr in
  let point1 := add2 c1 (scal2 (/ d) (scal2 a (sub2 c2 c1))) in
  let uo := unit_orthogonal (sub2 c2 c1) in
  Some (add2 point1 (scal2 h uo), sub2 point1 (scal2 h uo)).
(** :56-102 *)
Definition same3 (a b : vec3) : bool := eq_b (X a) (X b) && eq_b (Y a) (Y b) && eq_b (Zc a) (Zc b).
Definition sphere_sphere_intersect_closest_to_pt (p c1 : vec3) (r1 : R) (c2 : vec3) (r2 : R) : vec3 :=
  let d := norm3 (sub3 c1 c2) in
  if le_b d 0 && le_b (Rabs (r1 - r2)) 0 then
    let N := sub3 p c1 in let norm := norm3 N in
    if le_b norm 0 then p else add3 c1 (scal3 (r1 / norm) N)
  else
  let N := unit3 (sub3 c2 c1) in
  if lt_b (r1 + r2) d || lt_b d (Rabs (r1 - r2)) then add3 c1 (scal3 r1 N) else
  let a := (r1 * r1 - r2 * r2 + d * d) / (2 * d) in
  let discr := r1 * r1 - a * a in
  if lt_b discr 0 then add3 c1 (scal3 r1 N) else
  let h := sqrt discr in
  let mid := add3 c1 (scal3 a N) in
  let pp := sub3 p (scal3 (dot3 N (sub3 p mid)) N) in
  if same3 pp mid then p else add3 mid (scal3 h (unit3 (sub3 pp mid))).
(** :110-150 *)
Definition sphere_sphere_sphere_intersect (c1 : vec3) (r1 : R) (c2 : vec3) (r2 : R) (c3 : vec3) (r3 : R) : option (vec3 * vec3) :=
  let sq v := dot3 v v in
  if lt_b (sq (sub3 c2 c1)) epsilon || lt_b (sq (sub3 c3 c1)) epsilon || lt_b (sq (sub3 c3 c2)) epsilon then None else
  let b2_v := sub3 c2 c1 in let b3_v := sub3 c3 c1 in
  let b2 := norm3 b2_v in let b3 := norm3 b3_v in
  if lt_b (Rabs (Rabs (dot3 b2_v b3_v) - b2 * b3)) epsilon then None else
  let i := scal3 (/ b2) b2_v in
  let b3di := dot3 b3_v i in
  let j := unit3 (sub3 b3_v (scal3 b3di i)) in
  let k := cross3 i j in
  let x := (r1 * r1 - r2 * r2 + b2 * b2) / (2 * b2) in
  let y := (r1 * r1 - r3 * r3 + b3 * b3 - 2 * b3di * x) / (2 * dot3 b3_v j) in
  let discr := r1 * r1 - x * x - y * y in
  if lt_b discr 0 then None else
  let z := sqrt discr in
  let base := add3 (add3 c1 (scal3 x i)) (scal3 y j) in
  Some (add3 base (scal3 z k), sub3 base (scal3 z k)).
(** :166-176 and :225-236: inside one of the balls whose number is not in [ign] *)
Definition collision {P} (sub : P -> P -> P) (dot : P -> P -> R) (ds : list (P * R)) (x : P) (ign : list nat) : bool :=
  existsb (fun q => let '(i, (d, s)) := q in negb (existsb (Nat.eqb i) ign) && le_b (dot (sub x d) (sub x d) + epsilon) (s * s)) (combine (seq 0 (length ds)) ds).
(** :179-190 and :240-253: the choice between two intersection points *)
Definition pick {P} (sub : P -> P -> P) (dot : P -> P -> R) (ok : P -> bool) (p p1 p2 : P) : option P :=
  if ok p1 then (if ok p2 then Some (if lt_b (dot (sub p1 p) (sub p1 p)) (dot (sub p2 p) (sub p2 p)) then p1 else p2) else Some p1)
  else if ok p2 then Some p2 else None.
(** the first success of a loop *)
Fixpoint first_some {A B} (f : A -> option B) (l : list A) : option B := match l with [] => None | x :: r => match f x with Some y => Some y | None => first_some f r end end.
Definition row2 (v : vec2) : list R := [fst v; snd v].
Definition row3 (v : vec3) : list R := [X v; Y v; Zc v].
(** :153-200 *)
Definition resolve_2d (p c : vec2) (r : R) (ds : list (vec2 * R)) : vec2 :=
  let try i := let '(d, s) := nth i ds ((0, 0), 0) in
    match circle_circle_intersect c r d s with
    | Some (p1, p2) => pick sub2 dot2 (fun x => in_bounds (row2 x) && negb (collision sub2 dot2 ds x [i])) p p1 p2
    | None => let p1 := add2 c (scal2 r (unit2 (sub2 d c))) in if collision sub2 dot2 ds p1 [i] then None else Some p1
    end in
  match first_some try (seq 0 (length ds)) with Some q => q | None => p end.
(** :203-268 *)
Definition resolve_3d (p c : vec3) (r : R) (ds : list (vec3 * R)) : vec3 :=
  match ds with
  | [] => p
  | [(d, s)] => sphere_sphere_intersect_closest_to_pt p c r d s
  | _ =>
    let try ij := let '(i, j) := ij in let '(di, si) := nth i ds (zero3, 0) in let '(dj, sj) := nth j ds (zero3, 0) in
      match sphere_sphere_sphere_intersect c r di si dj sj with
      | Some (p1, p2) => pick sub3 dot3 (fun x => in_bounds (row3 x) && negb (collision sub3 dot3 ds x [i; j])) p p1 p2
      | None => let p1 := sphere_sphere_intersect_closest_to_pt p c r di si in
                if negb (collision sub3 dot3 ds p1 [i]) then Some p1 else
                let p2 := sphere_sphere_intersect_closest_to_pt p c r dj sj in
                if negb (collision sub3 dot3 ds p2 [j]) then Some p2 else None
      end in
    match first_some try (flat_map (fun i => map (fun j => (i, j)) (seq 0 i)) (seq 0 (length ds))) with Some q => q | None => p end
  end.

(** * the dimensions *)
Record space := { pt : Type; psub : pt -> pt -> pt; padd : pt -> pt -> pt; pscal : R -> pt -> pt; pdot : pt -> pt -> R; axis0 : pt; coords : pt -> list R; dim : nat;
  resolve : pt -> pt -> R -> list (pt * R) -> pt; turn : R -> pt -> pt -> pt }.
(** fine_tune_point_cloud_iter.cpp:178-181: Rotation2D(angle) * x *)
Definition turn2 (theta : R) (x y : vec2) : vec2 :=
  let t := (if lt_b (fst x * snd y - snd x * fst y) 0 then -1 else 1) * theta in (cos t * fst x - sin t * snd x, sin t * fst x + cos t * snd x).
(** :182-185: AngleAxis(theta, N) * x goes through AngleAxis::toRotationMatrix, which for a zero axis is cos(theta) times the identity *)
Definition turn3 (theta : R) (x y : vec3) : vec3 :=
  let N := unit3 (cross3 x y) in add3 (add3 (scal3 (cos theta) x) (scal3 ((1 - cos theta) * dot3 N x) N)) (scal3 (sin theta) (cross3 N x)).
Definition E2 : space := {| pt := vec2; psub := sub2; padd := add2; pscal := scal2; pdot := dot2; axis0 := (1, 0); coords := row2; dim := 2; resolve := resolve_2d; turn := turn2 |}.
Definition E3 : space := {| pt := vec3; psub := sub3; padd := add3; pscal := scal3; pdot := dot3; axis0 := (1, 0, 0); coords := row3; dim := 3; resolve := resolve_3d; turn := turn3 |}.
Definition pnorm (D : space) (v : pt D) : R := sqrt (pdot D v v).
(** locally_make_feasible.cpp:114-121, :188-195, fine_tune_point_cloud_iter.cpp:134-141, :424-431 *)
Definition direction (D : space) (v : pt D) : pt D := if lt_b epsilon (pnorm D v) then pscal D (/ pnorm D v) v else axis0 D.

(** * sAABB.cpp *)
Inductive node := Leaf (i : nat) | Inner (lo hi : list R) (l r : node).
Fixpoint insertR (x : R) (l : list R) : list R := match l with [] => [x] | y :: r => if Rle_dec x y then x :: l else y :: insertR x r end.
Definition sortR (l : list R) : list R := fold_right insertR [] l.
Definition minl (l : list R) : R := match l with [] => 0 | x :: r => fold_left Rmin r x end.
Definition maxl (l : list R) : R := match l with [] => 0 | x :: r => fold_left Rmax r x end.
Section Tree.
  Variable D : space.
  Definition item : Type := (pt D * R) * nat.      (* center, radius, number *)
  Definition axis_of (a : nat) (it : item) : R := nth a (coords D (fst (fst it))) 0.
  (** :117-130 *)
  Definition box (tol : R) (items : list item) : list R * list R :=
    (map (fun a => minl (map (fun it => axis_of a it - (snd (fst it) + tol)) items)) (seq 0 (dim D)),
     map (fun a => maxl (map (fun it => axis_of a it + (snd (fst it) + tol)) items)) (seq 0 (dim D))).
  (** :135-144 *)
  Definition split_axis (b : list R * list R) : nat :=
    let size a := nth a (snd b) 0 - nth a (fst b) 0 in
    let s := if lt_b (size 0%nat) (size 1%nat) then 1%nat else 0%nat in
    if Nat.ltb 2 (dim D) && lt_b (size s) (size 2%nat) then 2%nat else s.
  (** :156-188 *)
  Definition halves (a : nat) (median : R) (items : list item) : list item * list item :=
    fold_left (fun acc it => let '(l, r) := acc in
      if lt_b (axis_of a it) median then (l ++ [it], r)
      else if eq_b (axis_of a it) median then (if Nat.ltb (length l) (length r) then (l ++ [it], r) else (l, r ++ [it]))
      else (l, r ++ [it])) items ([], []).
  (** :95-200; None: the recursion does not end within the fuel, or an empty vector is indexed (:153).  The boxes of leaves are never read and left out *)
  Fixpoint init_node (fuel : nat) (tol : R) (items : list item) : option node :=
    match fuel with
    | O => None
    | S k => match items with
      | [] => None
      | [it] => Some (Leaf (snd it))
      | _ => let b := box tol items in let a := split_axis b in
             let median := nth (length items / 2) (sortR (map (axis_of a) items)) 0 in
             let h := halves a median items in
             match init_node k tol (fst h), init_node k tol (snd h) with Some l, Some r => Some (Inner (fst b) (snd b) l r) | _, _ => None end
      end
    end.
  (** :64-92; numbers are positions in the vectors of centers *)
  Definition init (tol : R) (spheres : list (pt D * R)) : option node := init_node (length spheres) tol (combine spheres (seq 0 (length spheres))).
  Fixpoint count (t : node) : nat := match t with Leaf _ => 1 | Inner _ _ l r => S (count l + count r) end%nat.
  Definition contains (lo hi : list R) (p : pt D) : bool := forallb (fun a => le_b (nth a lo 0) (nth a (coords D p) 0) && le_b (nth a (coords D p) 0) (nth a hi 0)) (seq 0 (dim D)).
  Variables (spheres : list (pt D * R)) (indices : list nat).
  (** :222-257 *)
  Fixpoint bfs (fuel : nat) (p : pt D) (k : nat) (tol : R) (ignore : nat) (queue : list node) (prims : list nat) : option (list nat) :=
    match queue with
    | [] => Some prims
    | cur :: q => match fuel with
      | O => None
      | S f => match cur with
        | Leaf i =>
            if Nat.eqb (nth i indices 0%nat) ignore then bfs f p k tol ignore q prims else
            let s := nth i spheres (axis0 D, 0) in
            let prims' := if lt_b (pnorm D (psub D p (fst s)) - snd s) tol then prims ++ [nth i indices 0%nat] else prims in
            if Nat.leb k (length prims') then Some prims' else bfs f p k tol ignore q prims'
        | Inner lo hi l r =>
            if contains lo hi p then bfs f p k tol ignore (q ++ (if Nat.even (length q) then [l; r] else [r; l])) prims
            else bfs f p k tol ignore q prims
        end
      end
    end.
  (** :203-258; [old] is what the output vector held before the call *)
  Definition get_spheres_containing (t : node) (p : pt D) (k : Z) (tol : R) (ignore : nat) (old : list nat) : option (list nat) :=
    if (k <? 1)%Z then Some old else bfs (count t) p (Z.to_nat k) tol ignore [t] [].
End Tree.

(** * locally_make_feasible.cpp and fine_tune_point_cloud_iter.cpp *)
Section Cloud.
  Variable D : space.
  (** std::sort by |S| (:146-149): any function that permutes the list *)
  Variable sort_by_radius : list nat -> list nat.
  Variables (n : nat) (U : nat -> pt D) (S : nat -> R) (batch : list nat) (n_local_searches local_search_iters : Z) (tol : R) (clamp : option R).
  (** locally_make_feasible.cpp:47-62 and fine_tune_point_cloud_iter.cpp:82-97 for a non-empty batch *)
  Definition spheres : list (pt D * R) := map (fun j => (U j, Rabs (S j))) batch.
  Definition n_search : Z := Z.min n_local_searches (Z.of_nat (length batch)).
  Definition clamped (i : nat) : bool := match clamp with None => false | Some c => le_b c (Rabs (S i)) end.
  Variable tree : node.
  Definition hits (p : pt D) (k : Z) (t : R) (ignore : nat) (w : list nat) : option (list nat) := get_spheres_containing D spheres batch tree p k t ignore w.
  (** locally_make_feasible.cpp:124-158, fine_tune_point_cloud_iter.cpp:360-394; [w] is the working vector of the thread, k the number of iterations left *)
  Fixpoint search (k : nat) (i : nat) (p : pt D) (w : list nat) : option (list nat * (pt D * bool)) :=
    match hits p 1 (- tol) i w with
    | None => None
    | Some [] => Some ([], (p, true))
    | Some w1 => match k with
      | O => Some (w1, (p, false))
      | Datatypes.S k' => match hits p n_search tol i w1 with
        | None => None
        | Some w2 => let w3 := sort_by_radius w2 in search k' i (resolve D p (U i) (Rabs (S i)) (map (fun j => (U j, Rabs (S j))) w3)) w3
        end
      end
    end.
  Definition local_search (i : nat) (p : pt D) (w : list nat) : option (list nat * (pt D * bool)) :=
    if (local_search_iters <? 0)%Z then Some (w, (p, false)) else search (Z.to_nat local_search_iters) i p w.
  (** the output of one point: position, normal, sphere (locally_make_feasible.cpp:185-199, fine_tune_point_cloud_iter.cpp:422-435) *)
  Definition entry (p : pt D) (i : nat) : pt D * pt D * nat :=
    let N := direction D (psub D p (U i)) in (p, (if lt_b (S i) 0 then N else pscal D (-1) N), i).

  (** ** locally_make_feasible.cpp *)
  (** the closest outside point (:105-113), found with nanoflann *)
  Variable nearest : pt D -> pt D.
  (** :95-162 loop_f for sphere i: the thread's working vector, and what is written to points[i], feasible_bool(i) *)
  Definition loop_f (i : nat) (w : list nat) : option (list nat * option (pt D * bool)) :=
    if clamped i then Some (w, None) else
    let u := U i in
    let point := padd D u (pscal D (Rabs (S i)) (direction D (psub D (nearest u) u))) in
    match local_search i point w with None => None | Some (w', r) => Some (w', Some r) end.
  Record lstate := { points : nat -> option (pt D); feasible : nat -> bool; work : nat -> list nat }.
  Definition upd {A} (f : nat -> A) (i : nat) (v : A) : nat -> A := fun j => if Nat.eqb j i then v else f j.
  (** :164-175: igl::parallel_for hands out the loop indices to threads; a schedule is the order in which the iterations run, with their threads.  Iterations of different threads touch different memory, so they are taken to be atomic. *)
  Definition loop_step (shuffled : nat -> nat) (st : option lstate) (task : nat * nat) : option lstate :=
    match st with None => None | Some st =>
      let i := shuffled (fst task) in
      match loop_f i (work st (snd task)) with
      | None => None
      | Some (w, None) => Some {| points := points st; feasible := upd (feasible st) i false; work := upd (work st) (snd task) w |}
      | Some (w, Some (p, b)) => Some {| points := upd (points st) i (Some p); feasible := upd (feasible st) i b; work := upd (work st) (snd task) w |}
      end end.
  (** :64-200 *)
  Definition locally_make_feasible (shuffled : nat -> nat) (schedule : list (nat * nat)) : option (list (pt D * pt D * nat)) :=
    match fold_left (loop_step shuffled) schedule (Some {| points := fun _ => None; feasible := fun _ => false; work := fun _ => [] |}) with
    | None => None
    | Some st => Some (flat_map (fun i => if feasible st i then match points st i with Some p => [entry p i] | None => [] end else []) (seq 0 n))
    end.

  (** ** fine_tune_point_cloud_iter.cpp *)
  (** the incoming cloud: positions and their spheres *)
  Variable cloud : list (pt D * nat).
  (** :105-121 distances, closest points and winding numbers w.r.t. the reconstructed mesh *)
  Variables (d_sq : nat -> R) (proj : nat -> pt D) (wind : nat -> R) (d_sq_cloud : nat -> R) (proj_cloud : nat -> pt D).
  (** std::sort by d_sq_cloud (:255-258) *)
  Variable sort_by_distance : list nat -> list nat.
  Variables (max_points_per_sphere : Z) (local_search_t : R).
  Definition cpos (a : nat) : pt D := fst (nth a cloud (axis0 D, 0%nat)).
  (** :99-103 *)
  Definition feasible_inv (i : nat) : list nat := filter (fun a => Nat.eqb (snd (nth a cloud (axis0 D, 0%nat))) i) (seq 0 (length cloud)).
  (** :124-147 *)
  Definition proj_onto_sphere (p : pt D) (i : nat) : pt D :=
    let N := pscal D ((if lt_b (S i) 0 then -1 else 1) * (if lt_b 0.5 (wind i) then -1 else 1)) (direction D (psub D p (U i))) in
    padd D (U i) (pscal D (Rabs (S i)) N).
  (** :176-199; the loop variable i hides the sphere, so iteration [it] ignores sphere [it] *)
  Fixpoint line_search (k it : nat) (theta : R) (c x y q : pt D) (w : list nat) : option (list nat * pt D) :=
    match k with
    | O => Some (w, q)
    | Datatypes.S k' =>
        let new_p := padd D c (turn D theta x y) in
        match hits new_p 1 (- tol) it w with
        | None => None
        | Some [] => Some ([], new_p)
        | Some w1 => line_search k' (Datatypes.S it) (theta * 0.5) c x y q w1
        end
    end.
  (** :149-201 *)
  Definition move_p_towards_q (p q : pt D) (i : nat) (w : list nat) : option (list nat * pt D) :=
    let c := U i in let r := Rabs (S i) in
    if lt_b (pnorm D (psub D p q)) tol || lt_b r tol || lt_b (pnorm D (psub D p c)) tol then Some (w, p) else
    let theta := Rmin (local_search_t / r) (2 * asin (Rmin 1 (0.5 * pnorm D (psub D p q) / r))) in
    line_search 20 0 theta c (psub D p c) (psub D q c) q w.
  (** :207-215 std::min_element: the first of the smallest *)
  Definition closest_idx (q : pt D) (l : list nat) : nat :=
    let f a := pdot D (psub D (cpos a) q) (psub D (cpos a) q) in
    match l with [] => 0%nat | a :: r => fold_left (fun b a => if lt_b (f a) (f b) then a else b) r a end.
  Fixpoint moves (l : list nat) (i : nat) (w : list nat) : option (list nat * list (pt D)) :=
    match l with
    | [] => Some (w, [])
    | a :: r => match move_p_towards_q (cpos a) (proj_onto_sphere (proj_cloud a) i) i w with
                | None => None
                | Some (w1, p) => match moves r i w1 with None => None | Some (w2, ps) => Some (w2, p :: ps) end
                end
    end.
  (** :262-277: which of the (sorted) points of the sphere get a partner *)
  Fixpoint partners (i j len : nat) (l : list nat) : list nat :=
    match l with
    | [] => []
    | a :: r => if negb (Z.of_nat j + 1 <? max_points_per_sphere)%Z then [] else
                if lt_b ((0.8 * Rabs (S i)) ^ 2) (d_sq i) && Nat.leb len (j + 1) then [] else a :: partners i (j + 1) len r
    end.
  (** :231-310 loop_move_f for sphere i: the thread's working vector and the new points on this sphere *)
  Definition loop_move (i : nat) (w : list nat) : option (list nat * list (pt D)) :=
    let r := Rabs (S i) in
    let p_proj := proj_onto_sphere (proj i) i in
    let inv := feasible_inv i in
    let move := match move_p_towards_q (cpos (closest_idx p_proj inv)) p_proj i w with None => None | Some (w1, p) => Some (w1, [p]) end in
    if lt_b (d_sq i) ((r - tol) ^ 2) && lt_b tol r then
      match inv with
      | [] => Some (w, [p_proj])
      | _ => match move with
             | None => None
             | Some (w1, ps) =>
                 if (1 <? max_points_per_sphere)%Z then
                   match moves (partners i 0 (length inv) (sort_by_distance inv)) i w1 with None => None | Some (w2, qs) => Some (w2, ps ++ qs) end
                 else Some (w1, ps)
             end
      end
    else if lt_b ((r + tol) ^ 2) (d_sq i) && lt_b tol r then match inv with [] => Some (w, [p_proj]) | _ => move end
    else match inv with [] => Some (w, [p_proj]) | _ => Some (w, map cpos inv) end.
  (** :220-229, :312-331: every thread collects its points; the collections are joined in the order of the threads *)
  Record mstate := { collected : nat -> list (pt D * nat); mwork : nat -> list nat }.
  Definition move_step (shuffled : nat -> nat) (st : option mstate) (task : nat * nat) : option mstate :=
    match st with None => None | Some st =>
      let i := shuffled (fst task) in
      match loop_move i (mwork st (snd task)) with
      | None => None
      | Some (w, ps) => Some {| collected := upd (collected st) (snd task) (collected st (snd task) ++ map (fun p => (p, i)) ps); mwork := upd (mwork st) (snd task) w |}
      end end.
  Definition move_all (shuffled : nat -> nat) (threads : nat) (schedule : list (nat * nat)) : option (list (pt D * nat)) :=
    match fold_left (move_step shuffled) schedule (Some {| collected := fun _ => []; mwork := fun _ => [] |}) with
    | None => None
    | Some st => Some (flat_map (collected st) (seq 0 threads))
    end.
  (** :350-396 loop_feasible_f for point i *)
  Definition feasible_step (pts : list (pt D * nat)) (st : option lstate) (task : nat * nat) : option lstate :=
    match st with None => None | Some st =>
      let '(p, s) := nth (fst task) pts (axis0 D, 0%nat) in
      if clamped s then Some st else
      match local_search s p (work st (snd task)) with
      | None => None
      | Some (w, (q, b)) => Some {| points := upd (points st) (fst task) (Some q); feasible := upd (feasible st) (fst task) b; work := upd (work st) (snd task) w |}
      end end.
  (** :45-437 *)
  Definition fine_tune_point_cloud_iter (shuffled : nat -> nat) (threads : nat) (schedule schedule2 : list (nat * nat)) : option (list (pt D * pt D * nat)) :=
    match move_all shuffled threads schedule with
    | None => None
    | Some pts =>
      match fold_left (feasible_step pts) schedule2 (Some {| points := fun _ => None; feasible := fun _ => false; work := fun _ => [] |}) with
      | None => None
      | Some st => Some (flat_map (fun k => if feasible st k then match points st k with Some p => [entry p (snd (nth k pts (axis0 D, 0%nat)))] | None => [] end else []) (seq 0 (length pts)))
      end
    end.
End Cloud.
