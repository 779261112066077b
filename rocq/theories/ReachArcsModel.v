(** reach_for_the_arcs.py:11-282 with _sdf_to_point_cloud (:284-395), _locally_make_feasible (:488-577) and _fine_tune_point_cloud (:580-712) around the C++ core of ArcsModel, called with return_point_cloud=True.
    Arrays are functions of the row number or lists, doubles exact reals; np.inf as clamp_value is None.  Parameters: everything random, the outside points found by rasterization with nanoflann's nearest point among them, thread schedules, what libigl says about the mesh in each fine-tuning iteration, and the surface reconstruction (point_cloud_to_mesh; a function of the oriented points).  Left out: verbose output, the import of the bindings, rasterization_resolution (only handed to the rasterization) and the default of n_local_searches (a parameter here). *)
From Coq Require Import Reals List Arith Bool ZArith.
From Verif Require Import Vec ArcsModel.
Import ListNotations.
Open Scope R_scope.

(** np.min(U, axis=0) for n > 0 rows *)
Definition low2 (n : nat) (U : nat -> vec2) : vec2 := (minl (map (fun i => fst (U i)) (seq 0 n)), minl (map (fun i => snd (U i)) (seq 0 n))).
Definition low3 (n : nat) (U : nat -> vec3) : vec3 := (minl (map (fun i => X (U i)) (seq 0 n)), minl (map (fun i => Y (U i)) (seq 0 n)), minl (map (fun i => Zc (U i)) (seq 0 n))).
(** a dimension with the column minimum *)
Record frame := { sp : space; low : nat -> (nat -> pt sp) -> pt sp }.
Definition F2 : frame := {| sp := E2; low := low2 |}.
Definition F3 : frame := {| sp := E3; low := low3 |}.

Section Driver.
  Variable fr : frame.
  Notation D := (sp fr).
  Definition oriented : Type := pt D * pt D * nat.
  (** what one call of _sdf_to_point_cloud draws, finds and runs *)
  Record search_env := { outside : list (pt D); s_nearest : pt D -> pt D; s_draw : list nat; s_perm : list nat; s_sort : list nat -> list nat; s_order : nat -> nat; s_sched : list (nat * nat) }.
  (** the same for one fine-tuning iteration, with the distances to the mesh *)
  Record tune_env := { t_draw : list nat; t_perm : list nat; t_sort : list nat -> list nat; t_sort2 : list nat -> list nat; t_order : nat -> nat; t_threads : nat; t_sched : list (nat * nat); t_sched2 : nat -> list (nat * nat);
    t_dsq : nat -> R; t_proj : nat -> pt D; t_wind : nat -> R; t_proj_cloud : nat -> pt D }.
  Variables (fine_tune_iters batch_size max_points_per_sphere n_local_searches local_search_iters : Z) (local_search_t tol : R).
  Variable face : Type.
  (** point_cloud_to_mesh *)
  Variable mesher : list (pt D * pt D) -> list (pt D) * list face.
  (** reach_for_the_arcs.py:561-565, :672-676 *)
  Definition batch_of (n : nat) (draw perm : list nat) : list nat := if (0 <? batch_size)%Z && (batch_size <? Z.of_nat n)%Z then draw else perm.
  (** :342 and :449, :544 *)
  Definition in_unit (n : nat) (U : nat -> pt D) : bool := forallb (fun i => forallb (fun x => le_b 0 x && le_b x 1) (coords D (U i))) (seq 0 n).
  (** :284-395, :488-577; [order] stands for shuffled_indices of the core *)
  Definition sdf_to_point_cloud (e : search_env) (n : nat) (U : nat -> pt D) (S : nat -> R) (clamp : option R) : option (list oriented) :=
    if negb (in_unit n U) then None else
    match outside e with
    | [] => Some []
    | _ => let batch := batch_of n (s_draw e) (s_perm e) in
           match init D tol (spheres D U S batch) with
           | None => None
           | Some tree => locally_make_feasible D (s_sort e) n U S batch n_local_searches local_search_iters tol clamp tree (s_nearest e) (s_order e) (s_sched e)
           end
    end.
  Definition pts_of (c : list oriented) : list (pt D * pt D) := map fst c.
  (** :670-712; it counts the iterations *)
  Fixpoint fine_tune (k it : nat) (env : nat -> list oriented -> tune_env) (n : nat) (U : nat -> pt D) (S : nat -> R) (clamp : option R) (c : list oriented) : option (list oriented) :=
    match k with
    | O => Some c
    | Datatypes.S k' =>
        if Nat.ltb (length c) 2 then Some c else                                  (* :678-683 *)
        match fst (mesher (pts_of c)) with
        | [] => Some c                                                            (* :690-693 *)
        | _ => let e := env it c in
               let batch := batch_of n (t_draw e) (t_perm e) in
               match init D tol (spheres D U S batch) with
               | None => None
               | Some tree =>
                   let cloud := map (fun x => (fst (fst x), snd x)) c in
                   (* the second parallel loop of the core runs over the points the first one has collected *)
                   let m := match move_all D U S batch tol tree cloud (t_dsq e) (t_proj e) (t_wind e) (t_proj_cloud e) (t_sort2 e) max_points_per_sphere local_search_t (t_order e) (t_threads e) (t_sched e) with Some l => length l | None => 0%nat end in
                   match fine_tune_point_cloud_iter D (t_sort e) U S batch n_local_searches local_search_iters tol clamp tree cloud (t_dsq e) (t_proj e) (t_wind e) (t_proj_cloud e)
                           (t_sort2 e) max_points_per_sphere local_search_t (t_order e) (t_threads e) (t_sched e) (t_sched2 e m) with
                   | None => None
                   | Some c' => fine_tune k' (Datatypes.S it) env n U S clamp c'
                   end
               end
        end
    end.
  (** V, F, P, N; P and N are None in Python if they are None here *)
  Record result := { oV : list (pt D); oF : list face; oPN : option (list (pt D * pt D)) }.
  (** :11-282; None: an assertion fails, or the core does *)
  Definition reach_for_the_arcs (epos eneg : search_env) (env : nat -> list oriented -> tune_env) (n : nat) (U0 : nat -> pt D) (S0 : nat -> R) (clamp0 : option R) : option result :=
    let trans := low fr n U0 in                                                                        (* :128-133 *)
    let U1 i := psub D (U0 i) trans in
    let scale := maxl (flat_map (fun i => coords D (U1 i)) (seq 0 n)) in
    let U i := pscal D (/ scale) (U1 i) in
    let S i := S0 i / scale in
    let clamp := match clamp0 with None => None | Some c => Some (c / scale) end in
    if Nat.eqb n 0 || eq_b scale 0 then None else                                                       (* np.min of nothing; 0/0 is nan and :342 fails *)
    let pos := filter (fun i => negb (lt_b (S i) 0)) (seq 0 n) in                                       (* :147-151 *)
    let neg := filter (fun i => lt_b (S i) 0) (seq 0 n) in
    let part e idx := match idx with
      | [] => Some None
      | _ => match sdf_to_point_cloud e (length idx) (fun k => U (nth k idx 0%nat)) (fun k => S (nth k idx 0%nat)) clamp with
             | None => None | Some c => Some (Some (map (fun x => (fst x, nth (snd x) idx 0%nat)) c)) end
      end in
    match part epos pos with None => None | Some cp =>
    match part eneg neg with None => None | Some cn =>
    let cloud := match cp with None => cn | Some [] => cn | Some c => match cn with None => cp | Some [] => cp | Some c' => Some (c ++ c') end end in   (* :183-190 *)
    match cloud with
    | None => Some {| oV := []; oF := []; oPN := None |}                                                (* :202-211 *)
    | Some [] => Some {| oV := []; oF := []; oPN := Some [] |}
    | Some c =>
        if (max_points_per_sphere <? 1)%Z then None else                                                (* :655 *)
        match fine_tune (Z.to_nat fine_tune_iters) 0 env n U S clamp c with
        | None => None
        | Some c' =>
            let back p := padd D (pscal D scale p) trans in
            let '(V, F) := if Nat.ltb (length c') 2 then ([], []) else mesher (pts_of c') in            (* :241-253 *)
            let PN := Some (map (fun q => (back (fst q), snd q)) (pts_of c')) in                       (* :259-262, :276; an empty cloud stays empty *)
            match V with
            | [] => Some {| oV := []; oF := F; oPN := PN |}                                             (* :255-264 *)
            | _ => Some {| oV := map back V; oF := F; oPN := PN |}                                      (* :275 *)
            end
        end
    end end end.
End Driver.
