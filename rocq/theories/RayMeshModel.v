(** ray_mesh_intersect.py, the Python path (use_embree=False): lines 9-48 and 123-141.
    Exact reals; a hit parameter of infinity is [None].  Not modelled: the Embree binding (lines 113-122) and the object
    `intersector`. *)
From Coq Require Import Reals Lra ZArith List Bool.
From Verif Require Import NumpyModel PyExn Vec GeomModel LoopsModel SubdivModel SqDistModel AabbModel RayModel.
Import ListNotations.
Open Scope R_scope.

(** the traversal's t, id, lmbd (ray_mesh_intersect.py:17-19) *)
Definition rstate := (option R * Z * vec3)%type.
Definition rstart : rstate := (None, (-1)%Z, (0, 0, 0)).
(** one axis per coordinate for ray_box_intersect *)
Fixpoint axes (o d c w : vec) : list axis :=
  match o, d, c, w with x :: o', y :: d', a :: c', b :: w' => (x, y, a, b) :: axes o' d' c' w' | _, _, _, _ => [] end.
(** ray_mesh_intersect.py:32-35: (is_hit, t); t is [None] when it is nan or infinite, and then `t<self.t` is False.
    A zero direction divides by zero. *)
Definition box_entry (o d c w : vec) : bool * option R :=
  let k := argmax (map Rabs d) in                                                        (* :13 *)
  let '(hit, p) := ray_box_intersect (axes o d c w) in                                   (* :34 *)
  (hit, match nth_error p k, nth_error o k, nth_error d k with
        | Some (Some x), Some y, Some z => if Req_EM_T z 0 then None else Some ((x - y) / z)   (* :35 *)
        | _, _, _ => None
        end).
(** V[F[i,0]], V[F[i,1]], V[F[i,2]] as points of space (ray_mesh_intersect.py:26-28) *)
Definition corners (V : list vec) (F : list (list Z)) (i : Z) : res (vec3 * vec3 * vec3) :=
  do f <- lift IndexError (getZ F i);
  do a <- lift IndexError (getZ f 0); do b <- lift IndexError (getZ f 1); do c <- lift IndexError (getZ f 2);
  do ra <- lift IndexError (getZ V a); do rb <- lift IndexError (getZ V b); do rc <- lift IndexError (getZ V c);
  lift ValueError (match v3_of ra, v3_of rb, v3_of rc with Some x, Some y, Some z => Some (x, y, z) | _, _, _ => None end).

Section Ray.
  Variables (V : list vec) (F : list (list Z)) (T : list node) (o d : vec).
  (** traverse_aabbtree.py:101-113 with ray_mesh_intersect.py:20-48 *)
  Fixpoint rtraverse (fuel : nat) (queue : list Z) (st : rstate) : res rstate :=
    match queue with
    | [] => Ok st
    | q :: queue' =>
      match fuel with
      | O => Err OutOfFuel
      | S fuel' =>
        do nd <- lift IndexError (getZ T q);
        let best := fst (fst st) in
        if (snd (nCH nd) =? -1)%Z then
          do o3 <- lift ValueError (v3_of o); do d3 <- lift ValueError (v3_of d);
          do (v0, v1, v2) <- corners V F (nT nd);
          rtraverse fuel' queue'
            (match ray_triangle_intersect o3 d3 v0 v1 v2 false with                       (* :29 *)
             | Some (t, h) => if lt_best t best then (Some t, nT nd, bary3 h v0 v1 v2) else st   (* :36-41 *)
             | None => st
             end)
        else
          let '(hit, t) := box_entry o d (nC nd) (nW nd) in
          if hit && (match t with Some x => lt_best x best | None => false end) then      (* :36 *)
            rtraverse fuel' (fst (nCH nd) :: snd (nCH nd) :: queue') st                   (* :45-46 *)
          else rtraverse fuel' queue' st
      end
    end.
End Ray.
(** :132-139, the rays one after the other *)
Fixpoint rays (V : list vec) (F : list (list Z)) (T : list node) (fuel : nat) (pos dir : list vec) : res (list rstate) :=
  match pos with
  | [] => Ok []
  | o :: pos' =>
    match dir with
    | [] => Err IndexError
    | d :: dir' => do r <- rtraverse V F T o d fuel [0%Z] rstart; do rs <- rays V F T fuel pos' dir'; Ok (r :: rs)
    end
  end.
(** :123-141; [tree] stands for the arguments C, W, CH, tri_ind given together *)
Definition ray_mesh_intersect (argsort : list R -> list nat) (fuel : nat) (pos dir V : list vec) (F : list (list Z)) (tree : option (list node)) : res (list rstate) :=
  do T <- (match tree with Some T => Ok T | None => initialize_aabbtree argsort fuel 3 V F end);   (* :128-129 *)
  rays V F T fuel pos dir.
