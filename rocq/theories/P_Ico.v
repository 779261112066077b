(** C71: icosphere *)
From Coq Require Import Reals Lra.
From Verif Require Import NumpyModel PyExn TopoModel TopoSpec Vec GeomSpec SubdivModel SubdivSpec IcoModel IcoProofs IcoBaseProofs IcoBase2Proofs.
Open Scope R_scope.

(** ** Specification *)
(** every directed side has its opposite: the surface has no boundary *)
Definition no_boundary (F : list tri) : Prop := forall a b, In (a, b) (all_sides F) -> In (b, a) (all_sides F).
(** no vertex is unused *)
Definition all_used (n : nat) (F : list tri) : Prop := forall i, (0 <= i < Z.of_nat n)%Z -> exists a b c, In (a, b, c) F /\ (i = a \/ i = b \/ i = c).
(** six times the signed volume of the tetrahedron (origin, x, y, z): positive when the face is seen counter-clockwise from outside *)
Definition outward (x y z : vec3) : Prop := 0 < dot3 x (cross3 y z).
(** the ray from the origin in direction [d] meets the flat triangle x y z (closed / in its interior) *)
Definition ray_meets (d x y z : vec3) : Prop :=
  exists t a b c, 0 < t /\ 0 <= a /\ 0 <= b /\ 0 <= c /\ a + b + c = 1 /\ scal3 t d = add3 (add3 (scal3 a x) (scal3 b y)) (scal3 c z).
Definition ray_crosses (d x y z : vec3) : Prop :=
  exists t a b c, 0 < t /\ 0 < a /\ 0 < b /\ 0 < c /\ a + b + c = 1 /\ scal3 t d = add3 (add3 (scal3 a x) (scal3 b y)) (scal3 c z).

Lemma zero_cone x y z : comb 0 0 0 x y z = zero3. Proof. apply vec3_eq; vx; ring. Qed.
Lemma cone_ray d x y z : d <> zero3 -> in_cone false x y z d -> ray_meets d x y z.
Proof.
  intros ND (a & b & c & (Pa & Pb & Pc) & E). assert (S : 0 < a + b + c).
  { destruct (Rle_lt_or_eq_dec 0 (a + b + c)) as [|Q]; [lra|auto|]. exfalso. apply ND. assert (a = 0) by lra. assert (b = 0) by lra. assert (c = 0) by lra. subst. apply zero_cone. }
  assert (I : 0 < / (a + b + c)) by (apply Rinv_0_lt_compat; auto).
  exists (/ (a + b + c)), (/ (a + b + c) * a), (/ (a + b + c) * b), (/ (a + b + c) * c). split; [auto|].
  split; [apply Rmult_le_pos; lra|]. split; [apply Rmult_le_pos; lra|]. split; [apply Rmult_le_pos; lra|]. split; [field; lra|]. rewrite E. apply vec3_eq; vx; ring.
Qed.
Lemma ray_cone d x y z : ray_crosses d x y z -> in_cone true x y z d.
Proof.
  intros (t & a & b & c & Pt & Pa & Pb & Pc & _ & E). assert (I : 0 < / t) by (apply Rinv_0_lt_compat; auto).
  exists (/ t * a), (/ t * b), (/ t * c). split. { cbn. repeat split; apply Rmult_lt_0_compat; auto. }
  assert (Q : d = scal3 (/ t) (scal3 t d)) by (apply vec3_eq; vx; field; lra). rewrite Q, E. apply vec3_eq; vx; ring.
Qed.

(** For every number of subdivision rounds, the surface is a closed, consistently oriented manifold without unused vertices, with
    20*4^n faces and 10*4^n+2 vertices (Euler characteristic 2: V - 3F/2 + F), inscribed in the unit sphere, every face turned outward, and every
    ray from the origin meets it, crossing the interior of at most one face: it is star-shaped about the centre and has no self-intersections. *)
Theorem C71_icosphere (n : Z) : (0 <= n)%Z -> exists V F, icosphere n = Ok (V, F)
  /\ Z.of_nat (length F) = (20 * 4 ^ n)%Z /\ Z.of_nat (length V) = (10 * 4 ^ n + 2)%Z
  /\ good_mesh F /\ in_range (Z.of_nat (length V)) F /\ no_boundary F /\ all_used (length V) F
  /\ (forall v, In v V -> norm3 v = 1)
  /\ (forall t x y z, In t F -> at3 V t x y z -> outward x y z)
  /\ (forall d, d <> zero3 -> exists t x y z, In t F /\ at3 V t x y z /\ ray_meets d x y z)
  /\ (forall d f g s t x y z x' y' z', nth_error F f = Some s -> nth_error F g = Some t -> at3 V s x y z -> at3 V t x' y' z' ->
        ray_crosses d x y z -> ray_crosses d x' y' z' -> f = g).
Proof.
  intros Hn. destruct base_inv as (V0 & Q0 & I0 & L0). destruct (loop_ok (Z.to_nat n) V0 ico_F I0) as (V & F & Q & I & LF & LV).
  exists V, F. split. { unfold icosphere. destruct (Z.ltb_spec n 0); [lia|]. rewrite Q0. cbn [bind]. auto. }
  assert (E4 : Z.of_nat (4 ^ Z.to_nat n) = (4 ^ n)%Z) by (rewrite Nat2Z.inj_pow, Z2Nat.id; auto).
  assert (L20 : length ico_F = 20%nat) by reflexivity. destruct I as [NE LV2 GM RG CL RF UN FC CV DJ].
  split; [rewrite LF; lia|]. split; [lia|]. split; [auto|]. split; [auto|]. split; [intros a b J; apply (CL (a, b)), J|].
  split. { intros i Hi. destruct (RF i Hi) as (j & J). unfold all_sides in J. apply in_flat_map in J as ([[a b] c] & It & Is). exists a, b, c. split; auto.
    cbn in Is. destruct Is as [E|[E|[E|[]]]]; injection E as <- _; auto. }
  split. { intros v Iv. unfold norm3. rewrite UN by auto. apply sqrt_1. }
  split. { intros t x y z It At. destruct (FC t x y z It At) as (_ & _ & _ & _ & _ & _ & D). exact D. }
  split. { intros d ND. destruct (CV d) as (f & t & x & y & z & Hf & At & C). exists t, x, y, z. split; [eapply nth_error_In; eauto|]. split; auto. apply cone_ray; auto. }
  intros d f g s t x y z x' y' z' Hf Hg As At C1 C2. apply (DJ d); [exists s, x, y, z|exists t, x', y', z']; auto using ray_cone.
Qed.
Theorem C71_negative (n : Z) : (n < 0)%Z -> icosphere n = Err AssertionError.
Proof. intros H. unfold icosphere. destruct (Z.ltb_spec n 0); [auto|lia]. Qed.

(** non-vacuity: the base mesh has 12 vertices and 20 faces, and three rounds give 1280 faces on 642 vertices *)
Example C71_nonvacuous : (exists V, icosphere 0 = Ok (V, ico_F) /\ length V = 12%nat) /\ (exists V F, icosphere 3 = Ok (V, F) /\ length F = 1280%nat /\ length V = 642%nat).
Proof.
  split.
  - destruct base_inv as (V & Q & _ & L). exists V. unfold icosphere. rewrite Q. cbn. auto.
  - destruct (C71_icosphere 3) as (V & F & Q & L1 & L2 & _); [lia|]. exists V, F. split; auto. cbn in L1, L2. lia.
Qed.
