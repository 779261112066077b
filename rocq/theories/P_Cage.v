(** C88: lazy_cage; C89: mesh_boolean, do_meshes_intersect, decimate and barycenters *)
From Coq Require Import Reals Lra List ZArith Bool String Lia.
From Verif Require Import Vec PyExn NumpyModel TopoModel MatModel SubdivModel CageModel.
Import ListNotations.
Open Scope R_scope.

(** -- specification -- *)
(** w is half the longest side of the bounding box *)
Definition half_extent (V : list vec3) (w : R) : Prop :=
  (forall p q, In p V -> In q V -> Rabs (X p - X q) <= 2 * w /\ Rabs (Y p - Y q) <= 2 * w /\ Rabs (Zc p - Zc q) <= 2 * w)
  /\ exists p q, In p V /\ In q V /\ (Rabs (X p - X q) = 2 * w \/ Rabs (Y p - Y q) = 2 * w \/ Rabs (Zc p - Zc q) = 2 * w).
(** the candidate for offset d: offset surface, decimated, united with itself; and whether it is free of intersections with the input *)
Definition candidate (t : tools) (m : tmesh) (grid nf : Z) (d : R) : tmesh := let s := fst (c_decimate t (c_offset t m d grid) nf 0) in c_union t s s.
Definition free (t : tools) (m : tmesh) (grid nf : Z) (d : R) : Prop := c_intersect t (candidate t m grid nf d) m = [].

(** -- proofs -- *)
Lemma fold_max l : forall x, In (fold_left Rmax l x) (x :: l) /\ forall y, In y (x :: l) -> y <= fold_left Rmax l x.
Proof.
  induction l as [|z l IH]; intros x; cbn [fold_left]; [split; [left; auto|intros y [<-|[]]; lra]|]. destruct (IH (Rmax x z)) as (A & B). split.
  - destruct A as [A|A]; [|right; right; auto]. rewrite <- A. unfold Rmax. destruct (Rle_dec x z); [right; left|left]; auto.
  - pose proof (B (Rmax x z) (or_introl eq_refl)). pose proof (Rmax_l x z). pose proof (Rmax_r x z). intros y [<-|[<-|I]]; [lra|lra|apply B; right; auto].
Qed.
Lemma fold_min l : forall x, In (fold_left Rmin l x) (x :: l) /\ forall y, In y (x :: l) -> fold_left Rmin l x <= y.
Proof.
  induction l as [|z l IH]; intros x; cbn [fold_left]; [split; [left; auto|intros y [<-|[]]; lra]|]. destruct (IH (Rmin x z)) as (A & B). split.
  - destruct A as [A|A]; [|right; right; auto]. rewrite <- A. unfold Rmin. destruct (Rle_dec x z); [left|right; left]; auto.
  - pose proof (B (Rmin x z) (or_introl eq_refl)). pose proof (Rmin_l x z). pose proof (Rmin_r x z). intros y [<-|[<-|I]]; [lra|lra|apply B; right; auto].
Qed.
Lemma columns (c : vec3 -> R) V : V <> [] -> exists p q, col_max (map c V) = Ok (c p) /\ col_min (map c V) = Ok (c q) /\ In p V /\ In q V /\ forall r, In r V -> c q <= c r <= c p.
Proof.
  destruct V as [|v V]; [congruence|]. intros _. cbn [map col_max col_min]. destruct (fold_max (map c V) (c v)) as (A & B), (fold_min (map c V) (c v)) as (A' & B'). change (c v :: map c V) with (map c (v :: V)) in *.
  pose proof A as A0. pose proof A' as A0'. apply in_map_iff in A0, A0'. destruct A0 as (p & Ep & Ip), A0' as (q & Eq & Iq). exists p, q. rewrite Ep, Eq. split; [auto|]. split; [auto|]. split; [auto|]. split; [auto|]. intros r I. apply (in_map c) in I. split; [apply B'|apply B]; auto.
Qed.
Lemma extent_ok V : V <> [] -> exists w, max_bb V = Ok w /\ half_extent V w.
Proof.
  intros NE. destruct (columns X V NE) as (p1 & q1 & A1 & B1 & I1 & J1 & R1), (columns Y V NE) as (p2 & q2 & A2 & B2 & I2 & J2 & R2), (columns Zc V NE) as (p3 & q3 & A3 & B3 & I3 & J3 & R3).
  unfold max_bb. rewrite A1, B1, A2, B2, A3, B3. cbn [bind]. eexists. split; [reflexivity|].
  set (a := Rabs (X p1 - X q1)). set (b := Rabs (Y p2 - Y q2)). set (c := Rabs (Zc p3 - Zc q3)). pose proof (Rmax_l (Rmax a b) c). pose proof (Rmax_r (Rmax a b) c). pose proof (Rmax_l a b). pose proof (Rmax_r a b).
  assert (S : forall u v x y, u <= x <= v -> u <= y <= v -> Rabs (x - y) <= Rabs (v - u)) by (intros u v x y Hx Hy; rewrite (Rabs_pos_eq (v - u)) by lra; apply Rabs_le; lra).
  split.
  - intros p q Ip Iq. pose proof (S _ _ _ _ (R1 p Ip) (R1 q Iq)) as S1. pose proof (S _ _ _ _ (R2 p Ip) (R2 q Iq)) as S2. pose proof (S _ _ _ _ (R3 p Ip) (R3 q Iq)) as S3. fold a in S1. fold b in S2. fold c in S3. lra.
  - assert (Q : Rmax (Rmax a b) c = a \/ Rmax (Rmax a b) c = b \/ Rmax (Rmax a b) c = c) by (unfold Rmax; destruct (Rle_dec a b), (Rle_dec _ c); auto).
    destruct Q as [Q|[Q|Q]]; rewrite Q; [exists p1, q1; split; [auto|split; [auto|left]]|exists p2, q2; split; [auto|split; [auto|right; left]]|exists p3, q3; split; [auto|split; [auto|right; right]]]; [fold a|fold b|fold c]; lra.
Qed.
Section Loop.
  Variables (t : tools) (m : tmesh) (grid nf : Z).
  Notation cand := (candidate t m grid nf). Notation ok := (free t m grid nf).
  Lemma bisect_step k lo hi best last : bisect t m grid nf (S k) lo hi best last =
    match c_intersect t (cand ((lo + hi) / 2)) m with [] => bisect t m grid nf k lo ((lo + hi) / 2) (Some (cand ((lo + hi) / 2))) (Some (cand ((lo + hi) / 2))) | _ => bisect t m grid nf k ((lo + hi) / 2) hi best (Some (cand ((lo + hi) / 2))) end.
  Proof. cbn [bisect]. unfold decimate, mesh_boolean, do_meshes_intersect. cbn [String.eqb Ascii.eqb Bool.eqb bind btype find dictionary fst snd Z.eqb]. fold (cand ((lo + hi) / 2)). destruct (c_intersect t (cand ((lo + hi) / 2)) m); reflexivity. Qed.
  (** w: upper end at the start *)
  Lemma bisect_inv w : forall k lo hi best last, 0 <= lo < hi -> hi <= w -> (lo = 0 \/ ~ ok lo) -> (hi < w -> ok hi /\ best = Some (cand hi)) -> (hi = w -> best = None) -> (lo <> 0 -> hi = w -> last = Some (cand lo)) ->
    exists lo' hi' best' last', bisect t m grid nf k lo hi best last = Ok (best', last') /\ hi' - lo' = (hi - lo) / 2 ^ k /\ lo <= lo' < hi' /\ hi' <= hi
      /\ (lo' = 0 \/ ~ ok lo') /\ (hi' < w -> ok hi' /\ best' = Some (cand hi')) /\ (hi' = w -> best' = None) /\ (lo' <> 0 -> hi' = w -> last' = Some (cand lo')).
  Proof.
    induction k as [|k IH]; intros lo hi best last B HW L H1 H2 H3; [exists lo, hi, best, last; split; [reflexivity|]; split; [cbn; lra|]; split; [lra|]; split; [lra|]; auto|].
    rewrite bisect_step. set (d := (lo + hi) / 2). assert (D : lo < d < hi) by (unfold d; lra). assert (P2 : 0 < 2 ^ k) by (apply pow_lt; lra).
    destruct (c_intersect t (cand d) m) as [|z l] eqn:E.
    - destruct (IH lo d (Some (cand d)) (Some (cand d))) as (lo' & hi' & b' & l' & Q & W & R1 & R2 & R); [lra|lra|auto|split; [exact E|auto]|lra|lra|]. exists lo', hi', b', l'. split; [exact Q|]. split; [rewrite W; cbn [pow]; unfold d; field; lra|]. split; [lra|]. split; [lra|]. exact R.
    - destruct (IH d hi best (Some (cand d))) as (lo' & hi' & b' & l' & Q & W & R1 & R2 & R); [lra|lra|right; unfold free; rewrite E; discriminate|auto|auto|auto|]. exists lo', hi', b', l'. split; [exact Q|]. split; [rewrite W; cbn [pow]; unfold d; field; lra|]. split; [lra|]. split; [lra|]. exact R.
  Qed.
End Loop.

(** The search is a bisection for the smallest offset between 0 and half the longest side of the bounding box whose candidate does not touch the input.  It ends with an interval 2^-max_iter times as long, at whose left end the candidate intersects (or which starts at 0).  Unless the right end is the start value, its candidate is free and is the result; otherwise every candidate tried intersects, and the result is None, or with force_output the candidate of the left end. *)
Theorem C88_bisection t m grid max_iter nf force w : fst m <> [] -> half_extent (fst m) w -> 0 < w -> (0 < max_iter)%Z ->
  exists lo hi, 0 <= lo < hi /\ hi <= w /\ hi - lo = w / 2 ^ Z.to_nat max_iter /\ (lo = 0 \/ ~ free t m grid nf lo)
    /\ (hi < w -> free t m grid nf hi /\ lazy_cage t m grid max_iter nf force = Ok (Some (candidate t m grid nf hi)))
    /\ (hi = w -> lazy_cage t m grid max_iter nf force = Ok (if force then Some (candidate t m grid nf lo) else None)).
Proof.
  intros NE HW WP MI. destruct (extent_ok _ NE) as (w' & E & HE). assert (w' = w).
  { clear -HW HE. destruct HW as (A & p & q & Ip & Iq & Q), HE as (A' & p' & q' & Ip' & Iq' & Q'). pose proof (A' p q Ip Iq). pose proof (A p' q' Ip' Iq'). destruct Q as [Q|[Q|Q]], Q' as [Q'|[Q'|Q']]; lra. }
  subst w'. unfold lazy_cage. rewrite E. cbn [bind].
  destruct (bisect_inv t m grid nf w (Z.to_nat max_iter) 0 w None None) as (lo & hi & b & l & Q & W & R1 & R2 & R3 & R4 & R5 & R6); [lra|lra|auto|lra|auto|lra|].
  exists lo, hi. rewrite Q. cbn [bind fst snd]. split; [lra|]. split; [lra|]. split; [rewrite W; f_equal; lra|]. split; [auto|]. split.
  - intros L. destruct (R4 L) as (F & ->). auto.
  - intros EQ. rewrite (R5 EQ). destruct force; [|reflexivity]. destruct (Req_dec lo 0) as [Z|NZ]; [|rewrite R6; auto].
    exfalso. rewrite Z, EQ in W. assert (1 < 2 ^ Z.to_nat max_iter) by (apply Rlt_pow_R1; [lra|lia]). assert (w / 2 ^ Z.to_nat max_iter < w); [|lra]. apply Rmult_lt_reg_r with (2 ^ Z.to_nat max_iter); [lra|]. unfold Rdiv. rewrite Rmult_assoc, Rinv_l by lra. nra.
Qed.
(** If larger offsets are free whenever smaller ones are, the cage is within w/2^max_iter of the tightest one, and without force_output None means that no offset up to w - w/2^max_iter is free. *)
Theorem C88_tight t m grid max_iter nf force w : fst m <> [] -> half_extent (fst m) w -> 0 < w -> (0 < max_iter)%Z ->
  (forall d d', 0 < d < d' -> d' < w -> free t m grid nf d -> free t m grid nf d') ->
  (exists hi, 0 < hi < w /\ free t m grid nf hi /\ lazy_cage t m grid max_iter nf force = Ok (Some (candidate t m grid nf hi)) /\ forall d, 0 < d <= hi - w / 2 ^ Z.to_nat max_iter -> ~ free t m grid nf d)
  \/ (forall d, 0 < d <= w - w / 2 ^ Z.to_nat max_iter -> ~ free t m grid nf d) /\ (force = false -> lazy_cage t m grid max_iter nf force = Ok None).
Proof.
  intros NE HW WP MI MON. destruct (C88_bisection t m grid max_iter nf force w NE HW WP MI) as (lo & hi & R1 & R2 & R3 & R4 & R5 & R6).
  assert (BELOW : forall d, 0 < d <= lo -> ~ free t m grid nf d) by (intros d (D1 & D2) FD; destruct R4 as [R4|R4]; [lra|]; apply R4; destruct (Req_dec d lo) as [<-|N]; [auto|apply (MON d lo); auto; lra]).
  destruct (Req_dec hi w) as [EQ|NEQ].
  - right. split; [intros d D; apply BELOW; lra|]. intros ->. apply R6. auto.
  - left. destruct R5 as (F & L); [lra|]. exists hi. split; [lra|]. split; [auto|]. split; [auto|]. intros d D. apply BELOW. lra.
Qed.
(** force_output promises a cage; without an iteration there is none, and the call fails with an unbound variable. *)
Theorem C88_no_iterations_refuted t m grid max_iter nf : fst m <> [] -> (max_iter <= 0)%Z -> lazy_cage t m grid max_iter nf true = Err UnboundLocalError /\ lazy_cage t m grid max_iter nf false = Ok None.
Proof. intros NE L. destruct (extent_ok _ NE) as (w & E & _). unfold lazy_cage. rewrite E. replace (Z.to_nat max_iter) with 0%nat by lia. auto. Qed.
Definition nothing : tmesh := ([], []).
(** "Constructs a coarse surface fully containing a given mesh": containment is not tested, only intersection.  If decimation leaves nothing of the offset surfaces, the empty mesh, which meets nothing, is returned as a cage. *)
Theorem C88_containment_refuted t m grid max_iter nf force : fst m <> [] -> (0 < max_iter)%Z -> (forall s k, fst (c_decimate t s k 0) = nothing) -> c_union t nothing nothing = nothing -> c_intersect t nothing m = [] ->
  lazy_cage t m grid max_iter nf force = Ok (Some nothing).
Proof.
  intros NE MI HD HU HI. destruct (extent_ok _ NE) as (w & E & _). unfold lazy_cage. rewrite E. cbn [bind].
  assert (C : forall d, candidate t m grid nf d = nothing) by (intros d; unfold candidate; cbv zeta; rewrite HD, HU; auto).
  assert (G : forall k lo hi last, exists l', bisect t m grid nf k lo hi (Some nothing) last = Ok (Some nothing, l')).
  { induction k as [|k IH]; intros lo hi last; [eexists; reflexivity|]. rewrite bisect_step, C, HI. apply IH. }
  destruct (Z.to_nat max_iter) as [|k] eqn:EK; [lia|]. rewrite bisect_step, C, HI. destruct (G k 0 ((0 + w) / 2) (Some nothing)) as (l' & ->). reflexivity.
Qed.
(** a concrete search: the candidate of offset d is a single point at (d,0,0) that "intersects" up to d = 0.6 *)
Definition toy : tools := {| c_offset := fun _ d _ => ([(d, 0, 0)], []); c_decimate := fun s _ _ => (s, ([], [])); c_union := fun a _ => a; c_intersection := fun a _ => a; c_difference := fun a _ => a;
  c_intersect := fun a _ => match fst a with p :: _ => if Rle_dec (X p) 0.6 then [0%Z; 0%Z] else [] | [] => [] end |}.
Definition toy_mesh : tmesh := ([(0, 0, 0); (2, 0, 0); (0, 1, 0)], [[0%Z; 1%Z; 2%Z]]).
Theorem C88_example : half_extent (fst toy_mesh) 1 /\ lazy_cage toy toy_mesh 50 2 100 true = Ok (Some ([(3 / 4, 0, 0)], [])) /\ (forall d d', 0 < d < d' -> d' < 1 -> free toy toy_mesh 50 100 d -> free toy toy_mesh 50 100 d').
Proof.
  assert (HE : half_extent (fst toy_mesh) 1).
  { split.
    - intros p q Ip Iq. cbn [toy_mesh fst In] in Ip, Iq. destruct Ip as [<-|[<-|[<-|[]]]], Iq as [<-|[<-|[<-|[]]]]; unfold X, Y, Zc; cbn [fst snd]; repeat split; apply Rabs_le; lra.
    - exists (2, 0, 0), (0, 0, 0). split; [right; left; auto|]. split; [left; auto|]. left. unfold X. cbn [fst]. rewrite Rabs_pos_eq; lra. }
  assert (FR : forall d, free toy toy_mesh 50 100 d <-> 0.6 < d).
  { intros d. unfold free, candidate. cbn [toy c_decimate c_offset c_union c_intersect fst]. unfold X. cbn [fst]. destruct (Rle_dec d 0.6); split; intros; try discriminate; try reflexivity; lra. }
  split; [exact HE|]. split.
  - destruct (extent_ok (fst toy_mesh)) as (w & E & HW); [discriminate|]. assert (w = 1).
    { clear -HE HW. destruct HE as (A & p & q & Ip & Iq & Q), HW as (A' & p' & q' & Ip' & Iq' & Q'). pose proof (A' p q Ip Iq). pose proof (A p' q' Ip' Iq'). destruct Q as [Q|[Q|Q]], Q' as [Q'|[Q'|Q']]; lra. }
    subst w. unfold lazy_cage. rewrite E. cbn [bind]. change (Z.to_nat 2) with 2%nat. rewrite bisect_step.
    assert (C : forall d, candidate toy toy_mesh 50 100 d = ([(d, 0, 0)], [])) by reflexivity. rewrite C. cbn [toy c_intersect fst]. unfold X. cbn [fst]. destruct (Rle_dec ((0 + 1) / 2) 0.6); [|lra].
    change (c_intersect _) with (c_intersect toy). fold toy. rewrite bisect_step, C. cbn [toy c_intersect fst]. unfold X. cbn [fst]. destruct (Rle_dec (((0 + 1) / 2 + 1) / 2) 0.6); [lra|]. cbn [bisect bind fst]. do 6 f_equal. field.
  - intros d d' D L F. apply FR. apply FR in F. lra.
Qed.

(** The documented operations (and the alias minus) give the three booleans, every other string fails with an unbound variable. *)
Theorem C89_boolean t m1 m2 s :
  mesh_boolean t m1 m2 "union" = Ok (c_union t m1 m2) /\ mesh_boolean t m1 m2 "intersection" = Ok (c_intersection t m1 m2) /\ mesh_boolean t m1 m2 "difference" = Ok (c_difference t m1 m2) /\ mesh_boolean t m1 m2 "minus" = Ok (c_difference t m1 m2)
  /\ (~ In s ["union"; "intersection"; "difference"; "minus"]%string -> mesh_boolean t m1 m2 s = Err UnboundLocalError).
Proof.
  repeat (split; [reflexivity|]). intros N. unfold mesh_boolean, btype, dictionary. cbn [find fst snd].
  assert (E : forall x, x <> s -> String.eqb x s = false) by (intros x; apply String.eqb_neq). rewrite !E; [reflexivity| | | |]; intros <-; apply N; cbn; tauto.
Qed.
(** "'minus', 'difference' and 'subtraction' are alias or one another" *)
Theorem C89_subtraction_refuted t m1 m2 : mesh_boolean t m1 m2 "subtraction" = Err UnboundLocalError.
Proof. reflexivity. Qed.
(** do_meshes_intersect answers True exactly when there is a pair to show *)
Theorem C89_intersect t m1 m2 : let '(b, i) := do_meshes_intersect t m1 m2 in (b = true <-> c_intersect t m1 m2 <> []) /\ i = if b then Some (c_intersect t m1 m2) else None.
Proof. unfold do_meshes_intersect. destruct (c_intersect t m1 m2) as [|z l]; cbn [length Nat.ltb Nat.leb]; (split; [split; congruence|reflexivity]). Qed.
(** decimate: num_faces supersedes face_ratio; otherwise the target is the largest whole number of faces within the ratio *)
Theorem C89_decimate t m r : (forall k, decimate t m r (Some k) "shortest_edge" = Ok (c_decimate t m k 0) /\ decimate t m r (Some k) "qslim" = Ok (c_decimate t m k 1))
  /\ (exists k, decimate t m r None "shortest_edge" = Ok (c_decimate t m k 0) /\ decimate t m r None "qslim" = Ok (c_decimate t m k 1) /\ IZR k <= r * INR (length (snd m)) < IZR k + 1 /\ (0 <= r <= 1 -> (0 <= k <= Z.of_nat (length (snd m)))%Z))
  /\ forall k s, s <> "shortest_edge"%string -> s <> "qslim"%string -> decimate t m r k s = Err ValueError.
Proof.
  split; [auto|]. split.
  - exists (Int_part (r * INR (length (snd m)))). split; [reflexivity|]. split; [reflexivity|]. set (n := length (snd m)). destruct (base_Int_part (r * INR n)) as (B1 & B2). split; [lra|]. intros R. pose proof (pos_INR n). rewrite INR_IZR_INZ in *.
    split; [assert (0 - 1 < IZR (Int_part (r * IZR (Z.of_nat n)))) by nra; rewrite <- minus_IZR in H0; apply lt_IZR in H0; lia|apply le_IZR; nra].
  - intros k s N1 N2. unfold decimate. rewrite (proj2 (String.eqb_neq _ _) N1), (proj2 (String.eqb_neq _ _) N2). reflexivity.
Qed.
(** barycenters *)
Lemma mapE_ok {A B} (f : A -> res B) (g : A -> B) l : (forall x, In x l -> f x = Ok (g x)) -> mapE f l = Ok (map g l).
Proof. induction l as [|x l IH]; intros H; [reflexivity|]. cbn [mapE map]. rewrite H by (left; auto). cbn [bind]. rewrite IH by (intros; apply H; right; auto). reflexivity. Qed.
Definition sum3 (l : list vec3) : vec3 := fold_right add3 zero3 l.
Lemma fold_sum l : forall a, fold_left add3 l a = add3 a (sum3 l).
Proof. induction l as [|p l IH]; intros a; cbn [fold_left]; [apply vec3_eq; unfold sum3; cbn [fold_right]; unfold add3, zero3, X, Y, Zc; cbn [fst snd]; ring|]. rewrite IH. change (sum3 (p :: l)) with (add3 p (sum3 l)). apply vec3_eq; unfold add3, X, Y, Zc; cbn [fst snd]; ring. Qed.
(** For elements with any positive number of corners, row i is the mean of the corners of element i: the only point whose differences to the corners cancel.  Hence the barycenter moves along with translations and linear maps of the vertices. *)
Theorem C89_barycenters V F : (forall f i, In f F -> In i f -> (0 <= i < Z.of_nat (length V))%Z) -> (forall f, In f F -> f <> []) ->
  exists B, barycenters V F = Ok B /\ length B = length F /\
    forall k f b, nth_error F k = Some f -> nth_error B k = Some b -> sum3 (map (fun i => sub3 (nth (Z.to_nat i) V zero3) b) f) = zero3 /\ forall c, sum3 (map (fun i => sub3 (nth (Z.to_nat i) V zero3) c) f) = zero3 -> c = b.
Proof.
  intros RG NE. exists (map (fun f => scal3 (/ INR (length f)) (fold_left add3 (map (fun i => nth (Z.to_nat i) V zero3) f) zero3)) F). split; [|split].
  - unfold barycenters. apply mapE_ok. intros f If. rewrite (mapE_ok _ (fun i => nth (Z.to_nat i) V zero3)); [reflexivity|]. intros i Ii. pose proof (RG f i If Ii) as R. unfold getZ, norm_index. destruct (Z.ltb_spec i 0); [lia|]. destruct (Z.leb_spec 0 i); [|lia]. destruct (Z.ltb_spec i (Z.of_nat (length V))); [|lia]. cbn [andb]. rewrite (nth_error_nth' V zero3) by lia. reflexivity.
  - apply map_length.
  - intros k f b NF NB. rewrite nth_error_map, NF in NB. cbn [option_map] in NB. injection NB as <-. apply nth_error_In in NF. apply NE in NF. rewrite fold_sum.
    set (g := fun i => nth (Z.to_nat i) V zero3). assert (S : forall c, sum3 (map (fun i => sub3 (g i) c) f) = sub3 (sum3 (map g f)) (scal3 (INR (length f)) c)).
    { intros c. clear NF. induction f as [|i f IH]; [apply vec3_eq; unfold sum3, sub3, scal3, zero3, X, Y, Zc; cbn; ring|]. cbn [map length]. change (sum3 (?a :: ?l)) with (add3 a (sum3 l)). rewrite S_INR. unfold sum3 in *. cbn [fold_right]. rewrite IH. apply vec3_eq; unfold add3, sub3, scal3, X, Y, Zc; cbn [fst snd]; ring. }
    assert (P : INR (length f) <> 0) by (apply not_0_INR; destruct f; [congruence|discriminate]).
    split; [rewrite S; apply vec3_eq; unfold add3, sub3, scal3, zero3, X, Y, Zc; cbn [fst snd]; field; auto|].
    intros c Q. rewrite S in Q. set (s := sum3 (map g f)) in *. clearbody s. unfold sub3, scal3, zero3, X, Y, Zc in Q. cbn [fst snd] in Q. injection Q as Q1 Q2 Q3. apply vec3_eq; unfold add3, scal3, zero3, X, Y, Zc; cbn [fst snd]; [replace (fst (fst s)) with (INR (length f) * fst (fst c)) by lra|replace (snd (fst s)) with (INR (length f) * snd (fst c)) by lra|replace (snd s) with (INR (length f) * snd c) by lra]; field; auto.
Qed.
Theorem C89_example : exists b, barycenters [(0, 0, 0); (1, 0, 0); (0, 1, 0); (0, 0, 1)] [[0; 1; 2]; [0; 1; 3]]%Z = Ok [(/ 3, / 3, 0); b].
Proof.
  eexists. unfold barycenters. cbn [mapE]. change (getZ _ 0%Z) with (Some (0, 0, 0)). change (getZ _ 1%Z) with (Some (1, 0, 0)). change (getZ _ 2%Z) with (Some (0, 1, 0)). change (getZ _ 3%Z) with (Some (0, 0, 1)).
  cbn [lift bind fold_left length]. f_equal. f_equal. apply vec3_eq; unfold scal3, add3, zero3, X, Y, Zc; cbn [fst snd INR]; field.
Qed.
