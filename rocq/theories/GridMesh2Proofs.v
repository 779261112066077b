From Verif Require Import NumpyModel PyExn TopoModel TopoSpec Vec MatModel MatProofs GeomModel SubdivSpec SubdivProofs DecProofs GridMeshModel GridMeshProofs.
From Coq Require Import Psatz Permutation.
Open Scope Z_scope.

(** square *)
Definition sq_pos (V : list (R*R)) (i : Z) : vec2 := nth (Z.to_nat i) V (0,0)%R.
Lemma square_pos nx ny r c : 0 <= r < ny -> 0 <= c < nx -> sq_pos (fst (regular_square_mesh nx ny)) (r * nx + c) = (lin (-1) 1 nx c, lin (-1) 1 ny r).
Proof.
  intros Hr Hc. unfold sq_pos, regular_square_mesh. cbn [fst]. apply nth_error_nth. rewrite nth_error_map, cells_nth by auto. reflexivity.
Qed.
Lemma lin_step a b n i : lin a b n (i+1) = (lin a b n i + (b - a) / (IZR n - 1))%R.
Proof. unfold lin. rewrite plus_IZR. ring. Qed.
Lemma square_area nx ny t : 2 <= nx -> 2 <= ny -> In t (snd (regular_square_mesh nx ny)) ->
  let '(a, b, c) := t in let p := sq_pos (fst (regular_square_mesh nx ny)) in
  (det2 (sub2 (p b) (p a)) (sub2 (p c) (p a)) = 4 / ((IZR nx - 1) * (IZR ny - 1)))%R.
Proof.
  intros Hx Hy I. assert (IZR 2 <= IZR nx)%R by (apply IZR_le; lia). assert (IZR 2 <= IZR ny)%R by (apply IZR_le; lia).
  cbn [regular_square_mesh snd] in I. apply (grid_faces_in (fun r => r) (fun c => c) _ _ nx) in I as (r & c & R1 & C1 & I).
  destruct I as [ -> | -> ]; cbv beta zeta; rewrite !square_pos by lia; rewrite !lin_step; unfold det2, sub2; cbn [fst snd]; field; lra.
Qed.
Lemma sumf_const_list {A} (g : A -> R) k l : (forall x, In x l -> g x = k) -> sumf g l = (INR (length l) * k)%R.
Proof. intros Hg. rewrite (sumf_ext _ (fun _ => k)) by auto. apply sumf_const. Qed.

Lemma square_counts nx ny : 1 <= nx -> 1 <= ny -> length (fst (regular_square_mesh nx ny)) = Z.to_nat (nx * ny)
  /\ length (snd (regular_square_mesh nx ny)) = Z.to_nat (2 * (nx - 1) * (ny - 1)).
Proof.
  intros. unfold regular_square_mesh, grid_faces. cbn [fst snd]. rewrite app_length, !map_length, !cells_length. nia.
Qed.
Lemma square_rev nx ny e : 2 <= nx -> 2 <= ny -> In e (all_sides (snd (regular_square_mesh nx ny))) ->
  (In (rev_edge e) (all_sides (snd (regular_square_mesh nx ny))) <->
   ~ ((fst e / nx = 0 /\ snd e / nx = 0) \/ (fst e / nx = ny - 1 /\ snd e / nx = ny - 1)
      \/ (fst e mod nx = 0 /\ snd e mod nx = 0) \/ (fst e mod nx = nx - 1 /\ snd e mod nx = nx - 1))).
Proof.
  intros Hx Hy. cbn [regular_square_mesh snd].
  assert (D : forall r c, 0 <= c < nx -> (r * nx + c) / nx = r /\ (r * nx + c) mod nx = c).
  { intros r c Hc. rewrite Z.add_comm, Z.div_add, Z.mod_add, Z.div_small, Z.mod_small by lia. lia. }
  pose proof (step_open (ny-1)) as SA. pose proof (step_open (nx-1)) as SB. replace (nx - 1 + 1) with nx in SB by lia.
  intros I. apply (in_sides (fun r => r) (fun c => c)) in I as (k & r & c & K & R1 & C1 & ->).
  rewrite (rev_in _ _ _ _ _ _ SA SB k r c K R1 C1).
  destruct (D r c ltac:(lia)) as [D1 D2]. destruct (D (r+1) c ltac:(lia)) as [D3 D4].
  destruct (D r (c+1) ltac:(lia)) as [D5 D6]. destruct (D (r+1) (c+1) ltac:(lia)) as [D7 D8].
  destruct k as [|[|[|[|[|[|k]]]]]]; try (exfalso; lia); cbn [side fst snd]; rewrite ?D1, ?D2, ?D3, ?D4, ?D5, ?D6, ?D7, ?D8; split; intros G; try lia; try (destruct G as (? & ? & ?); lia); auto.
  - exists (r+1). lia.
  - exists (c-1). lia.
  - exists (r-1). lia.
  - exists (c+1). lia.
Qed.

(** torus *)
Lemma torus_inv nR nr RR rr V F : torus nR nr RR rr = Ok (V, F) -> 3 <= nR /\ 3 <= nr /\ (0 < RR)%R /\ (0 < rr)%R
  /\ F = grid_faces (fun r c => wrap nr r * nR + wrap nR c) nr nR
  /\ V = map (fun p => let ph := lin_open 0 (2 * PI) nR (snd p) in let th := lin_open 0 (2 * PI) nr (fst p) in
        ((RR + rr * cos th) * cos ph, (RR + rr * cos th) * sin ph, rr * sin th)%R) (cells nr nR).
Proof.
  unfold torus. destruct (Z.ltb_spec nR 3), (Z.ltb_spec nr 3); cbn [orb]; try discriminate.
  destruct (Rlt_dec 0 RR), (Rlt_dec 0 rr); try discriminate. intros Q. injection Q as <- <-. auto 10.
Qed.
Lemma torus_closed nR nr RR rr V F : torus nR nr RR rr = Ok (V, F) ->
  good_mesh F /\ in_range (nR * nr) F /\ length V = Z.to_nat (nR * nr) /\ length F = Z.to_nat (2 * nR * nr)
  /\ (forall e, In e (all_sides F) -> In (rev_edge e) (all_sides F))
  /\ (forall p, In p V -> let q := X p * X p + Y p * Y p in (q + Zc p * Zc p + RR * RR - rr * rr) * (q + Zc p * Zc p + RR * RR - rr * rr) = 4 * RR * RR * q)%R.
Proof.
  intros Q. apply torus_inv in Q as (H1 & H2 & P1 & P2 & -> & ->).
  pose proof (step_wrap nr H2) as SA. pose proof (step_wrap nR H1) as SB. split; [apply (grid_good (wrap nr) (wrap nR) _ _ nr nR SA SB)|].
  split; [replace (nR * nr) with (nr * nR) by lia; apply (grid_range (wrap nr) (wrap nR) _ _ nr nR SA SB)|].
  split; [rewrite map_length, cells_length; nia|]. split; [unfold grid_faces; rewrite app_length, !map_length, cells_length; nia|]. split.
  - intros e I. apply (in_sides (wrap nr) (wrap nR)) in I as (k & r & c & K & R1 & C1 & ->).
    apply (rev_in _ _ _ _ _ _ SA SB k r c K R1 C1).
    destruct k as [|[|[|[|[|[|k]]]]]]; auto; [apply wrap_next | apply wrap_prev | apply wrap_prev | apply wrap_next]; auto.
  - intros p I. apply in_map_iff in I as (c & <- & _). cbv zeta. set (ph := lin_open _ _ nR _). set (th := lin_open _ _ nr _). unfold X, Y, Zc; cbn [fst snd].
    pose proof (sin2_cos2 ph) as S1. pose proof (sin2_cos2 th) as S2. unfold Rsqr in S1, S2.
    set (a := cos ph) in *. set (b := sin ph) in *. set (u := cos th) in *. set (v := sin th) in *. clearbody a b u v.
    replace ((RR + rr * u) * a * ((RR + rr * u) * a) + (RR + rr * u) * b * ((RR + rr * u) * b))%R with ((RR + rr * u) * (RR + rr * u))%R by (replace ((RR + rr * u) * a * ((RR + rr * u) * a) + (RR + rr * u) * b * ((RR + rr * u) * b))%R with ((RR + rr * u) * (RR + rr * u) * (b * b + a * a))%R by ring; rewrite S1; ring).
    replace ((RR + rr * u) * (RR + rr * u) + rr * v * (rr * v) + RR * RR - rr * rr)%R with (2 * RR * (RR + rr * u))%R.
    + ring.
    + replace (rr * v * (rr * v))%R with (rr * rr * (1 - u * u))%R by (rewrite <- S2; ring). ring.
Qed.

(** cylinder *)
Lemma ring_row nx r c : 0 <= c < nx -> (r * nx + c) / nx = r.
Proof. intros Hc. rewrite Z.add_comm, Z.div_add, Z.div_small by lia. lia. Qed.
Lemma cylinder_ok nx nz V F : cylinder nx nz = Ok (V, F) ->
  good_mesh F /\ in_range (nx * nz) F /\ length V = Z.to_nat (nx * nz) /\ length F = Z.to_nat (2 * nx * (nz - 1))
  /\ (forall e, In e (all_sides F) -> (In (rev_edge e) (all_sides F) <-> ~ ((fst e / nx = 0 /\ snd e / nx = 0) \/ (fst e / nx = nz - 1 /\ snd e / nx = nz - 1))))
  /\ (forall p, In p V -> X p * X p + Y p * Y p = 1 /\ 0 <= Zc p <= 1)%R.
Proof.
  unfold cylinder. destruct (Z.ltb_spec nx 3), (Z.ltb_spec nz 2); cbn [orb]; try discriminate. intros Q. injection Q as <- <-.
  pose proof (step_open (nz-1)) as SA. replace (nz - 1 + 1) with nz in SA by lia. pose proof (step_wrap nx ltac:(lia)) as SB.
  split; [apply (grid_good (fun r => r) (wrap nx) _ _ nz nx SA SB)|].
  split; [replace (nx * nz) with (nz * nx) by lia; apply (grid_range (fun r => r) (wrap nx) _ _ nz nx SA SB)|].
  split; [rewrite map_length, cells_length; nia|]. split; [unfold grid_faces; rewrite app_length, !map_length, cells_length; nia|]. split.
  - intros e I. apply (in_sides (fun r => r) (wrap nx)) in I as (k & r & c & K & R1 & C1 & ->).
    rewrite (rev_in _ _ _ _ _ _ SA SB k r c K R1 C1).
    pose proof (st_range _ _ _ SB c ltac:(lia)). pose proof (st_range _ _ _ SB (c+1) ltac:(lia)).
    destruct k as [|[|[|[|[|[|k]]]]]]; try (exfalso; lia); cbn [side fst snd]; rewrite ?ring_row by auto; split; intros G; try lia; try (destruct G as (? & ? & ?); lia); auto.
    + exists (r+1). lia.
    + apply wrap_prev; lia.
    + exists (r-1). lia.
    + apply wrap_next; lia.
  - intros p I. apply in_map_iff in I as ([r c] & <- & I). apply in_cells in I. cbv zeta. unfold X, Y, Zc; cbn [fst snd] in *. set (ph := lin_open _ _ _ _).
    pose proof (sin2_cos2 ph) as S. unfold Rsqr in S. split; [lra|]. unfold lin. destruct I as [[I1 I2] _].
    apply IZR_le in I1. assert (IZR r <= IZR nz - 1)%R by (rewrite <- minus_IZR; apply IZR_le; lia). assert (2 <= IZR nz)%R by (apply IZR_le; lia).
    assert (P : (0 < / (IZR nz - 1))%R) by (apply Rinv_0_lt_compat; lra). 
    assert (Q1 : (IZR r * / (IZR nz - 1) <= 1)%R). { apply (Rmult_le_reg_r (IZR nz - 1)); [lra|]. rewrite Rmult_assoc, Rinv_l by lra. lra. }
    unfold Rdiv. split; nra.
Qed.

(** cone *)
Section Cone.
  Variables nx nz : Z.          (* nz rings *)
  Hypothesis Hx : 3 <= nx.
  Hypothesis Hz : 1 <= nz.
  Let G := grid_faces (fun r c => r * nx + wrap nx c) (nz - 1) nx.
  Let a c := nx * (nz - 1) + wrap nx c.
  Let top := nx * nz.
  Let fan := map (fun c => (nx * (nz - 1) + c, nx * (nz - 1) + wrap nx (c + 1), nx * nz)) (zseq nx).
  Lemma fan_in t : In t fan <-> exists c, 0 <= c < nx /\ t = (a c, a (c+1), top).
  Proof.
    unfold fan. rewrite in_map_iff. split.
    - intros (c & <- & I). apply in_zseq in I. exists c. split; auto. unfold a, top. f_equal; f_equal. f_equal. unfold wrap. destruct (Z.eqb_spec c nx); lia.
    - intros (c & Hc & ->). exists c. rewrite in_zseq. split; auto. unfold a, top. f_equal; f_equal. f_equal. unfold wrap. destruct (Z.eqb_spec c nx); lia.
  Qed.
  Let SA : step_ok (fun r => r) (nz - 1) nz.
  Proof. pose proof (step_open (nz-1)) as S. replace (nz - 1 + 1) with nz in S by lia. exact S. Qed.
  Let SB : step_ok (wrap nx) nx nx := step_wrap nx Hx.
  Lemma a_range c : 0 <= c <= nx -> nx * (nz - 1) <= a c < top.
  Proof. intros Hc. pose proof (st_range _ _ _ SB c Hc). unfold a, top. nia. Qed.
  Lemma fan_side e : In e (all_sides fan) <-> exists c, 0 <= c < nx /\ (e = (a c, a (c+1)) \/ e = (a (c+1), top) \/ e = (top, a c)).
  Proof.
    unfold all_sides. rewrite in_flat_map. split.
    - intros (t & I & S). apply fan_in in I as (c & Hc & ->). cbn in S. exists c. intuition.
    - intros (c & Hc & S). exists (a c, a (c+1), top). rewrite fan_in. split; [eauto|]. cbn. intuition.
  Qed.
  Lemma grid_side_range e : In e (all_sides G) -> 0 <= fst e < top /\ 0 <= snd e < top.
  Proof. apply sides_range. unfold top. replace (nx * nz) with (nz * nx) by lia. apply (grid_range (fun r => r) (wrap nx) _ _ nz nx SA SB). Qed.
  Lemma a_inj c c' : 0 <= c < nx -> 0 <= c' < nx -> a c = a c' -> c = c'.
  Proof. intros H1 H2 Q. apply (st_inj0 _ _ _ SB); auto. unfold a in Q. lia. Qed.
  Lemma a_inj1 c c' : 0 <= c < nx -> 0 <= c' < nx -> a (c+1) = a (c'+1) -> c = c'.
  Proof. intros H1 H2 Q. apply (st_inj1 _ _ _ SB); auto. unfold a in Q. lia. Qed.
  Lemma a_move c : 0 <= c < nx -> a c <> a (c+1).
  Proof. intros H1 Q. apply (st_move _ _ _ SB c); auto. unfold a in Q. lia. Qed.
  Lemma a_norev c c' : 0 <= c < nx -> 0 <= c' < nx -> a c = a (c'+1) -> a (c+1) = a c' -> False.
  Proof. intros H1 H2 Q Q'. apply (st_norev _ _ _ SB c c'); auto; unfold a in *; lia. Qed.
  Lemma fan_oriented : NoDup (all_sides fan).
  Proof.
    unfold all_sides. apply NoDup_flat_map_key.
    - intros t I. apply fan_in in I as (c & Hc & ->). pose proof (a_range c ltac:(lia)). pose proof (a_range (c+1) ltac:(lia)).
      repeat constructor; cbn; intros S; intuition; match goal with Q : (_,_) = (_,_) |- _ => injection Q; intros; lia end.
    - intros i j s t x Hi Hj Is It.
      assert (K : forall i s, nth_error fan i = Some s -> s = (a (Z.of_nat i), a (Z.of_nat i + 1), top) /\ 0 <= Z.of_nat i < nx).
      { clear. intros i s Hi. unfold fan in Hi. rewrite nth_error_map in Hi.
        assert (Li : (i < Z.to_nat nx)%nat). { rewrite <- zseq_length. apply nth_error_Some. destruct (nth_error (zseq nx) i); cbn in Hi; congruence. }
        rewrite zseq_nth in Hi by auto. cbn in Hi. injection Hi as <-. split; [|lia]. unfold a, top. f_equal; f_equal. f_equal. unfold wrap. destruct (Z.eqb_spec (Z.of_nat i) nx); lia. }
      destruct (K i s Hi) as [ -> Ri]. destruct (K j t Hj) as [ -> Rj].
      pose proof (a_range (Z.of_nat i) ltac:(lia)). pose proof (a_range (Z.of_nat i+1) ltac:(lia)). pose proof (a_range (Z.of_nat j) ltac:(lia)). pose proof (a_range (Z.of_nat j+1) ltac:(lia)).
      pose proof (a_inj (Z.of_nat i) (Z.of_nat j) Ri Rj). pose proof (a_inj1 (Z.of_nat i) (Z.of_nat j) Ri Rj).
      cbn in Is, It. destruct Is as [Is|[Is|[Is|[]]]], It as [It|[It|[It|[]]]]; rewrite <- Is in It; injection It; intros; lia.
  Qed.
  Lemma grid_fan_disjoint e : In e (all_sides G) -> In e (all_sides fan) -> False.
  Proof.
    intros I J. pose proof (grid_side_range e I) as R. apply fan_side in J as (c & Hc & J).
    destruct J as [ -> | [ -> | -> ] ]; cbn [fst snd] in R; try lia.
    apply (in_sides (fun r => r) (wrap nx)) in I as (k & r & c' & K & R1 & C1 & Q).
    pose proof (st_range _ _ _ SB c' ltac:(lia)). pose proof (st_range _ _ _ SB (c'+1) ltac:(lia)). pose proof (st_range _ _ _ SB c ltac:(lia)). pose proof (st_range _ _ _ SB (c+1) ltac:(lia)).
    pose proof (st_norev _ _ _ SB c c' Hc C1) as NR.
    unfold a in Q. replace (nx * (nz - 1)) with ((nz - 1) * nx) in Q by lia.
    destruct k as [|[|[|[|[|[|k]]]]]]; try (exfalso; lia); cbn [side] in Q; injection Q as Q1 Q2; apply idx_inj in Q1; try lia; apply idx_inj in Q2; try lia.
  Qed.
  Lemma cone_good : good_mesh (G ++ fan).
  Proof.
    pose proof (grid_good (fun r => r) (wrap nx) _ _ nz nx SA SB) as (O & P & D). fold G in O, P, D. split; [|split].
    - unfold oriented_manifold, all_sides. rewrite flat_map_app. apply NoDup_app_iff. split; [exact O|]. split; [apply fan_oriented|]. apply grid_fan_disjoint.
    - intros t I. apply in_app_iff in I as [I|I]; auto. apply fan_in in I as (c & Hc & ->). pose proof (a_range c ltac:(lia)). pose proof (a_range (c+1) ltac:(lia)).
      pose proof (a_move c Hc). cbn. lia.
    - assert (GT : forall s, In s G -> let '(x,y,z) := s in x < top /\ y < top /\ z < top).
      { intros [[x y] z] I. apply (sides_in G) in I as (I1 & I2 & _). apply grid_side_range in I1, I2. cbn in *. lia. }
      intros s t I J S. apply in_app_iff in I as [I|I]; apply in_app_iff in J as [J|J]; auto.
      + exfalso. apply GT in I. apply fan_in in J as (c & Hc & ->). destruct s as [[x y] z]. unfold same_tri, perms3 in S; cbn [In] in S.
        destruct S as [S|[S|[S|[S|[S|[S|[]]]]]]]; injection S as Q1 Q2 Q3; lia.
      + exfalso. apply GT in J. apply fan_in in I as (c & Hc & ->). destruct t as [[x y] z]. unfold same_tri, perms3 in S; cbn [In] in S.
        destruct S as [S|[S|[S|[S|[S|[S|[]]]]]]]; injection S as Q1 Q2 Q3; lia.
      + apply fan_in in I as (c & Hc & ->). apply fan_in in J as (c' & Hc' & ->).
        pose proof (a_range c ltac:(lia)). pose proof (a_range (c+1) ltac:(lia)). pose proof (a_range c' ltac:(lia)). pose proof (a_range (c'+1) ltac:(lia)).
        unfold same_tri, perms3 in S; cbn [In] in S. destruct S as [S|[S|[S|[S|[S|[S|[]]]]]]]; injection S; clear S; intros; try (exfalso; lia).
        * rewrite (a_inj c c') by auto. auto.
        * exfalso. eapply (a_norev c c'); eauto.
  Qed.
  Lemma cone_range : in_range (nx * nz + 1) (G ++ fan).
  Proof.
    intros t I. apply in_app_iff in I as [I|I].
    - pose proof (grid_range (fun r => r) (wrap nx) _ _ nz nx SA SB t I) as Q. destruct t as [[x y] z]. nia.
    - apply fan_in in I as (c & Hc & ->). pose proof (a_range c ltac:(lia)). pose proof (a_range (c+1) ltac:(lia)). unfold top in *. nia.
  Qed.
  Lemma cone_sides e : In e (all_sides (G ++ fan)) <-> In e (all_sides G) \/ In e (all_sides fan).
  Proof. unfold all_sides. rewrite flat_map_app. apply in_app_iff. Qed.
  Lemma cone_rev e : In e (all_sides (G ++ fan)) -> (In (rev_edge e) (all_sides (G ++ fan)) <-> ~ (fst e / nx = 0 /\ snd e / nx = 0)).
  Proof.
    rewrite !cone_sides.
    assert (AR : forall c, 0 <= c <= nx -> a c / nx = nz - 1).
    { intros c Hc. unfold a. replace (nx * (nz - 1)) with ((nz-1) * nx) by lia. apply ring_row. apply (st_range _ _ _ SB c Hc). }
    assert (TR : top / nx = nz) by (unfold top; rewrite Z.mul_comm, Z.div_mul by lia; auto).
    intros [I|I].
    - pose proof (grid_side_range e I) as RG.
      apply (in_sides (fun r => r) (wrap nx)) in I as (k & r & c & K & R1 & C1 & ->).
      pose proof (rev_in _ _ _ _ _ _ SA SB k r c K R1 C1) as RI. change (grid_faces (fun r c : Z => (fun r0 : Z => r0) r * nx + wrap nx c) (nz - 1) nx) with G in RI. rewrite RI.
      pose proof (st_range _ _ _ SB c ltac:(lia)). pose proof (st_range _ _ _ SB (c+1) ltac:(lia)).
      assert (FS : In (rev_edge (side (fun r => r) (wrap nx) nx k (r,c))) (all_sides fan) -> k = 1%nat /\ r = nz - 2).
      { intros J. apply fan_side in J as (c' & Hc' & J).
        destruct J as [J|[J|J]]; try (exfalso; destruct (side _ _ _ _ _) as [u v]; cbn in J, RG; injection J as Q1 Q2; lia).
        pose proof (st_range _ _ _ SB c' ltac:(lia)). pose proof (st_range _ _ _ SB (c'+1) ltac:(lia)).
        pose proof (st_move _ _ _ SB c' Hc').
        unfold a in J. replace (nx * (nz - 1)) with ((nz - 1) * nx) in J by lia.
        destruct k as [|[|[|[|[|[|k]]]]]]; try (exfalso; lia); cbn [side rev_edge fst snd] in J; injection J as Q1 Q2; apply idx_inj in Q1; try lia; apply idx_inj in Q2; try lia. }
      destruct k as [|[|[|[|[|[|k]]]]]]; try (exfalso; lia); cbn [side fst snd] in *; rewrite ?ring_row by auto; split; intros W; try lia; auto.
      + destruct (Z.eq_dec r (nz - 2)) as [->|N].
        * right. apply fan_side. exists c. split; auto. left. unfold rev_edge, a. cbn [fst snd]. f_equal; f_equal; lia.
        * left. exists (r+1). lia.
      + left. apply wrap_prev; lia.
      + destruct W as [(r' & R2 & W)|W]; [lia|]. apply FS in W. lia.
      + left. exists (r-1). lia.
      + left. apply wrap_next; lia.
    - apply fan_side in I as (c & Hc & I). destruct I as [ -> | [ -> | -> ] ]; cbn [fst snd]; rewrite ?AR, ?TR by lia.
      + split.
        * intros [J|J].
          -- intros [Q _]. pose proof (grid_side_range _ J). apply (in_sides (fun r => r) (wrap nx)) in J as (k & r & c' & K & R1 & C1 & Q'). lia.
          -- exfalso. apply fan_side in J as (c' & Hc' & J). pose proof (a_range c ltac:(lia)). pose proof (a_range (c+1) ltac:(lia)).
             destruct J as [J|[J|J]]; unfold rev_edge in J; cbn in J; injection J as Q1 Q2; try lia. eapply (a_norev c c'); eauto.
        * intros N. left. apply (in_sides (fun r => r) (wrap nx)). exists 1%nat, (nz-2), c. split; [lia|]. split; [lia|]. split; auto.
          unfold rev_edge, a. cbn [side fst snd]. f_equal; f_equal; lia.
      + split; [intros _; lia|]. intros _. right. destruct (wrap_next nx c Hx Hc) as (c' & Hc' & Q). apply fan_side. exists c'. split; auto. right. right.
        unfold rev_edge, a. cbn [fst snd]. rewrite Q. auto.
      + split; [intros _; lia|]. intros _. right. destruct (wrap_prev nx c Hx Hc) as (c' & Hc' & Q). apply fan_side. exists c'. split; auto. right. left.
        unfold rev_edge, a. cbn [fst snd]. rewrite Q. auto.
  Qed.
End Cone.
Lemma cone_ok nx nz V F : cone nx nz = Ok (V, F) ->
  good_mesh F /\ in_range (nx * (nz - 1) + 1) F /\ length V = Z.to_nat (nx * (nz - 1) + 1) /\ length F = Z.to_nat (2 * nx * (nz - 2) + nx)
  /\ (forall e, In e (all_sides F) -> (In (rev_edge e) (all_sides F) <-> ~ (fst e / nx = 0 /\ snd e / nx = 0)))
  /\ (forall p, In p V -> X p * X p + Y p * Y p = (1 - Zc p) * (1 - Zc p))%R.
Proof.
  unfold cone. destruct (Z.ltb_spec nx 3), (Z.ltb_spec nz 2); cbn [orb]; try discriminate. intros Q. injection Q as <- <-.
  split; [apply cone_good; lia|]. split; [apply cone_range; lia|]. split; [rewrite app_length, map_length, cells_length; cbn [length]; nia|].
  split; [unfold grid_faces; rewrite !app_length, !map_length, cells_length, zseq_length; nia|]. split; [intros e; apply cone_rev; lia|].
  intros p I. apply in_app_iff in I as [I|[<-|[]]]; [|unfold X, Y, Zc; cbn; lra].
  apply in_map_iff in I as (q & <- & _). cbv zeta. set (ph := lin_open _ _ _ _). set (z := lin _ _ _ _). unfold X, Y, Zc; cbn [fst snd].
  pose proof (sin2_cos2 ph) as S. unfold Rsqr in S. set (u := cos ph) in *. set (v := sin ph) in *. clearbody u v z.
  replace (u * (1 - z) * (u * (1 - z)) + v * (1 - z) * (v * (1 - z)))%R with ((v * v + u * u) * ((1 - z) * (1 - z)))%R by ring. rewrite S. ring.
Qed.
