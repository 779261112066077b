From Verif Require Import NumpyModel PyExn Vec MatModel MatProofs SubdivModel SubdivProofs Subdiv3Proofs GridMeshModel GridMeshProofs FdModel.
From Coq Require Import Psatz.
Open Scope Z_scope.

Section Blocks.
  Context {A O : Type}.
  Variables (P : list A) (offs : list O) (J : O -> A -> Z) (val : O -> A -> R) (N : Z).
  Let inr (j : Z) := (0 <=? j) && (j <? N).
  Definition btrips : list trip := filter (fun t => (0 <=? tcol t) && (tcol t <? N)) (flat_map (fun o => map (fun q => (fst q, J o (snd q), val o (snd q))) (enum P)) offs).
  Lemma btrips_csr : csr (Z.of_nat (length P)) N btrips = Ok btrips.
  Proof.
    apply csr_ok. intros t I. apply filter_In in I as [I B]. rewrite andb_true_iff, Z.leb_le, Z.ltb_lt in B. split; [|lia].
    apply in_flat_map in I as (o & _ & I). apply in_map_iff in I as (q & <- & I). cbn [trow fst]. apply enum_nth in I as (k & -> & I).
    assert (k < length P)%nat by (apply nth_error_Some; congruence). lia.
  Qed.
  Lemma btrips_sum (g : trip -> R) i p : nth_error P i = Some p ->
    sumf (fun t => if trow t =? Z.of_nat i then g t else 0%R) btrips = sumf (fun o => if inr (J o p) then g (Z.of_nat i, J o p, val o p) else 0%R) offs.
  Proof.
    intros Hi. unfold btrips. rewrite sumf_filter, sumf_flat_map. apply sumf_ext. intros o _. rewrite sumf_map.
    rewrite (sumf_ext _ (fun q => if 0 + fst q =? 0 + Z.of_nat i then (if inr (J o (snd q)) then g (fst q, J o (snd q), val o (snd q)) else 0%R) else 0%R)).
    - rewrite (sumf_enum_pick P 0 (fun q => if inr (J o (snd q)) then g (fst q, J o (snd q), val o (snd q)) else 0%R) i p Hi). reflexivity.
    - intros q _. unfold trow, tcol; cbn [fst snd]. fold (inr (J o (snd q))). rewrite !Z.add_0_l. destruct (inr (J o (snd q))), (fst q =? Z.of_nat i); auto.
  Qed.
  Lemma btrips_mulv f i p : nth_error P i = Some p -> mulv (Z.to_nat N) btrips f (Z.of_nat i) = sumf (fun o => if inr (J o p) then (val o p * f (J o p))%R else 0%R) offs.
  Proof.
    intros Hi. rewrite mulv_trip.
    - apply (btrips_sum (fun t => tval t * f (tcol t))%R i p Hi).
    - intros t I. apply filter_In in I as [_ B]. rewrite andb_true_iff, Z.leb_le, Z.ltb_lt in B. lia.
  Qed.
  Lemma btrips_entry i p j : nth_error P i = Some p -> entry btrips (Z.of_nat i) j = sumf (fun o => if inr (J o p) then (if J o p =? j then val o p else 0%R) else 0%R) offs.
  Proof.
    intros Hi. unfold entry. etransitivity; [|exact (btrips_sum (fun t => if tcol t =? j then tval t else 0%R) i p Hi)]. apply sumf_ext. intros t _.
    destruct (trow t =? Z.of_nat i), (tcol t =? j); auto.
  Qed.
End Blocks.

(** one coordinate *)
Lemma flo_spec x : (IZR (flo x) <= x < IZR (flo x) + 1)%R.
Proof. unfold flo. destruct (base_Int_part x). lra. Qed.
Lemma coord n h c p : (0 < h)%R -> (c <= p <= c + (IZR n - 1) * h)%R ->
  let i := flo ((p - c) / h) in let v := ((p - (c + IZR i * h)) / h)%R in
  0 <= i < n /\ (0 <= v < 1)%R /\ (i = n - 1 -> v = 0%R) /\ (p = c + (IZR i + v) * h)%R.
Proof.
  intros Hh Hp i v. pose proof (flo_spec ((p - c) / h)) as [F1 F2]. fold i in F1, F2.
  assert (D : ((p - c) / h * h = p - c)%R) by (field; lra).
  assert (V : v = ((p - c) / h - IZR i)%R) by (unfold v; field; lra).
  assert (L : (0 <= (p - c) / h)%R) by (apply Rmult_le_reg_r with h; lra).
  assert (U : ((p - c) / h <= IZR n - 1)%R) by (apply Rmult_le_reg_r with h; lra).
  assert (I0 : 0 <= i). { apply Z.lt_succ_r. apply lt_IZR. unfold Z.succ. rewrite plus_IZR. lra. }
  assert (I1 : i < n). { apply lt_IZR. lra. }
  repeat split; try lia; try lra.
  - intros Q. rewrite Q, minus_IZR in *. lra.
  - rewrite V. replace (IZR i + ((p - c) / h - IZR i))%R with ((p - c) / h)%R by ring. lra.
Qed.
Lemma w01_nonneg d v : (0 <= v < 1)%R -> (0 <= w01 d v)%R.
Proof. unfold w01. destruct (d =? 0); lra. Qed.

Section D2.
  Variables (P : list vec2) (nx ny : Z) (h c : vec2).
  Hypotheses (Hx : (0 < fst h)%R) (Hy : (0 < snd h)%R).
  Let ix (p : vec2) := flo ((fst p - fst c) / fst h).
  Let iy (p : vec2) := flo ((snd p - snd c) / snd h).
  Let vx (p : vec2) := ((fst p - (fst c + IZR (ix p) * fst h)) / fst h)%R.
  Let vy (p : vec2) := ((snd p - (snd c + IZR (iy p) * snd h)) / snd h)%R.
  Let J (o : Z * Z) (p : vec2) := (ix p + nx * iy p) + fst o + snd o * nx.
  Let val (o : Z * Z) (p : vec2) := (w01 (snd o) (vy p) * w01 (fst o) (vx p))%R.
  Definition W2 := btrips P corners2 J val (nx * ny).
  Lemma fd2_ok : fd_interpolate2 P (nx, ny) h c = Ok W2.
  Proof.
    unfold W2. rewrite <- (btrips_csr P corners2 J val (nx * ny)). unfold fd_interpolate2. cbv zeta. cbn [fst snd]. f_equal. unfold btrips. f_equal.
    apply flat_map_ext. intros o. apply map_ext. intros [i p]. reflexivity.
  Qed.
  Definition inbox2 (p : vec2) := (fst c <= fst p <= fst c + (IZR nx - 1) * fst h)%R /\ (snd c <= snd p <= snd c + (IZR ny - 1) * snd h)%R.
  Lemma good2 o p : inbox2 p -> In o corners2 -> val o p = 0%R \/
    (0 <= ix p + fst o < nx /\ 0 <= iy p + snd o < ny /\ J o p = (ix p + fst o) + nx * (iy p + snd o)).
  Proof.
    intros [B1 B2] Io. destruct (coord nx _ _ _ Hx B1) as (I1 & V1 & E1 & _). destruct (coord ny _ _ _ Hy B2) as (I2 & V2 & E2 & _).
    fold (ix p) in I1, V1, E1. fold (vx p) in V1, E1. fold (iy p) in I2, V2, E2. fold (vy p) in V2, E2.
    unfold val, J. destruct (Z.eq_dec (ix p) (nx - 1)) as [Q1|Q1]; destruct (Z.eq_dec (iy p) (ny - 1)) as [Q2|Q2];
      try rewrite (E1 Q1); try rewrite (E2 Q2); cbn in Io; destruct Io as [<-|[<-|[<-|[<-|[]]]]]; cbn [fst snd w01 Z.eqb];
      first [ left; ring | right; repeat split; try lia ].
  Qed.
  Lemma val2_nonneg o p : inbox2 p -> (0 <= val o p)%R.
  Proof.
    intros [B1 B2]. destruct (coord nx _ _ _ Hx B1) as (_ & V1 & _). destruct (coord ny _ _ _ Hy B2) as (_ & V2 & _).
    unfold val. apply Rmult_le_pos; apply w01_nonneg; auto.
  Qed.
  Lemma inr_true j : 0 <= j < nx * ny -> (0 <=? j) && (j <? nx * ny) = true.
  Proof. rewrite andb_true_iff, Z.leb_le, Z.ltb_lt. lia. Qed.
  Lemma idx2 x y : 0 <= x < nx -> 0 <= y < ny -> 0 <= x + nx * y < nx * ny /\ (x + nx * y) mod nx = x /\ (x + nx * y) / nx = y.
  Proof. intros. split; [nia|]. rewrite (Z.mul_comm nx y). rewrite Z.mod_add, Z.div_add, Z.mod_small, Z.div_small by lia. lia. Qed.
  Lemma W2_apply F i p : nth_error P i = Some p -> inbox2 p ->
    mulv (Z.to_nat (nx * ny)) W2 (fun j => F (j mod nx) (j / nx)) (Z.of_nat i)
    = sumf (fun o => (w01 (snd o) (vy p) * w01 (fst o) (vx p) * F (ix p + fst o)%Z (iy p + snd o)%Z)%R) corners2.
  Proof.
    intros Hi B. unfold W2. rewrite (btrips_mulv P corners2 J val (nx * ny) _ i p Hi). apply sumf_ext. intros o Io.
    fold (val o p). destruct (good2 o p B Io) as [Z0|(R1 & R2 & ->)].
    - rewrite Z0. destruct (_ && _); ring.
    - destruct (idx2 _ _ R1 R2) as (R & M & D). rewrite inr_true by auto. rewrite M, D. reflexivity.
  Qed.
  Lemma W2_entry_nonneg i p j : nth_error P i = Some p -> inbox2 p -> (0 <= entry W2 (Z.of_nat i) j)%R.
  Proof.
    intros Hi B. unfold W2. rewrite (btrips_entry P corners2 J val (nx * ny) i p j Hi). apply sumf_nonneg. intros o Io.
    pose proof (val2_nonneg o p B). destruct (_ && _); [|lra]. destruct (_ =? _); lra.
  Qed.
  Lemma W2_support i p x y : nth_error P i = Some p -> inbox2 p -> 0 <= x < nx -> 0 <= y < ny -> entry W2 (Z.of_nat i) (x + nx * y) <> 0%R ->
    (Rabs (fst c + IZR x * fst h - fst p) < fst h /\ Rabs (snd c + IZR y * snd h - snd p) < snd h)%R.
  Proof.
    intros Hi B Rx Ry. unfold W2. rewrite (btrips_entry P corners2 J val (nx * ny) i p _ Hi). intros N.
    assert (E : exists o, In o corners2 /\ val o p <> 0%R /\ J o p = x + nx * y).
    { destruct (idx2 x y Rx Ry) as (R & _). revert N. generalize corners2. induction l as [|o l IH]; cbn [sumf]; [lra|]. intros N.
      destruct (Z.eqb_spec (J o p) (x + nx * y)) as [Q|Q].
      - destruct (Req_dec (val o p) 0) as [Z0|Z0]; [|exists o; cbn; auto]. rewrite Z0 in N.
        destruct IH as (o' & I & H); [intros S; apply N; rewrite S; destruct (_ && _); lra|]. exists o'. cbn. tauto.
      - destruct IH as (o' & I & H); [intros S; apply N; rewrite S; destruct (_ && _); lra|]. exists o'. cbn. tauto. }
    destruct E as (o & Io & Z0 & Q). destruct (good2 o p B Io) as [Z1|(R1 & R2 & Q')]; [contradiction|].
    destruct (idx2 _ _ R1 R2) as (_ & M1 & D1). destruct (idx2 _ _ Rx Ry) as (_ & M2 & D2). rewrite <- Q', Q in M1, D1. rewrite M2 in M1. rewrite D2 in D1. subst x y.
    destruct B as [B1 B2]. destruct (coord nx _ _ _ Hx B1) as (_ & V1 & _ & E1). destruct (coord ny _ _ _ Hy B2) as (_ & V2 & _ & E2).
    fold (ix p) in V1, E1. fold (vx p) in V1, E1. fold (iy p) in V2, E2. fold (vy p) in V2, E2.
    rewrite !plus_IZR.
    assert (GX : (fst c + (IZR (ix p) + IZR (fst o)) * fst h - fst p = (IZR (fst o) - vx p) * fst h)%R) by (rewrite E1 at 1; ring).
    assert (GY : (snd c + (IZR (iy p) + IZR (snd o)) * snd h - snd p = (IZR (snd o) - vy p) * snd h)%R) by (rewrite E2 at 1; ring).
    rewrite GX, GY. unfold val in Z0.
    assert (K : forall d v, (d = 0 \/ d = 1) -> (0 <= v < 1)%R -> w01 d v <> 0%R -> (Rabs (IZR d - v) < 1)%R).
    { intros d v [-> | ->] Hv Nz; unfold w01 in Nz; cbn in Nz; apply Rabs_def1; lra. }
    assert (D01 : (fst o = 0 \/ fst o = 1) /\ (snd o = 0 \/ snd o = 1)) by (cbn in Io; destruct Io as [<-|[<-|[<-|[<-|[]]]]]; cbn; auto).
    assert (w01 (snd o) (vy p) <> 0%R /\ w01 (fst o) (vx p) <> 0%R) as [N1 N2] by (split; intros Q0; apply Z0; rewrite Q0; ring).
    pose proof (K _ _ (proj1 D01) V1 N2). pose proof (K _ _ (proj2 D01) V2 N1).
    rewrite !Rabs_mult, (Rabs_right (fst h)), (Rabs_right (snd h)) by lra. split; nra.
  Qed.
End D2.
Section D3.
  Variables (P : list vec3) (nx ny nz : Z) (h c : vec3).
  Hypotheses (Hx : (0 < X h)%R) (Hy : (0 < Y h)%R) (Hz : (0 < Zc h)%R).
  Let ix (p : vec3) := flo ((X p - X c) / X h).
  Let iy (p : vec3) := flo ((Y p - Y c) / Y h).
  Let iz (p : vec3) := flo ((Zc p - Zc c) / Zc h).
  Let vx (p : vec3) := ((X p - (X c + IZR (ix p) * X h)) / X h)%R.
  Let vy (p : vec3) := ((Y p - (Y c + IZR (iy p) * Y h)) / Y h)%R.
  Let vz (p : vec3) := ((Zc p - (Zc c + IZR (iz p) * Zc h)) / Zc h)%R.
  Let J (o : Z * Z * Z) (p : vec3) := let '(dx, dy, dz) := o in ((iy p + ny * iz p) * nx + ix p) + dx + dy * nx + dz * (ny * nx).
  Let val (o : Z * Z * Z) (p : vec3) := let '(dx, dy, dz) := o in (w01 dy (vy p) * w01 dx (vx p) * w01 dz (vz p))%R.
  Definition W3 := btrips P corners3 J val (nx * ny * nz).
  Lemma fd3_ok : fd_interpolate3 P (nx, ny, nz) h c = Ok W3.
  Proof.
    unfold W3. rewrite <- (btrips_csr P corners3 J val (nx * ny * nz)). unfold fd_interpolate3. cbv zeta. f_equal. unfold btrips. f_equal.
    apply flat_map_ext. intros [[dx dy] dz]. apply map_ext. intros [i p]. reflexivity.
  Qed.
  Definition inbox3 (p : vec3) := (X c <= X p <= X c + (IZR nx - 1) * X h)%R /\ (Y c <= Y p <= Y c + (IZR ny - 1) * Y h)%R /\ (Zc c <= Zc p <= Zc c + (IZR nz - 1) * Zc h)%R.
  Lemma good3 dx dy dz p : inbox3 p -> In (dx,dy,dz) corners3 -> val (dx,dy,dz) p = 0%R \/
    (0 <= ix p + dx < nx /\ 0 <= iy p + dy < ny /\ 0 <= iz p + dz < nz /\ J (dx,dy,dz) p = (ix p + dx) + nx * ((iy p + dy) + ny * (iz p + dz))).
  Proof.
    intros (B1 & B2 & B3) Io. destruct (coord nx _ _ _ Hx B1) as (I1 & V1 & E1 & _). destruct (coord ny _ _ _ Hy B2) as (I2 & V2 & E2 & _). destruct (coord nz _ _ _ Hz B3) as (I3 & V3 & E3 & _).
    fold (ix p) in I1, V1, E1. fold (vx p) in V1, E1. fold (iy p) in I2, V2, E2. fold (vy p) in V2, E2. fold (iz p) in I3, V3, E3. fold (vz p) in V3, E3.
    assert (D : (dx = 0 \/ dx = 1) /\ (dy = 0 \/ dy = 1) /\ (dz = 0 \/ dz = 1)).
    { cbn in Io. repeat (destruct Io as [Io|Io]); try contradiction; injection Io as <- <- <-; auto. }
    destruct D as (Dx & Dy & Dz).
    assert (K : forall n i d v, (i = n - 1 -> v = 0%R) -> 0 <= i < n -> d = 0 \/ d = 1 -> w01 d v = 0%R \/ 0 <= i + d < n).
    { intros n i d v E I [-> | ->]; [right; lia|]. destruct (Z.eq_dec i (n-1)) as [Q|Q]; [left; rewrite (E Q); reflexivity | right; lia]. }
    unfold val, J. destruct (K nx _ dx _ E1 I1 Dx) as [Q|Q1]; [left; rewrite Q; ring|]. destruct (K ny _ dy _ E2 I2 Dy) as [Q|Q2]; [left; rewrite Q; ring|].
    destruct (K nz _ dz _ E3 I3 Dz) as [Q|Q3]; [left; rewrite Q; ring|]. right. repeat (split; [lia|]). ring.
  Qed.
  Lemma val3_nonneg o p : inbox3 p -> (0 <= val o p)%R.
  Proof.
    intros (B1 & B2 & B3). destruct (coord nx _ _ _ Hx B1) as (_ & V1 & _). destruct (coord ny _ _ _ Hy B2) as (_ & V2 & _). destruct (coord nz _ _ _ Hz B3) as (_ & V3 & _).
    destruct o as [[dx dy] dz]. unfold val. repeat apply Rmult_le_pos; apply w01_nonneg; auto.
  Qed.
  Lemma inr3_true j : 0 <= j < nx * ny * nz -> (0 <=? j) && (j <? nx * ny * nz) = true.
  Proof. rewrite andb_true_iff, Z.leb_le, Z.ltb_lt. lia. Qed.
  Lemma idx3 x y z : 0 <= x < nx -> 0 <= y < ny -> 0 <= z < nz -> let j := x + nx * (y + ny * z) in
    0 <= j < nx * ny * nz /\ j mod nx = x /\ (j / nx) mod ny = y /\ j / nx / ny = z.
  Proof.
    intros Rx Ry Rz j. assert (0 <= y + ny * z < ny * nz) by nia. split; [unfold j; nia|].
    assert (D : j / nx = y + ny * z) by (unfold j; rewrite (Z.mul_comm nx), Z.div_add, Z.div_small by lia; lia). rewrite D.
    split; [unfold j; rewrite (Z.mul_comm nx), Z.mod_add, Z.mod_small by lia; auto|].
    rewrite (Z.mul_comm ny z). rewrite Z.mod_add, Z.div_add, Z.mod_small, Z.div_small by lia. lia.
  Qed.
  Lemma W3_apply F i p : nth_error P i = Some p -> inbox3 p ->
    mulv (Z.to_nat (nx * ny * nz)) W3 (fun j => F (j mod nx) ((j / nx) mod ny) (j / nx / ny)) (Z.of_nat i)
    = sumf (fun o => let '(dx, dy, dz) := o in (w01 dy (vy p) * w01 dx (vx p) * w01 dz (vz p) * F (ix p + dx)%Z (iy p + dy)%Z (iz p + dz)%Z)%R) corners3.
  Proof.
    intros Hi B. unfold W3. rewrite (btrips_mulv P corners3 J val (nx * ny * nz) _ i p Hi). apply sumf_ext. intros [[dx dy] dz] Io.
    change (w01 dy (vy p) * w01 dx (vx p) * w01 dz (vz p))%R with (val (dx,dy,dz) p). destruct (good3 dx dy dz p B Io) as [Z0|(R1 & R2 & R3 & ->)].
    - rewrite Z0. destruct (_ && _); ring.
    - destruct (idx3 _ _ _ R1 R2 R3) as (R & M & D & D'). rewrite inr3_true by auto. rewrite M, D, D'. reflexivity.
  Qed.
  Lemma W3_entry_nonneg i p j : nth_error P i = Some p -> inbox3 p -> (0 <= entry W3 (Z.of_nat i) j)%R.
  Proof.
    intros Hi B. unfold W3. rewrite (btrips_entry P corners3 J val (nx * ny * nz) i p j Hi). apply sumf_nonneg. intros o Io.
    pose proof (val3_nonneg o p B). destruct (_ && _); [|lra]. destruct (_ =? _); lra.
  Qed.
  Lemma W3_support i p x y z : nth_error P i = Some p -> inbox3 p -> 0 <= x < nx -> 0 <= y < ny -> 0 <= z < nz -> entry W3 (Z.of_nat i) (x + nx * (y + ny * z)) <> 0%R ->
    (Rabs (X c + IZR x * X h - X p) < X h /\ Rabs (Y c + IZR y * Y h - Y p) < Y h /\ Rabs (Zc c + IZR z * Zc h - Zc p) < Zc h)%R.
  Proof.
    intros Hi B Rx Ry Rz. unfold W3. rewrite (btrips_entry P corners3 J val (nx * ny * nz) i p _ Hi). intros N.
    assert (E : exists o, In o corners3 /\ val o p <> 0%R /\ J o p = x + nx * (y + ny * z)).
    { revert N. generalize corners3. induction l as [|o l IH]; cbn [sumf]; [lra|]. intros N.
      destruct (Z.eqb_spec (J o p) (x + nx * (y + ny * z))) as [Q|Q].
      - destruct (Req_dec (val o p) 0) as [Z0|Z0]; [|exists o; cbn; auto]. rewrite Z0 in N.
        destruct IH as (o' & I & H); [intros S; apply N; rewrite S; destruct (_ && _); lra|]. exists o'. cbn. tauto.
      - destruct IH as (o' & I & H); [intros S; apply N; rewrite S; destruct (_ && _); lra|]. exists o'. cbn. tauto. }
    destruct E as ([[dx dy] dz] & Io & Z0 & Q). destruct (good3 dx dy dz p B Io) as [Z1|(R1 & R2 & R3 & Q')]; [contradiction|].
    destruct (idx3 _ _ _ R1 R2 R3) as (_ & M1 & D1 & T1). destruct (idx3 _ _ _ Rx Ry Rz) as (_ & M2 & D2 & T2). rewrite <- Q', Q in M1, D1, T1. rewrite M2 in M1. rewrite D2 in D1. rewrite T2 in T1. subst x y z.
    destruct B as (B1 & B2 & B3). destruct (coord nx _ _ _ Hx B1) as (_ & V1 & _ & E1). destruct (coord ny _ _ _ Hy B2) as (_ & V2 & _ & E2). destruct (coord nz _ _ _ Hz B3) as (_ & V3 & _ & E3).
    fold (ix p) in V1, E1. fold (vx p) in V1, E1. fold (iy p) in V2, E2. fold (vy p) in V2, E2. fold (iz p) in V3, E3. fold (vz p) in V3, E3.
    rewrite !plus_IZR.
    assert (G : forall cc pp i v hh d, (pp = cc + (i + v) * hh)%R -> (cc + (i + d) * hh - pp = (d - v) * hh)%R) by (intros; subst; ring).
    rewrite (G _ _ _ _ _ (IZR dx) E1), (G _ _ _ _ _ (IZR dy) E2), (G _ _ _ _ _ (IZR dz) E3). unfold val in Z0.
    assert (K : forall d v, (d = 0 \/ d = 1) -> (0 <= v < 1)%R -> w01 d v <> 0%R -> (Rabs (IZR d - v) < 1)%R).
    { intros d v [-> | ->] Hv Nz; unfold w01 in Nz; cbn in Nz; apply Rabs_def1; lra. }
    assert (D : (dx = 0 \/ dx = 1) /\ (dy = 0 \/ dy = 1) /\ (dz = 0 \/ dz = 1)).
    { cbn in Io. repeat (destruct Io as [Io|Io]); try contradiction; injection Io as <- <- <-; auto. }
    destruct D as (Dx & Dy & Dz).
    assert (w01 dy (vy p) <> 0%R /\ w01 dx (vx p) <> 0%R /\ w01 dz (vz p) <> 0%R) as (N1 & N2 & N3) by (repeat split; intros Q0; apply Z0; rewrite Q0; ring).
    pose proof (K _ _ Dx V1 N2). pose proof (K _ _ Dy V2 N1). pose proof (K _ _ Dz V3 N3).
    rewrite !Rabs_mult, (Rabs_right (X h)), (Rabs_right (Y h)), (Rabs_right (Zc h)) by lra. repeat split; nra.
  Qed.
End D3.

(** ** finite differences *)
Definition diff_trips (js : list Z) (next : Z) (hd : R) : list trip :=
  map (fun q => (fst q, snd q, (-1 / hd)%R)) (enum js) ++ map (fun q => (fst q, snd q + next, (1 / hd)%R)) (enum js).
Lemma diff_ok js next hd rows cols : Z.of_nat (length js) = rows -> 0 <= next -> (forall j, In j js -> 0 <= j /\ j + next < cols) -> csr rows cols (diff_trips js next hd) = Ok (diff_trips js next hd).
Proof.
  intros L Hn B. apply csr_ok. intros t I. unfold diff_trips in I. rewrite in_app_iff, !in_map_iff in I.
  destruct I as [([k j] & <- & I)|([k j] & <- & I)]; apply enum_nth in I as (m & Q & I); cbn [trow tcol fst snd] in *; subst k;
    pose proof (nth_error_In _ _ I) as J; apply B in J; assert (m < length js)%nat by (apply nth_error_Some; congruence); lia.
Qed.
Lemma diff_mulv js next hd cols f r j : 0 <= next -> (forall j, In j js -> 0 <= j /\ j + next < cols) -> nth_error js r = Some j ->
  mulv (Z.to_nat cols) (diff_trips js next hd) f (Z.of_nat r) = ((f (j + next)%Z - f j) / hd)%R.
Proof.
  intros Hn B Hr. rewrite mulv_trip.
  - unfold diff_trips. rewrite sumf_app, !sumf_map. unfold trow, tcol, tval; cbn [fst snd].
    rewrite (sumf_ext _ (fun q => if 0 + fst q =? 0 + Z.of_nat r then (-1 / hd * f (snd q))%R else 0%R)) by (intros; rewrite !Z.add_0_l; auto).
    rewrite (sumf_enum_pick js 0 (fun q => (-1 / hd * f (snd q))%R) r j Hr).
    rewrite (sumf_ext _ (fun q => if 0 + fst q =? 0 + Z.of_nat r then (1 / hd * f (snd q + next)%Z)%R else 0%R)) by (intros; rewrite !Z.add_0_l; auto).
    rewrite (sumf_enum_pick js 0 (fun q => (1 / hd * f (snd q + next)%Z)%R) r j Hr). cbn [snd]. unfold Rdiv. ring.
  - intros t I. unfold diff_trips in I. rewrite in_app_iff, !in_map_iff in I.
    destruct I as [([k j'] & <- & I)|([k j'] & <- & I)]; apply enum_nth in I as (m & Q & I); cbn [trow tcol fst snd] in *;
    apply nth_error_In, B in I; lia.
Qed.
Lemma nodes3_length m0 m1 m2 : length (nodes3 m0 m1 m2) = (Z.to_nat m2 * (Z.to_nat m1 * Z.to_nat m0))%nat.
Proof. unfold nodes3. rewrite (flat_map_const_length _ _ (Z.to_nat m1 * Z.to_nat m0)), zseq_length; auto. intros. rewrite map_length, cells_length. auto. Qed.
Lemma nodes3_nth m0 m1 m2 x y z : 0 <= x < m0 -> 0 <= y < m1 -> 0 <= z < m2 -> nth_error (nodes3 m0 m1 m2) (Z.to_nat (x + m0 * (y + m1 * z))) = Some (x, y, z).
Proof.
  intros Hx Hy Hz. unfold nodes3. assert (0 <= y * m0 + x < m1 * m0) by nia.
  replace (Z.to_nat (x + m0 * (y + m1 * z))) with (Z.to_nat z * (Z.to_nat m1 * Z.to_nat m0) + Z.to_nat (y * m0 + x))%nat.
  2:{ rewrite <- Z2Nat.inj_mul, <- Z2Nat.inj_mul, <- Z2Nat.inj_add by nia. f_equal. ring. }
  eapply nth_error_flat_map_const.
  - intros w. rewrite map_length, cells_length. auto.
  - rewrite zseq_nth by lia. rewrite Z2Nat.id by lia. reflexivity.
  - rewrite nth_error_map, cells_nth by auto. reflexivity.
Qed.
Lemma in_nodes3 m0 m1 m2 x y z : In (x, y, z) (nodes3 m0 m1 m2) -> 0 <= x < m0 /\ 0 <= y < m1 /\ 0 <= z < m2.
Proof.
  unfold nodes3. rewrite in_flat_map. intros (z' & Iz & I). apply in_map_iff in I as ([r c] & Q & I). apply in_cells in I. apply in_zseq in Iz. cbn in *. injection Q as -> -> ->. tauto.
Qed.

(** vstack *)
Lemma mulv_app_lt n A B f r k : cols_in n A -> cols_in n B -> (forall t, In t B -> 0 <= trow t) -> r < k ->
  mulv n (A ++ shift_rows k B) f r = mulv n A f r.
Proof.
  intros CA CB RB Hr. rewrite !mulv_trip; auto.
  - rewrite sumf_app. unfold shift_rows. rewrite sumf_map. rewrite (sumf_zero _ B); [lra|]. intros t I. unfold trow at 1; cbn [fst]. specialize (RB t I). destruct (Z.eqb_spec (trow t + k) r); auto; lia.
  - intros t I. apply in_app_iff in I as [I|I]; auto. apply in_map_iff in I as (u & <- & I). apply CB in I. exact I.
Qed.
Lemma mulv_app_ge n A B f r k : cols_in n A -> cols_in n B -> (forall t, In t A -> trow t < k) -> 0 <= r ->
  mulv n (A ++ shift_rows k B) f (k + r) = mulv n B f r.
Proof.
  intros CA CB RA Hr. rewrite !mulv_trip; auto.
  - rewrite sumf_app. unfold shift_rows. rewrite sumf_map. rewrite (sumf_zero _ A).
    + rewrite Rplus_0_l. apply sumf_ext. intros t I. unfold trow at 1, tcol at 1, tval at 1; cbn [fst snd].
      destruct (Z.eqb_spec (trow t + k) (k + r)), (Z.eqb_spec (trow t) r); auto; lia.
    + intros t I. specialize (RA t I). destruct (Z.eqb_spec (trow t) (k + r)); auto; lia.
  - intros t I. apply in_app_iff in I as [I|I]; auto. apply in_map_iff in I as (u & <- & I). apply CB in I. exact I.
Qed.
Lemma csr_rows rows cols l M : csr rows cols l = Ok M -> (forall t, In t M -> 0 <= trow t < rows) /\ cols_in (Z.to_nat cols) M.
Proof. intros Q. apply csr_inv in Q as (-> & B). split; [intros t I; apply B; auto|]. intros t I. apply B in I. lia. Qed.
