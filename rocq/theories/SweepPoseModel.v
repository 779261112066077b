(** The motion that swept_volume sweeps: src/cpp/swept_volume/swept_volume.cpp:58-174 (interpolate_position) over exact reals.  K k i j is entry (i, j) of the k-th of n keyframe
    matrices (lines 58-61).  linspace(n, 0, 1) has entry k/(n-1).  The quaternion path of a segment and its derivative (Eigen's Quaterniond(R0), slerp, logq: lines 35-49, 124-135) are the
    parameters [qt], [qvt]: segment, fraction of the segment -> (w, x, y, z).  Diagonal matrices are their diagonals. *)
From Coq Require Import Reals ZArith List Bool.
Open Scope R_scope.

Definition quat := (R * R * R * R)%type.
Section Pose.
Variable n : nat.
Variable K : nat -> nat -> nat -> R.
Variables qt qvt : nat -> R -> quat.
(** :64-65, 67 *)
Definition keyframe (k : nat) : R := INR k / (INR n - 1).
Definition tau : R := keyframe 1.
(** :69-81 *)
Definition tangent (i m : nat) : R :=
  if Nat.eqb m 0 then (K 1%nat i 3%nat - K 0%nat i 3%nat) / 1 else if Nat.eqb m (n - 1) then (K (n - 1)%nat i 3%nat - K (n - 2)%nat i 3%nat) / 1 else (K (m + 1)%nat i 3%nat - K (m - 1)%nat i 3%nat) / 2.
(** :94-97 *)
Definition segment (t : R) : nat := let b := Z.to_nat (Int_part (t * (INR n - 1))) in if Req_EM_T t 1 then (b - 1)%nat else b.
(** :98 *)
Definition frac (t : R) : R := (t - keyframe (segment t)) / tau.
(** :99-101 *)
Definition xt (t : R) (i : nat) : R := let b := segment t in let tt := frac t in
  (2 * tt ^ 3 - 3 * tt ^ 2 + 1) * K b i 3%nat + (tt ^ 3 - 2 * tt ^ 2 + tt) * tangent i b + (- 2 * tt ^ 3 + 3 * tt ^ 2) * K (b + 1)%nat i 3%nat + (tt ^ 3 - tt ^ 2) * tangent i (b + 1).
(** :102-103 *)
Definition vt (t : R) (i : nat) : R := let b := segment t in let tt := frac t in
  ((6 * tt ^ 2 - 6 * tt) * K b i 3%nat + (3 * tt ^ 2 - 4 * tt + 1) * tangent i b + (- 6 * tt ^ 2 + 6 * tt) * K (b + 1)%nat i 3%nat + (3 * tt ^ 2 - 2 * tt) * tangent i (b + 1)) / tau.
(** :105-118: entry j of the diagonal *)
Definition scale (k j : nat) : R := sqrt (K k 0%nat j * K k 0%nat j + K k 1%nat j * K k 1%nat j + K k 2%nat j * K k 2%nat j).
(** :119 *)
Definition St (t : R) (j : nat) : R := let b := segment t in scale (b + 1) j + (1 - frac t) * (scale b j - scale (b + 1) j).
(** :122-123 *)
Definition R0 (b i j : nat) : R := K b i j / scale b j.
(** :130: Eigen's toRotationMatrix *)
Definition rotation (q : quat) (i j : nat) : R := let '(w, x, y, z) := q in
  match i, j with
  | O, O => 1 - 2 * (y * y + z * z) | O, S O => 2 * (x * y - w * z) | O, _ => 2 * (x * z + w * y)
  | S O, O => 2 * (x * y + w * z) | S O, S O => 1 - 2 * (x * x + z * z) | S O, _ => 2 * (y * z - w * x)
  | _, O => 2 * (x * z - w * y) | _, S O => 2 * (y * z + w * x) | _, _ => 1 - 2 * (x * x + y * y)
  end.
(** :140-155 *)
Definition Rr (q : quat) (i j : nat) : R := let '(qr, qi, qj, qk) := q in
  match i, j with O, O => 0 | O, S O => -2 * qk | O, _ => 2 * qj | S O, O => 2 * qk | S O, S O => 0 | S O, _ => -2 * qi | _, O => -2 * qj | _, S O => 2 * qi | _, _ => 0 end.
Definition Rk (q : quat) (i j : nat) : R := let '(qr, qi, qj, qk) := q in
  match i, j with O, O => -4 * qk | O, S O => -2 * qr | O, _ => 2 * qi | S O, O => 2 * qr | S O, S O => -4 * qk | S O, _ => 2 * qj | _, O => 2 * qi | _, S O => 2 * qj | _, _ => 0 end.
Definition Rj (q : quat) (i j : nat) : R := let '(qr, qi, qj, qk) := q in
  match i, j with O, O => -4 * qj | O, S O => 2 * qi | O, _ => 2 * qr | S O, O => 2 * qi | S O, S O => 0 | S O, _ => 2 * qk | _, O => -2 * qr | _, S O => 2 * qk | _, _ => -4 * qj end.
Definition Ri (q : quat) (i j : nat) : R := let '(qr, qi, qj, qk) := q in
  match i, j with O, O => 0 | O, S O => 2 * qj | O, _ => 2 * qk | S O, O => 2 * qj | S O, S O => -4 * qi | S O, _ => -2 * qr | _, O => 2 * qk | _, S O => 2 * qr | _, _ => -4 * qi end.
(** :156-157 *)
Definition rotation_velocity (q v : quat) (i j : nat) : R := let '(w, x, y, z) := v in (Rr q i j * w + Ri q i j * x + Rj q i j * y + Rk q i j * z) / tau.
(** :161 *)
Definition Rt (t : R) (i j : nat) : R := rotation (qt (segment t) (frac t)) i j * St t j.
(** :158, 162: Rt is the scaled matrix already *)
Definition VRt (t : R) (i j : nat) : R := rotation_velocity (qt (segment t) (frac t)) (qvt (segment t) (frac t)) i j * St t j + Rt t i j * ((scale (segment t + 1) j - scale (segment t) j) / tau).
End Pose.
