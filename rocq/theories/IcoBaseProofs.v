From Coq Require Import Reals Lra Psatz.
From Verif Require Import NumpyModel NumpyProofs PyExn TopoModel TopoSpec TopoProofs HemProofs MatModel MatProofs Vec GeomSpec SubdivModel SubdivSpec SubdivProofs Subdiv2Proofs Subdiv3Proofs IcoModel IcoProofs.
Open Scope Z_scope.

(** the centred rows times 12 * 10^15 *)
Definition W : list (Z * Z * Z) :=
  [(0, -1, 12000000000000000);
   (8683281572999748, -6308773345429609, 5366563145999496);
   (8683281572999748, 6308773345429607, 5366563145999496);
   (-3316718427000252, 10207809700224479, 5366563145999496);
   (-10733126291998992, -1, 5366563145999496);
   (-3316718427000252, -10207809700224481, 5366563145999496);
   (10733126291998992, -1, -5366563145999496);
   (3316718427000252, 10207809700224479, -5366563145999496);
   (-8683281572999748, 6308773345429607, -5366563145999496);
   (-8683281572999748, -6308773345429597, -5366563145999496);
   (3316718427000252, -10207809700224481, -5366563145999496);
   (0, -1, -12000000000000000)].
Definition wd (v w : Z * Z * Z) : Z := let '(a,b,c) := v in let '(x,y,z) := w in a * x + b * y + c * z.
Definition wc (v w : Z * Z * Z) : Z * Z * Z := let '(a,b,c) := v in let '(x,y,z) := w in (b * z - c * y, c * x - a * z, a * y - b * x).
Definition wv (i : Z) : Z * Z * Z := nth (Z.to_nat i) W (0,0,0).
Definition iv (w : Z * Z * Z) : vec3 := let '(a,b,c) := w in (IZR a, IZR b, IZR c).
Definition L (a b : Z) (d : vec3) : R := dot3 (iv (wc (wv a) (wv b))) d.

Lemma base_faces : forallb (fun t => let '(a,b,c) := t in (0 <=? wd (wv a) (wv b)) && (0 <=? wd (wv b) (wv c)) && (0 <=? wd (wv c) (wv a)) && (0 <? wd (wv a) (wc (wv b) (wv c)))) ico_F = true.
Proof. vm_compute. reflexivity. Qed.
Definition third (a b : Z) : Z :=
  fold_right (fun t s => let '(x,y,z) := t in if (x =? a) && (y =? b) then z else if (y =? a) && (z =? b) then x else if (z =? a) && (x =? b) then y else s) (-1) ico_F.
Open Scope R_scope.
Definition inL (t : tri) (d : vec3) : Prop := let '(a,b,c) := t in 0 <= L a b d /\ 0 <= L b c d /\ 0 <= L c a d.
Ltac side a b D E F k1 k2 :=
  let w := eval vm_compute in (wc (wv a) (wv b)) in
  let H := fresh in
  match w with (?p, ?q, ?r) => destruct (Rle_dec 0 (IZR p * D + IZR q * E + IZR r * F)) as [H|H]; [k1 tt|apply Rnot_le_lt in H; first [exfalso; lra | k2 tt]] end.
Ltac finish a b c D E F :=
  exists (a, b, c); split; [cbn; tauto|]; unfold inL, L;
  let w1 := eval vm_compute in (iv (wc (wv a) (wv b))) in change (iv (wc (wv a) (wv b))) with w1;
  let w2 := eval vm_compute in (iv (wc (wv b) (wv c))) in change (iv (wc (wv b) (wv c))) with w2;
  let w3 := eval vm_compute in (iv (wc (wv c) (wv a))) in change (iv (wc (wv c) (wv a))) with w3;
  unfold dot3, X, Y, Zc; cbn [fst snd]; split; [|split]; lra.
(** walk from a face to the face across a side that separates it from d *)
Ltac rotf a b c k := lazymatch eval vm_compute in (existsb (fun t => let '(x,y,z) := t in (x =? a)%Z && (y =? b)%Z && (z =? c)%Z) ico_F) with
  | true => k a b c | false => lazymatch eval vm_compute in (existsb (fun t => let '(x,y,z) := t in (x =? b)%Z && (y =? c)%Z && (z =? a)%Z) ico_F) with
    | true => k b c a | false => k c a b end end.
Ltac walk n a b D E F :=   (* d is on the inner side of (a,b) *)
  lazymatch n with O => idtac | S ?m =>
    let c := eval vm_compute in (third a b) in
    side b c D E F ltac:(fun _ => side c a D E F ltac:(fun _ => rotf a b c ltac:(fun a b c => finish a b c D E F)) ltac:(fun _ => walk m a c D E F)) ltac:(fun _ => walk m c b D E F)
  end.
Lemma base_cover d : exists t, In t ico_F /\ inL t d.
Proof.
  destruct d as [[D E] F].
  side 0%Z 1%Z D E F ltac:(fun _ => idtac) ltac:(fun _ => idtac).
  - walk 12%nat 0%Z 1%Z D E F.  
  - walk 12%nat 1%Z 0%Z D E F.
Qed.
Definition inLs (t : tri) (d : vec3) : Prop := let '(a,b,c) := t in 0 < L a b d /\ 0 < L b c d /\ 0 < L c a d.
Definition Lall (d : vec3) (t : tri) : R * R * R := let '(a,b,c) := t in (L a b d, L b c d, L c a d).
Ltac openL H := unfold inLs, L in H;
  repeat match type of H with context [iv (wc (wv ?a) (wv ?b))] => let w := eval vm_compute in (iv (wc (wv a) (wv b))) in change (iv (wc (wv a) (wv b))) with w in H end;
  unfold dot3, X, Y, Zc in H; cbn [fst snd] in H.
Lemma base_disj d f g t s : nth_error ico_F f = Some t -> nth_error ico_F g = Some s -> inLs t d -> inLs s d -> f = g.
Proof.
  intros Hf Hg H1 H2. destruct d as [[D E] F].
  do 20 (destruct f as [|f]; [injection Hf as <-; openL H1;
    do 20 (destruct g as [|g]; [first [reflexivity | injection Hg as <-; openL H2; exfalso; lra]|]); cbn in Hg; destruct g; discriminate Hg|]).
  cbn in Hf. destruct f; discriminate Hf.
Qed.
