From Coq Require Import Reals Psatz.
From Verif Require Import NumpyModel TopoSpec TopoModel TopoProofs.
From Verif Require Import PyExn Vec MatModel MatProofs GeomSpec GeomModel GeomProofs Geom2Proofs Subdiv3Proofs ElastModel ElastProofs BiharmModel BiharmProofs.
Open Scope R_scope.

Lemma sumn_S n f : sumn (S n) f = sumn n f + f n.
Proof. replace (S n) with (n + 1)%nat by lia. rewrite sumn_app. f_equal. unfold sumn. cbn. rewrite Nat.add_0_r. ring. Qed.
Lemma sumn_plus n f g : sumn n (fun i => f i + g i) = sumn n f + sumn n g.
Proof. induction n as [|n IH]; [unfold sumn; cbn; ring|]. rewrite !sumn_S, IH. ring. Qed.
Lemma sumn_mul d n f : sumn (d * n) f = sumn d (fun b => sumn n (fun j => f (b * n + j)%nat)).
Proof.
  induction d as [|d IH]; [reflexivity|]. rewrite sumn_S, <- IH. replace (S d * n)%nat with (d * n + n)%nat by lia. apply sumn_app.
Qed.
Lemma tile_length {A} (l : list A) d : length (tile l d) = (d * length l)%nat.
Proof. induction d as [|d IH]; [reflexivity|]. cbn. rewrite app_length, IH. reflexivity. Qed.
Lemma tile_nth {A} (l : list A) d b j z : (b < d)%nat -> (j < length l)%nat -> nth (b * length l + j) (tile l d) z = nth j l z.
Proof.
  revert b. induction d as [|d IH]; intros b Hb Hj; [lia|]. cbn [tile]. destruct b as [|b].
  - apply app_nth1. lia.
  - rewrite app_nth2 by lia. replace (S b * length l + j - length l)%nat with (b * length l + j)%nat by lia. apply IH; lia.
Qed.
Lemma sumn_list {A} (l : list A) (g : A -> R) z : sumn (length l) (fun k => g (nth k l z)) = sumf g l.
Proof.
  induction l as [|a l IH]; [reflexivity|]. cbn [length sumf]. replace (S (length l)) with (1 + length l)%nat by lia. rewrite sumn_app. f_equal; [unfold sumn; cbn; ring|exact IH].
Qed.

Lemma hs2_ok A B : nr A = nr B -> exists C, hstack2 A B = Ok C /\ nr C = nr A /\ nc C = (nc A + nc B)%nat /\
  (forall i j, (j < nc A)%nat -> at_ C i j = at_ A i j) /\ (forall i j, at_ C i (nc A + j)%nat = at_ B i j).
Proof.
  intro H. unfold hstack2. rewrite H, Nat.eqb_refl. eexists. split; [reflexivity|]. cbn [nr nc at_]. repeat split; auto.
  - intros i j Hj. destruct (Nat.ltb_spec j (nc A)); [reflexivity|lia].
  - intros i j. destruct (Nat.ltb_spec (nc A + j) (nc A)); [lia|]. f_equal. lia.
Qed.
Lemma bd_T1 A B z j : (j < nc A)%nat -> mv (transpose (block_diag2 A B)) z j = mv (transpose A) z j.
Proof.
  intro Hj. unfold mv, transpose, block_diag2. cbn [nr nc at_]. rewrite sumn_app. destruct (Nat.ltb_spec j (nc A)); [|lia].
  replace (sumn (nr B) _) with 0; [rewrite Rplus_0_r; apply sumn_ext; intros i Hi; destruct (Nat.ltb_spec i (nr A)); [reflexivity|lia]|].
  symmetry. apply sumf_zero. intros i _. destruct (Nat.ltb_spec (nr A + i) (nr A)); [lia|]. ring.
Qed.
Lemma bd_T2 A B z j : mv (transpose (block_diag2 A B)) z (nc A + j)%nat = mv (transpose B) (fun k => z (nr A + k)%nat) j.
Proof.
  unfold mv, transpose, block_diag2. cbn [nr nc at_]. rewrite sumn_app. destruct (Nat.ltb_spec (nc A + j) (nc A)); [lia|].
  replace (sumn (nr A) _) with 0; [rewrite Rplus_0_l; apply sumn_ext; intros i Hi; destruct (Nat.ltb_spec (nr A + i) (nr A)); [lia|]; f_equal; f_equal; lia|].
  symmetry. apply sumf_zero. intros i Hi. apply in_seq in Hi. destruct (Nat.ltb_spec i (nr A)); [|lia]. ring.
Qed.

(** d gradient components, m faces, ids I *)
Lemma hess_core d m G a I w Db D Q :
  nr G = (d * m)%nat -> length a = m -> length w = length I -> nr Db = m -> nc Db = (d * length I)%nat -> nr D = (d * m)%nat -> nc D = (d * (d * length I))%nat ->
  (forall f c k, (f < m)%nat -> (c < d)%nat -> (k < length I)%nat -> at_ Db f (c * length I + k) = at_ G (c * m + f) (nth k I 0%nat)) ->
  (forall b z j, (b < d)%nat -> (j < d * length I)%nat -> mv (transpose D) z (b * (d * length I) + j) = mv (transpose Db) (fun f => z (b * m + f)%nat) j) ->
  product7 G (diag (tile a d)) D (diag (tile w (d * d))) = Ok Q ->
  nr Q = nc G /\ nc Q = nc G /\
  forall x y, bil Q x y = sumn (length I) (fun k => nth k w 0 * sumn d (fun b => sumn d (fun c =>
     sumn m (fun f => nth f a 0 * at_ G (c * m + f) (nth k I 0%nat) * mv G x (b * m + f)) *
     sumn m (fun f => nth f a 0 * at_ G (c * m + f) (nth k I 0%nat) * mv G y (b * m + f))))).
Proof.
  intros RG La Lw RDb CDb RD CD HDb HD EQ.
  destruct (product7_ok G (tile a d) D (tile w (d * d))) as (Q' & E' & R' & C' & B'); [rewrite tile_length; congruence|rewrite tile_length; congruence|rewrite tile_length; rewrite CD, Lw; lia|].
  rewrite E' in EQ. injection EQ as <-. split; [exact R'|]. split; [exact C'|]. intros x y. rewrite B', CD. clear B' E'.
  assert (forall x b c k, (b < d)%nat -> (c < d)%nat -> (k < length I)%nat ->
     mv (transpose D) (fun k => nth k (tile a d) 0 * mv G x k) (b * (d * length I) + (c * length I + k)) = sumn m (fun f => nth f a 0 * at_ G (c * m + f) (nth k I 0%nat) * mv G x (b * m + f))) as H.
  { intros x0 b c k Hb Hc Hk. rewrite HD; [|exact Hb|nia]. unfold mv at 1. cbn [transpose nc at_]. rewrite RDb. apply sumn_ext. intros f Hf. rewrite HDb by assumption. rewrite <- La. rewrite tile_nth by (try assumption; lia). ring. }
  rewrite sumn_mul. transitivity (sumn d (fun b => sumn d (fun c => sumn (length I) (fun k => nth k w 0 * (sumn m (fun f => nth f a 0 * at_ G (c * m + f) (nth k I 0%nat) * mv G x (b * m + f)) *
     sumn m (fun f => nth f a 0 * at_ G (c * m + f) (nth k I 0%nat) * mv G y (b * m + f))))))).
  { apply sumn_ext. intros b Hb. rewrite sumn_mul. apply sumn_ext. intros c Hc. apply sumn_ext. intros k Hk. rewrite !H by assumption.
    replace (nth (b * (d * length I) + (c * length I + k)) (tile w (d * d)) 0) with (nth k w 0); [ring|]. replace (b * (d * length I) + (c * length I + k))%nat with ((b * d + c) * length w + k)%nat by (rewrite Lw; lia). rewrite tile_nth; [reflexivity|nia|congruence]. }
  transitivity (sumn d (fun b => sumn (length I) (fun k => nth k w 0 * sumn d (fun c => sumn m (fun f => nth f a 0 * at_ G (c * m + f) (nth k I 0%nat) * mv G x (b * m + f)) *
     sumn m (fun f => nth f a 0 * at_ G (c * m + f) (nth k I 0%nat) * mv G y (b * m + f)))))).
  { apply sumn_ext. intros b Hb. rewrite sumn_swap. apply sumn_ext. intros k Hk. rewrite sumn_scal. reflexivity. }
  rewrite sumn_swap. apply sumn_ext. intros k Hk. rewrite sumn_scal. reflexivity.
Qed.
Lemma hess_ex d m G a (I : list nat) w D :
  nr G = (d * m)%nat -> length a = m -> length w = length I -> nr D = (d * m)%nat -> nc D = (d * (d * length I))%nat ->
  exists Q, product7 G (diag (tile a d)) D (diag (tile w (d * d))) = Ok Q.
Proof.
  intros RG La Lw RD CD. destruct (product7_ok G (tile a d) D (tile w (d * d))) as (Q' & E' & _); [rewrite tile_length; congruence|rewrite tile_length; congruence|rewrite tile_length; rewrite CD, Lw; lia|]. eauto.
Qed.
