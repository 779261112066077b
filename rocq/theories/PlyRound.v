(** Lemmas about PlyModel: reading what was written. *)
From Coq Require Import String Ascii List ZArith Bool Lia Arith.
From Verif Require Import TextModel TextProofs PlyModel PlyProofs PlyProofs2 PlyProofs3 PlyProofs4 PlyProofs5 PlyHeader PlyWrite.
Import ListNotations.
Open Scope string_scope.

(** a four-byte number read as four one-byte numbers *)
Definition quad (z : Z) : list Z := [z; 0; 0; 0]%Z.
(** what the first |C| groups of four bytes of a matrix of four-byte numbers are *)
Definition corrupted (C : list (list Z)) : list (list Z) := firstn (List.length C) (map quad (concat C)).
Definition colors (V F C : list (list Z)) : list (list Z) := if Nat.eqb (List.length C) (List.length V) || Nat.eqb (List.length C) (List.length F) then corrupted C else [].
Definition int32 (z : Z) : Prop := (-2147483648 <= z < 2147483648)%Z.
Definition unsigned (z : Z) : Z := (z mod 4294967296)%Z.
Lemma signed_unsigned z : int32 z -> signed (unsigned z) = z.
Proof. unfold int32, signed, unsigned. intros H. pose proof (Z.div_mod z 4294967296 ltac:(lia)). pose proof (Z.mod_pos_bound z 4294967296 ltac:(lia)). destruct (Z.ltb_spec (z mod 4294967296) 2147483648); nia. Qed.

Lemma map_fst_combine {A B C} (g : A -> C) (a : list A) : forall (b : list B), List.length a = List.length b -> map (fun x => g (fst x)) (combine a b) = map g a.
Proof. induction a; intros [|y b] L; try discriminate; auto. cbn. f_equal. apply IHa. injection L; auto. Qed.
Lemma map_snd_combine {A B C} (g : B -> C) (a : list A) : forall (b : list B), List.length a = List.length b -> map (fun x => g (snd x)) (combine a b) = map g b.
Proof. induction a; intros [|y b] L; try discriminate; auto. cbn. f_equal. apply IHa. injection L; auto. Qed.
Lemma rest_of d s : (exists r, d = s ++ r) -> d = s ++ drop (String.length s) d.
Proof. intros (r & ->). rewrite drop_ap. reflexivity. Qed.
Lemma cat_empty {A} (g : A -> string) l : (forall x, g x = "") -> cat (map g l) = "".
Proof. intros H. induction l; cbn; auto. rewrite H, IHl. reflexivity. Qed.
Lemma pack_quads C : Forall (Forall (in_range 1)) C -> pack 4 C = cat (map (fun r => cat (map (le 1) r)) (map quad (concat C))).
Proof.
  unfold pack. induction 1 as [|r C R H IH]; [reflexivity|]. cbn [map cat concat]. rewrite !map_app, cat_app, IH. f_equal. clear -R. induction R as [|z r Z R IH]; [reflexivity|]. cbn [map cat]. rewrite IH. f_equal.
  unfold in_range in Z. rewrite Z.mod_small by (cbn in *; lia). rewrite <- (le_small 1 4 z) by (cbn in *; lia). reflexivity.
Qed.
Lemma corrupted_length C : Forall (fun r => List.length r = 4%nat) C -> List.length (corrupted C) = List.length C.
Proof. intros H. unfold corrupted. rewrite firstn_length, map_length, (concat_len 4 C H). lia. Qed.
Lemma corrupted_good C : Forall (Forall (in_range 1)) C -> Forall (fun r => List.length r = 4%nat /\ Forall (in_range 1) r) (corrupted C).
Proof.
  intros H. unfold corrupted. apply Forall_forall. intros r I. assert (J : In r (map quad (concat C))) by (rewrite <- (firstn_skipn (List.length C)); apply in_or_app; auto).
  apply in_map_iff in J as (z & <- & J). apply in_concat in J as (r & J & K). rewrite Forall_forall in H. specialize (H r J). rewrite Forall_forall in H. specialize (H z K).
  split; [reflexivity|]. repeat constructor; unfold in_range in *; cbn in *; lia.
Qed.

Lemma empty_is {A} (l : list A) : nonempty l = false -> l = [].
Proof. destruct l; [reflexivity|discriminate]. Qed.
Lemma face_there (F C : list (list Z)) : nonempty C && Nat.eqb (List.length C) (List.length F) = true -> nonempty F = true.
Proof. destruct F; [|reflexivity]. destruct C; cbn; discriminate. Qed.
Lemma chosen (V F C : list (list Z)) : rows_or_none (first2 (first2 None (if nonempty C && Nat.eqb (List.length C) (List.length V) then Some (UINT8, corrupted C) else None))
  (first2 None (if nonempty C && Nat.eqb (List.length C) (List.length F) then Some (UINT8, corrupted C) else None))) = colors V F C.
Proof.
  unfold colors. destruct C as [|c C'] eqn:EC; [cbn [nonempty andb first2]; destruct (_ || _); reflexivity|]. cbn [nonempty andb].
  destruct (Nat.eqb (List.length (c :: C')) (List.length V)), (Nat.eqb (List.length (c :: C')) (List.length F)); reflexivity.
Qed.
Lemma normals_there to64 (b : Z -> Z) (N : list (list Z)) : map (map b) N = match (if nonempty N then Some (FLOAT64, map (map b) N) else None) with Some (t, M) => convert to64 t M | None => [] end.
Proof. destruct N; reflexivity. Qed.

Section Round.
Variable geta : ptype -> string -> option (Z * string).
Variable showa : ptype -> Z -> string.
Variable finite : Z -> Prop.
Variable rt : Z -> Z.
Variable binary : bool.
Hypothesis IO : binary = false -> text_io geta showa finite rt.
Variables V F N C : list (list Z).
Definition number (z : Z) : Prop := in_range 8 z /\ (binary = false -> finite z).
Hypothesis HV : Forall (fun r => List.length r = 3%nat /\ Forall number r) V.
Hypothesis HF : Forall (fun r => List.length r = 3%nat /\ Forall int32 r) F.
Hypothesis HN : Forall (fun r => List.length r = 3%nat /\ Forall number r) N.
Hypothesis NV : N = [] \/ List.length N = List.length V.
Hypothesis HC : Forall (fun r => List.length r = 4%nat /\ Forall (in_range 1) r) C.

Let nn := nonempty N.
Let vc := nonempty C && Nat.eqb (List.length C) (List.length V).
Let fc := nonempty C && Nat.eqb (List.length C) (List.length F).
Let cnames := ["red"; "green"; "blue"; "alpha"].
Let kn := if nn then ["nx"; "ny"; "nz"] else [].
Let kv := if vc then cnames else [].
Let kf := if fc then cnames else [].
Let N' := if nn then N else repeat [] (List.length V).
Let Cv := if vc then corrupted C else repeat [] (List.length V).
Let Cf := if fc then corrupted C else repeat [] (List.length F).
Let F' := map (map unsigned) F.
Let Zv := map (fun x => [fst x; fst (snd x); snd (snd x)]) (combine V (combine N' Cv)).
Let Zf := map (fun x => [fst x; snd x]) (combine Cf F').
Let bv := [BS Pos FLOAT64 ["x"; "y"; "z"]; BS Nrm FLOAT64 kn; BS VRed UINT8 kv].
Let bf := [BS FRed UINT8 kf; BF].
Let xs : list spec := ("vertex", bv, Zv) :: (if nonempty F then [("face", bf, Zf)] else []).

Lemma C4 : Forall (fun r => List.length r = 4%nat) C.
Proof. eapply Forall_impl; [|exact HC]. cbn. tauto. Qed.
Lemma C1 : Forall (Forall (in_range 1)) C.
Proof. eapply Forall_impl; [|exact HC]. cbn. tauto. Qed.
Lemma len_N' : List.length N' = List.length V.
Proof. unfold N', nn. destruct (nonempty N) eqn:E; [|apply repeat_length]. destruct NV as [Q|Q]; [rewrite Q in E; discriminate|exact Q]. Qed.
Lemma len_Cv : List.length Cv = List.length V.
Proof. unfold Cv, vc. destruct (nonempty C); cbn [andb]; [|apply repeat_length]. destruct (Nat.eqb_spec (List.length C) (List.length V)) as [E|_]; [|apply repeat_length]. rewrite corrupted_length by apply C4. exact E. Qed.
Lemma len_Cf : List.length Cf = List.length F.
Proof. unfold Cf, fc. destruct (nonempty C); cbn [andb]; [|apply repeat_length]. destruct (Nat.eqb_spec (List.length C) (List.length F)) as [E|_]; [|apply repeat_length]. rewrite corrupted_length by apply C4. exact E. Qed.
Lemma len_NC : List.length (combine N' Cv) = List.length V.
Proof. rewrite combine_length, len_N', len_Cv. lia. Qed.
Lemma len_Zv : List.length Zv = List.length V.
Proof. unfold Zv. rewrite map_length, combine_length, len_NC. lia. Qed.
Lemma len_Zf : List.length Zf = List.length F.
Proof. unfold Zf, F'. rewrite map_length, combine_length, map_length, len_Cf. lia. Qed.

Lemma layout_ok : map welem_of xs = layout V F N C.
Proof.
  unfold xs, layout. fold vc fc nn. assert (FC : fc || nonempty F = nonempty F).
  { destruct fc eqn:Q; [|reflexivity]. rewrite (face_there F C Q). reflexivity. }
  rewrite FC. cbn [map]. f_equal.
  - unfold welem_of. rewrite len_Zv. f_equal. unfold bv, kn, kv. destruct nn, vc; reflexivity.
  - destruct (nonempty F); [|reflexivity]. cbn [map]. unfold welem_of. rewrite len_Zf. f_equal. f_equal. unfold bf, kf. destruct fc; reflexivity.
Qed.

(** the three rows of a vertex, the two of a face *)
Lemma row_V r : In r V -> List.length r = 3%nat /\ Forall (sound finite binary FLOAT64) r.
Proof. intros I. rewrite Forall_forall in HV. destruct (HV r I) as (L & H). split; auto. eapply Forall_impl; [|exact H]. intros z (R & FI). split; [tauto|]. split; [exact R|]. auto. Qed.
Lemma row_N r : In r N' -> List.length r = List.length kn /\ Forall (sound finite binary FLOAT64) r.
Proof.
  unfold N', kn. destruct nn; intros I; [|apply repeat_spec in I; subst; split; [reflexivity|constructor]].
  rewrite Forall_forall in HN. destruct (HN r I) as (L & H). split; auto. eapply Forall_impl; [|exact H]. intros z (R & FI). split; [tauto|]. split; [exact R|]. auto.
Qed.
Lemma corrupted_row r : In r (corrupted C) -> List.length r = 4%nat /\ Forall (sound finite binary UINT8) r.
Proof.
  intros I. pose proof (corrupted_good C C1) as G. rewrite Forall_forall in G. destruct (G r I) as (L & H). split; auto. eapply Forall_impl; [|exact H]. intros z R. split; [tauto|]. split; [exact R|]. discriminate.
Qed.
Lemma row_Cv r : In r Cv -> List.length r = List.length kv /\ Forall (sound finite binary UINT8) r.
Proof. unfold Cv, kv. destruct vc; intros I; [apply corrupted_row; exact I|apply repeat_spec in I; subst; split; [reflexivity|constructor]]. Qed.
Lemma row_Cf r : In r Cf -> List.length r = List.length kf /\ Forall (sound finite binary UINT8) r.
Proof. unfold Cf, kf. destruct fc; intros I; [apply corrupted_row; exact I|apply repeat_spec in I; subst; split; [reflexivity|constructor]]. Qed.
Lemma row_F r : In r F' -> List.length r = 3%nat /\ Forall (sound finite binary UINT32) r.
Proof.
  unfold F'. intros I. apply in_map_iff in I as (q & <- & I). rewrite Forall_forall in HF. destruct (HF q I) as (L & H). rewrite map_length. split; auto. apply Forall_forall. intros z J. apply in_map_iff in J as (y & <- & J).
  split; [tauto|]. split; [|discriminate]. unfold in_range, unsigned. cbn [stride]. apply Z.mod_pos_bound. lia.
Qed.
Lemma Zv_fits : Forall (Forall2 (bfits finite binary) bv) Zv.
Proof.
  apply Forall_forall. intros zss I. unfold Zv in I. apply in_map_iff in I as ([v [n c]] & <- & I). pose proof (in_combine_l _ _ _ _ I) as I1. apply in_combine_r in I. pose proof (in_combine_l _ _ _ _ I) as I2. apply in_combine_r in I.
  unfold bv. constructor; [apply row_V; exact I1|]. constructor; [apply row_N; exact I2|]. constructor; [apply row_Cv; exact I|constructor].
Qed.
Lemma Zf_fits : Forall (Forall2 (bfits finite binary) bf) Zf.
Proof.
  apply Forall_forall. intros zss I. unfold Zf in I. apply in_map_iff in I as ([c q] & <- & I). pose proof (in_combine_l _ _ _ _ I) as I1. apply in_combine_r in I.
  unfold bf. constructor; [apply row_Cf; exact I1|]. constructor; [apply row_F; exact I|constructor].
Qed.
Lemma xs_fit : Forall (fun x => Forall (Forall2 (bfits finite binary) (snd (fst x))) (snd x)) xs.
Proof. unfold xs. constructor; [apply Zv_fits|]. destruct (nonempty F); constructor; [apply Zf_fits|constructor]. Qed.

(** the data of every property run along the rows *)
Lemma flat8 M : Forall (fun r => List.length r = 3%nat /\ Forall number r) M -> pack 8 M = cat (map (fun r => cat (map (le 8) r)) M).
Proof.
  unfold pack. intros H. f_equal. apply map_ext_in. intros r I. rewrite Forall_forall in H. destruct (H r I) as (_ & R). f_equal. apply map_ext_in. intros z J. rewrite Forall_forall in R. destruct (R z J) as (Q & _). f_equal.
  apply Z.mod_small. exact Q.
Qed.
Lemma fst_rows {A B} (g : A -> string) (a : list A) (b : list B) : List.length a = List.length b -> cat (map (fun x => g (fst x)) (combine a b)) = cat (map g a).
Proof. intros L. rewrite map_fst_combine by exact L. reflexivity. Qed.
Lemma snd_rows {A B} (g : B -> string) (a : list A) (b : list B) : List.length a = List.length b -> cat (map (fun x => g (snd x)) (combine a b)) = cat (map g b).
Proof. intros L. rewrite map_snd_combine by exact L. reflexivity. Qed.
Lemma vstream t : cat (map (fun zss => stream_row bv zss t) Zv) =
  match t with Pos => cat (map (fun r => cat (map (le 8) r)) V) | Nrm => cat (map (fun r => cat (map (le 8) r)) N') | VRed => cat (map (fun r => cat (map (le 1) r)) Cv) | _ => "" end.
Proof.
  unfold Zv. rewrite map_map. destruct t; cbn [bv stream_row btag tag_beq bty stride append]; try (apply cat_empty; reflexivity).
  - rewrite <- (fst_rows (fun r => cat (map (le 8) r)) V (combine N' Cv)) by (rewrite len_NC; reflexivity). f_equal. apply map_ext. intros x. apply app_e.
  - rewrite <- (fst_rows (fun r => cat (map (le 8) r)) N' Cv) by (rewrite len_N', len_Cv; reflexivity).
    rewrite <- (snd_rows (fun x => cat (map (le 8) (fst x))) V (combine N' Cv)) by (rewrite len_NC; reflexivity). f_equal. apply map_ext. intros x. apply app_e.
  - rewrite <- (snd_rows (fun r => cat (map (le 1) r)) N' Cv) by (rewrite len_N', len_Cv; reflexivity).
    rewrite <- (snd_rows (fun x => cat (map (le 1) (snd x))) V (combine N' Cv)) by (rewrite len_NC; reflexivity). f_equal. apply map_ext. intros x. apply app_e.
Qed.
Lemma fstream t : cat (map (fun zss => stream_row bf zss t) Zf) =
  match t with FRed => cat (map (fun r => cat (map (le 1) r)) Cf) | Fi => cat (map (fun r => cat (map (le 4) r)) F') | _ => "" end.
Proof.
  assert (L : List.length Cf = List.length F') by (unfold F'; rewrite map_length; apply len_Cf).
  unfold Zf. rewrite map_map. destruct t; cbn [bf stream_row btag tag_beq bty stride append]; try (apply cat_empty; reflexivity).
  - rewrite <- (fst_rows (fun r => cat (map (le 1) r)) Cf F' L). f_equal. apply map_ext. intros x. apply app_e.
  - rewrite <- (snd_rows (fun r => cat (map (le 4) r)) Cf F' L). f_equal. apply map_ext. intros x. apply app_e.
Qed.
Lemma corrupted_prefix : exists r, pack 4 C = cat (map (fun r => cat (map (le 1) r)) (corrupted C)) ++ r.
Proof.
  rewrite (pack_quads C C1). exists (cat (map (fun r => cat (map (le 1) r)) (skipn (List.length C) (map quad (concat C))))). unfold corrupted. rewrite <- cat_app, <- map_app, firstn_skipn. reflexivity.
Qed.
Lemma repeat_empty n b : cat (map (fun r => cat (map (le b) r)) (repeat [] n)) = "".
Proof. induction n; cbn; auto. Qed.
Lemma streams_ok t : exists r, data V F N C t = cat (map (fun x => stream_of x t) xs) ++ r.
Proof.
  assert (FE : cat (map (fun x => stream_of x t) xs) = cat (map (fun zss => stream_row bv zss t) Zv) ++ (if nonempty F then cat (map (fun zss => stream_row bf zss t) Zf) else "")).
  { unfold xs. destruct (nonempty F); cbn [map cat]; [rewrite app_e|]; reflexivity. }
  rewrite FE, vstream, fstream. clear FE. destruct t; cbn [data].
  - exists "". rewrite (flat8 V HV). destruct (nonempty F); cbn; rewrite !app_e; reflexivity.
  - exists "". unfold N', nn. destruct (nonempty N) eqn:EN.
    2:{ rewrite repeat_empty, (empty_is N EN). destruct (nonempty F); reflexivity. }
    rewrite (flat8 N HN). destruct (nonempty F); rewrite !app_e; reflexivity.
  - unfold Cv. destruct vc.
    + destruct corrupted_prefix as (r & ->). exists r. destruct (nonempty F); rewrite app_e; reflexivity.
    + exists (pack 4 C). rewrite repeat_empty. destruct (nonempty F); reflexivity.
  - exists "". destruct (nonempty F); reflexivity.
  - unfold Cf. destruct fc.
    + destruct corrupted_prefix as (r & Q). rewrite Q. destruct (nonempty F); [exists r; reflexivity|]. eexists. reflexivity.
    + exists (pack 4 C). rewrite repeat_empty. destruct (nonempty F); reflexivity.
  - exists "". destruct (nonempty F); reflexivity.
  - exists "". destruct (nonempty F) eqn:EF; [|rewrite (empty_is F EF); reflexivity]. rewrite app_e. cbn [append]. unfold pack, F'. change (256 ^ Z.of_nat 4)%Z with 4294967296%Z. rewrite map_map. f_equal.
    apply map_ext. intros r. rewrite map_map. reflexivity.
  - exists "". destruct (nonempty F); reflexivity.
Qed.

(** ** the header *)
Let es := map elem_of (map welem_of xs).
Let D := map (cells_of rt binary) xs.
Let ev : element := {| ename := "vertex"; esize := List.length Zv; eprops := map wp (flat_map bprops bv) |}.
Let ef : element := {| ename := "face"; esize := List.length Zf; eprops := map wp (flat_map bprops bf) |}.
Lemma es_is : es = ev :: (if nonempty F then [ef] else []).
Proof. unfold es, xs. destruct (nonempty F); reflexivity. Qed.
Lemma es_clean : clean es.
Proof.
  rewrite es_is. split.
  - destruct (nonempty F); cbn; repeat constructor; cbn; intros H; repeat (destruct H as [H|H]; [discriminate|]); exact H.
  - intros e p t I J K. assert (X : e = ev \/ e = ef) by (destruct (nonempty F); cbn in I; intuition auto). clear I. destruct X as [-> | ->].
    + revert K J. unfold ev, bv, kn, kv. destruct nn, vc; cbn [ename eprops flat_map bprops scalars map List.app cnames wp In]; intros K J;
      repeat (destruct J as [<-|J]; [destruct t; (discriminate K || reflexivity)|]); destruct J.
    + revert K J. unfold ef, bf, kf. destruct fc; cbn [ename eprops flat_map bprops scalars map List.app cnames wp In]; intros K J;
      repeat (destruct J as [<-|J]; [destruct t; (discriminate K || reflexivity)|]); destruct J.
Qed.
Lemma ws_writable : Forall (fun e => wordy (wname e) /\ Forall (fun p => writable (wp p)) (wprops e)) (map welem_of xs).
Proof.
  unfold xs. cbn [map]. constructor; [|destruct (nonempty F); cbn [map]; constructor; [|constructor]]; cbn [welem_of wname wprops].
  - split; [split; [discriminate|reflexivity]|]. unfold bv, kn, kv. destruct nn, vc; cbn [flat_map bprops scalars map List.app cnames]; repeat constructor; cbn; discriminate.
  - split; [split; [discriminate|reflexivity]|]. unfold bf, kf. destruct fc; cbn [flat_map bprops scalars map List.app cnames]; repeat constructor; cbn; discriminate.
Qed.
(** ** the body *)
Lemma back_range t z : sound finite binary t z -> in_range (stride t) (back rt binary t z).
Proof. intros (T & R & _). unfold back. destruct binary eqn:B; [exact R|]. destruct t; auto. apply (io_range _ _ _ _ (IO eq_refl)). exact R. Qed.
Lemma block_ok b zs : bfits finite binary b zs -> Forall2 cell_ok (map wp (bprops b)) (bcells rt binary b zs).
Proof.
  intros (L & S). destruct b as [t ty ks|]; cbn in *.
  - revert zs L S. induction ks as [|k ks IH]; intros [|z zs] L S; try discriminate; [constructor|]. inversion S; subst. injection L as L. cbn. constructor; [|apply IH; auto].
    split; [cbn; constructor; [apply back_range; auto|constructor]|]. cbn. discriminate.
  - constructor; [|constructor]. split.
    + cbn [cell_vals pty]. apply Forall_forall. intros z I. apply in_map_iff in I as (y & <- & I). rewrite Forall_forall in S. apply back_range. auto.
    + cbn. intros lt E. injection E as <-. rewrite map_length, L. split; [exact I|lia].
Qed.
Lemma row_cells_ok bs zss : Forall2 (bfits finite binary) bs zss -> Forall2 cell_ok (map wp (flat_map bprops bs)) (cells_row rt binary bs zss).
Proof. induction 1 as [|b zs bs zss H1 H2 IH]; [constructor|]. cbn [flat_map cells_row]. rewrite map_app. apply Forall2_app; auto. apply block_ok; auto. Qed.
Lemma D_ok : data_ok es D.
Proof.
  unfold data_ok, es, D. assert (X := xs_fit). revert X. generalize xs. induction xs0 as [|[[n bs] Z] l IH]; intros X; cbn [map]; constructor; inversion X; subst; auto.
  cbn [fst snd] in *. cbn [welem_of elem_of cells_of eprops wprops]. apply Forall_forall. intros r I. apply in_map_iff in I as (zss & <- & I). apply row_cells_ok.
  match goal with H : Forall _ Z |- _ => rewrite Forall_forall in H; auto end.
Qed.
Let Dv := map (cells_row rt binary bv) Zv.
Let Df := map (cells_row rt binary bf) Zf.
Lemma in_v : In (ev, Dv) (combine es D).
Proof. unfold es, D, xs. cbn. left. reflexivity. Qed.
Lemma in_f : nonempty F = true -> In (ef, Df) (combine es D).
Proof. intros E. unfold es, D, xs. rewrite E. cbn. right. left. reflexivity. Qed.
Lemma pick_v (ks : list string) (g : list Z -> list Z -> list Z -> list Z) :
  (forall v n c, List.length v = 3%nat -> List.length n = List.length kn -> List.length c = List.length kv -> pick ks (eprops ev) (cells_row rt binary bv [v; n; c]) = g v n c) ->
  map (pick ks (eprops ev)) Dv = map (fun x => g (fst x) (fst (snd x)) (snd (snd x))) (combine V (combine N' Cv)).
Proof.
  intros H. unfold Dv, Zv. rewrite !map_map. apply map_ext_in. intros [v [n c]] I. cbn [fst snd]. pose proof (in_combine_l _ _ _ _ I) as I1. apply in_combine_r in I. pose proof (in_combine_l _ _ _ _ I) as I2. apply in_combine_r in I.
  apply H; [apply row_V; exact I1|apply row_N; exact I2|apply row_Cv; exact I].
Qed.
Lemma pick_f (ks : list string) (g : list Z -> list Z -> list Z) :
  (forall c q, List.length c = List.length kf -> List.length q = 3%nat -> pick ks (eprops ef) (cells_row rt binary bf [c; q]) = g c q) ->
  map (pick ks (eprops ef)) Df = map (fun x => g (fst x) (snd x)) (combine Cf F').
Proof.
  intros H. unfold Df, Zf. rewrite !map_map. apply map_ext_in. intros [c q] I. cbn [fst snd]. pose proof (in_combine_l _ _ _ _ I) as I1. apply in_combine_r in I.
  apply H; [apply row_Cf; exact I1|apply row_F; exact I].
Qed.
Ltac len3 v L := destruct v as [|? [|? [|? [|? ?]]]]; try discriminate L.
Ltac len4 v L := destruct v as [|? [|? [|? [|? [|? ?]]]]]; try discriminate L.
Ltac len0 v L := destruct v as [|? ?]; try discriminate L.
Lemma field_V : field "vertex" ["x"; "y"; "z"] es D (Some (FLOAT64, map (map (back rt binary FLOAT64)) V)).
Proof.
  assert (E : map (map (back rt binary FLOAT64)) V = map (pick ["x"; "y"; "z"] (eprops ev)) Dv).
  { rewrite (pick_v ["x"; "y"; "z"] (fun v _ _ => map (back rt binary FLOAT64) v)).
    - rewrite map_fst_combine by (rewrite len_NC; reflexivity). reflexivity.
    - intros v n c L1 L2 L3. unfold ev, bv, kn, kv in *. len3 v L1. destruct nn, vc; [len3 n L2; len4 c L3|len3 n L2; len0 c L3|len0 n L2; len4 c L3|len0 n L2; len0 c L3]; reflexivity. }
  rewrite E. apply field_has; [apply in_v|reflexivity|]. unfold ev, bv, kn, kv, in_order. destruct nn, vc; reflexivity.
Qed.
Lemma field_N : field "vertex" ["nx"; "ny"; "nz"] es D (if nn then Some (FLOAT64, map (map (back rt binary FLOAT64)) N) else None).
Proof.
  unfold nn. case_eq (nonempty N); intros EN.
  - assert (E : map (map (back rt binary FLOAT64)) N = map (pick ["nx"; "ny"; "nz"] (eprops ev)) Dv).
    { rewrite (pick_v ["nx"; "ny"; "nz"] (fun _ n _ => map (back rt binary FLOAT64) n)).
      - rewrite (map_snd_combine (fun x => map (back rt binary FLOAT64) (fst x))) by (rewrite len_NC; reflexivity). rewrite map_fst_combine by (rewrite len_N', len_Cv; reflexivity). unfold N', nn. rewrite EN. reflexivity.
      - intros v n c L1 L2 L3. unfold kn, nn in L2. unfold ev, bv, kn, nn. rewrite EN in L2 |- *. unfold kv in *. len3 v L1. len3 n L2. destruct vc; [len4 c L3|len0 c L3]; reflexivity. }
    rewrite E. apply field_has; [apply in_v|reflexivity|]. unfold ev, bv, kn, nn, kv, in_order. rewrite EN. destruct vc; reflexivity.
  - apply field_lacks. intros e I Q. rewrite es_is in I. assert (e = ev) as -> by (destruct (nonempty F); cbn in I; destruct I as [<-|I]; auto; [destruct I as [<-|[]]; discriminate Q|destruct I]).
    unfold ev, bv, kn, nn, kv, absent. rewrite EN. destruct vc; reflexivity.
Qed.
Lemma back_u8 l : map (back rt binary UINT8) l = l.
Proof. unfold back. destruct binary; apply map_id. Qed.
Lemma field_Cv : field "vertex" ["red"; "green"; "blue"; "alpha"] es D (if vc then Some (UINT8, corrupted C) else None).
Proof.
  unfold vc. case_eq (nonempty C && Nat.eqb (List.length C) (List.length V)); intros EC.
  - assert (E : corrupted C = map (pick ["red"; "green"; "blue"; "alpha"] (eprops ev)) Dv).
    { rewrite (pick_v ["red"; "green"; "blue"; "alpha"] (fun _ _ c => map (back rt binary UINT8) c)).
      - rewrite (map_snd_combine (fun x => map (back rt binary UINT8) (snd x))) by (rewrite len_NC; reflexivity). rewrite map_snd_combine by (rewrite len_N', len_Cv; reflexivity). unfold Cv, vc. rewrite EC.
        rewrite (map_ext _ (fun x => x) back_u8), map_id. reflexivity.
      - intros v n c L1 L2 L3. unfold kv, vc in L3. unfold ev, bv, kv, vc. rewrite EC in L3 |- *. unfold kn in *. len3 v L1. len4 c L3. destruct nn; [len3 n L2|len0 n L2]; reflexivity. }
    rewrite E. apply field_has; [apply in_v|reflexivity|]. unfold ev, bv, kn, kv, vc, in_order. rewrite EC. destruct nn; reflexivity.
  - apply field_lacks. intros e I Q. rewrite es_is in I. assert (e = ev) as -> by (destruct (nonempty F); cbn in I; destruct I as [<-|I]; auto; [destruct I as [<-|[]]; discriminate Q|destruct I]).
    unfold ev, bv, kn, kv, vc, absent. rewrite EC. destruct nn; reflexivity.
Qed.
Lemma field_VR : field "vertex" ["r"; "g"; "b"; "a"] es D None.
Proof.
  apply field_lacks. intros e I Q. rewrite es_is in I. assert (e = ev) as -> by (destruct (nonempty F); cbn in I; destruct I as [<-|I]; auto; [destruct I as [<-|[]]; discriminate Q|destruct I]).
  unfold ev, bv, kn, kv, absent. destruct nn, vc; reflexivity.
Qed.
Lemma face_is e : In e es -> ename e = "face" -> nonempty F = true /\ e = ef.
Proof. rewrite es_is. destruct (nonempty F); cbn; intros I Q; destruct I as [<-|I]; try discriminate Q; [destruct I as [<-|[]]; auto|destruct I]. Qed.
Lemma fc_F : fc = true -> nonempty F = true.
Proof. apply face_there. Qed.
Lemma len_CF : List.length Cf = List.length F'.
Proof. unfold F'. rewrite map_length. apply len_Cf. Qed.
Lemma field_Cf : field "face" ["red"; "green"; "blue"; "alpha"] es D (if fc then Some (UINT8, corrupted C) else None).
Proof.
  unfold fc. case_eq (nonempty C && Nat.eqb (List.length C) (List.length F)); intros EC.
  - assert (E : corrupted C = map (pick ["red"; "green"; "blue"; "alpha"] (eprops ef)) Df).
    { rewrite (pick_f ["red"; "green"; "blue"; "alpha"] (fun c _ => map (back rt binary UINT8) c)).
      - rewrite map_fst_combine by apply len_CF. unfold Cf, fc. rewrite EC. rewrite (map_ext _ (fun x => x) back_u8), map_id. reflexivity.
      - intros c q L1 L2. unfold kf, fc in L1. unfold ef, bf, kf, fc. rewrite EC in L1 |- *. len4 c L1. len3 q L2. reflexivity. }
    rewrite E. apply field_has; [apply in_f, fc_F; exact EC|reflexivity|]. unfold ef, bf, kf, fc, in_order. rewrite EC. reflexivity.
  - apply field_lacks. intros e I Q. destruct (face_is e I Q) as (_ & ->). unfold ef, bf, kf, fc, absent. rewrite EC. reflexivity.
Qed.
Lemma field_FR : field "face" ["r"; "g"; "b"; "a"] es D None.
Proof. apply field_lacks. intros e I Q. destruct (face_is e I Q) as (_ & ->). unfold ef, bf, kf, absent. destruct fc; reflexivity. Qed.
Lemma field_Fx : list_field "face" "vertex_index" es D None.
Proof. apply list_field_lacks. intros e I Q. destruct (face_is e I Q) as (_ & ->). unfold ef, bf, kf, absent. destruct fc; reflexivity. Qed.
Lemma field_Fi : list_field "face" "vertex_indices" es D (if nonempty F then Some F' else None).
Proof.
  case_eq (nonempty F); intros EF.
  - assert (E : F' = map (pick ["vertex_indices"] (eprops ef)) Df).
    { rewrite (pick_f ["vertex_indices"] (fun _ q => map (back rt binary UINT32) q)).
      - rewrite map_snd_combine by apply len_CF. rewrite (map_ext _ (fun x => x)), map_id; [reflexivity|]. intros l. unfold back. destruct binary; apply map_id.
      - intros c q L1 L2. unfold ef, bf, kf in *. len3 q L2. destruct fc; [len4 c L1|len0 c L1]; reflexivity. }
    rewrite E. eapply list_field_has; [apply in_f; exact EF|reflexivity|right; reflexivity| |].
    + unfold ef, bf, kf. destruct fc; reflexivity.
    + rewrite <- E. apply Forall_forall. intros q I. apply row_F. exact I.
  - apply list_field_lacks. intros e I Q. destruct (face_is e I Q) as (X & _). congruence.
Qed.
Lemma known : (if nonempty F then Some F' else None) <> None \/ (None : option (list (list Z))) <> None \/ Forall (fun e => Forall (fun p => plist p = None) (eprops e)) es.
Proof.
  case_eq (nonempty F); intros EF; [left; discriminate|]. right. right. rewrite es_is, EF. constructor; [|constructor]. unfold ev, bv, kn, kv. destruct nn, vc; cbn; repeat constructor.
Qed.
Lemma expected_C : rows_or_none (first2 (first2 None (if vc then Some (UINT8, corrupted C) else None)) (first2 None (if fc then Some (UINT8, corrupted C) else None))) = colors V F C.
Proof. apply chosen. Qed.
Lemma expected_F : match (if nonempty F then Some F' else None) with Some M => map (map signed) M | None => [] end = F.
Proof.
  case_eq (nonempty F); intros EF; [|rewrite (empty_is F EF); reflexivity]. unfold F'. rewrite map_map. rewrite <- (map_id F) at 2. apply map_ext_in. intros r I. rewrite map_map. rewrite <- (map_id r) at 2. apply map_ext_in. intros z J.
  apply signed_unsigned. rewrite Forall_forall in HF. destruct (HF r I) as (_ & R). rewrite Forall_forall in R. auto.
Qed.
Lemma round_ok junk to64 : exists s, write_ply showa V F N C binary = Ret s /\
  read_ply geta junk to64 s = Ret (map (map (back rt binary FLOAT64)) V, F, map (map (back rt binary FLOAT64)) N, colors V F C).
Proof.
  set (rest := fun t => drop (String.length (cat (map (fun x => stream_of x t) xs))) (data V F N C t)).
  destruct (write_elements_ok geta showa finite rt binary IO xs xs_fit (header binary (layout V F N C)) (data V F N C) rest) as (out & c & E & W).
  { intros t. apply rest_of, streams_ok. }
  unfold write_ply. rewrite <- layout_ok in E |- *. rewrite E. cbn [obind fst]. eexists. split; [reflexivity|].
  destruct (W "" "") as (b & _ & B); [unfold bl; destruct binary; reflexivity|]. rewrite app_e in B. cbn [append] in B. rewrite app_e in B.
  rewrite header_text. rewrite <- expected_C, <- expected_F.
  assert (EN : map (map (back rt binary FLOAT64)) N = match (if nn then Some (FLOAT64, map (map (back rt binary FLOAT64)) N) else None) with Some (t, M) => convert to64 t M | None => [] end).
  { apply normals_there. }
  rewrite EN. change (map (map (back rt binary FLOAT64)) V) with (convert to64 FLOAT64 (map (map (back rt binary FLOAT64)) V)).
  change (if nonempty F then Some F' else None) with (first2 None (if nonempty F then Some F' else None)).
  eapply (read_ok geta junk to64 (fmt_of binary) es D out b B es_clean D_ok FLOAT64 (map (map (back rt binary FLOAT64)) V)
    (if nn then Some (FLOAT64, map (map (back rt binary FLOAT64)) N) else None) (if vc then Some (UINT8, corrupted C) else None) None (if fc then Some (UINT8, corrupted C) else None) None (if nonempty F then Some F' else None) None).
  - apply field_V.
  - right. reflexivity.
  - apply field_N.
  - intros t M. destruct nn; [intros Q; injection Q as <- _; right; auto|discriminate].
  - apply field_Cv.
  - apply field_VR.
  - apply field_Cf.
  - apply field_FR.
  - intros t M. destruct vc; [intros Q; injection Q as <- _; reflexivity|discriminate].
  - intros t M. discriminate.
  - intros t M. destruct fc; [intros Q; injection Q as <- _; reflexivity|discriminate].
  - intros t M. discriminate.
  - apply field_Fi.
  - apply field_Fx.
  - right. reflexivity.
  - apply known.
  - apply parse_ok. apply (elems_described (map welem_of xs) ws_writable ["comment generated by tinyply 2.3"] []).
    apply (d_comment [] [] "generated by tinyply 2.3"); [constructor|reflexivity].
Qed.
End Round.
