(** C97: PLY files, read_mesh / write_mesh over tinyply.
    Specification of a file, independent of how it is read: [describes] (PlyHeader: header lines and the elements they declare), [ply_file] (header, body), [body_at] (PlyProofs: the
    cells of every row of every element one after the other, in the file's format), [field], [list_field], [cell_ok], [data_ok] (PlyProofs3: the column with these names and its rows;
    numbers fit their types, lists have fewer than 256 entries). *)
From Coq Require Import String Ascii List ZArith Bool Lia Arith.
From Verif Require StlModel StlProofs.
From Verif Require Import TextModel TextProofs PlyModel PlyProofs PlyProofs2 PlyProofs3 PlyProofs4 PlyProofs5 PlyHeader PlyWrite PlyRound.
Import ListNotations.
Open Scope string_scope.

(** the names that are asked for *)
Definition asked : list (string * string) :=
  (map (pair "vertex") ["x"; "y"; "z"; "nx"; "ny"; "nz"; "red"; "green"; "blue"; "alpha"; "r"; "g"; "b"; "a"] ++
   map (pair "face") ["red"; "green"; "blue"; "alpha"; "r"; "g"; "b"; "a"; "vertex_indices"; "vertex_index"])%list.
(** names are looked up by the concatenation of element and property: only the elements asked for may lead to these *)
Definition no_confusion (es : list element) : Prop :=
  NoDup (map ename es) /\ forall e p q, In e es -> In p (eprops e) -> In q asked -> ename e ++ pname p = fst q ++ snd q -> ename e = fst q.
Lemma clean_ok es : no_confusion es -> clean es.
Proof.
  intros (N & H). split; auto. intros e p t I J K. unfold has_key in K. apply existsb_exists in K as (k & K & Q). apply String.eqb_eq in Q. unfold tag_keys in K. apply in_map_iff in K as (n & <- & K).
  apply (H e p (tag_element t, n) I J); [|exact Q]. destruct t; cbn in K |- *; intuition (subst; auto 30).
Qed.

(** ** the layout of binary numbers, spelled out *)
Definition bytes_of (t : ptype) : nat := match t with INT8 | UINT8 => 1 | INT16 | UINT16 => 2 | INT32 | UINT32 | FLOAT32 => 4 | FLOAT64 => 8 | INVALID => 0 end.
Lemma get_le n : forall z i, (i < n)%nat -> String.get i (le n z) = Some (byte ((z / 256 ^ Z.of_nat i) mod 256)).
Proof.
  induction n as [|n IH]; intros z i L; [lia|]. destruct i as [|i]; [cbn [le String.get]; rewrite Z.div_1_r; reflexivity|]. cbn [le String.get]. rewrite IH by lia. rewrite pow256, Z.div_div by (pose proof (pow256_pos i); lia). reflexivity.
Qed.
Lemma get_back s : forall i, (i < String.length s)%nat -> String.get (String.length s - 1 - i) (backwards s) = String.get i s.
Proof.
  induction s as [|a s IH]; intros i L; [cbn in L; lia|]. cbn [backwards String.length] in *. destruct i as [|i].
  - replace (S (String.length s) - 1 - 0)%nat with (0 + String.length (backwards s))%nat by (rewrite back_len; lia). rewrite <- append_correct2. reflexivity.
  - cbn [String.get]. rewrite <- IH by lia. rewrite <- append_correct1 by (rewrite back_len; lia). f_equal. lia.
Qed.
Theorem C97_bytes geta f t z s r : f <> Text -> scalar_at geta f t z s r -> exists b, s = b ++ r /\ String.length b = bytes_of t /\
  forall i, (i < bytes_of t)%nat -> exists a, String.get (match f with Big => bytes_of t - 1 - i | _ => i end) b = Some a /\ value a = ((z / 256 ^ Z.of_nat i) mod 256)%Z.
Proof.
  intros NT H. assert (ST : stride t = bytes_of t) by (destruct t; reflexivity). inversion H; subst; [| |congruence]; eexists; (split; [reflexivity|]); (split; [rewrite enc_len; exact ST|]); intros i L; cbn [enc].
  - rewrite ST, get_le by exact L. eexists. split; [reflexivity|]. apply StlProofs.value_byte. apply Z.mod_pos_bound. lia.
  - replace (bytes_of t - 1 - i)%nat with (String.length (le (stride t) z) - 1 - i)%nat by (rewrite le_len, ST; reflexivity).
    rewrite get_back by (rewrite le_len, ST; exact L). rewrite ST, get_le by exact L. eexists. split; [reflexivity|]. apply StlProofs.value_byte. apply Z.mod_pos_bound. lia.
Qed.

(** ** reading *)
(** Whatever the order of elements and properties, other properties and elements, comments, the format and the spelling of types: the three coordinates (x, y, z in this order), normals
    of the same type or single precision, the triangles, the colours of the vertices or else of the faces. *)
Theorem C97_read geta junk to64 f ls es body r D tv V n c1 c2 c3 c4 f1 f2 :
  describes ls es -> body_at geta f es D body r -> data_ok es D -> no_confusion es ->
  field "vertex" ["x"; "y"; "z"] es D (Some (tv, V)) -> (tv = FLOAT32 \/ tv = FLOAT64) ->
  field "vertex" ["nx"; "ny"; "nz"] es D n -> (forall t M, n = Some (t, M) -> t = FLOAT32 \/ (t = FLOAT64 /\ tv = FLOAT64)) ->
  field "vertex" ["red"; "green"; "blue"; "alpha"] es D c1 -> field "vertex" ["r"; "g"; "b"; "a"] es D c2 ->
  field "face" ["red"; "green"; "blue"; "alpha"] es D c3 -> field "face" ["r"; "g"; "b"; "a"] es D c4 ->
  uint8 c1 -> uint8 c2 -> uint8 c3 -> uint8 c4 ->
  list_field "face" "vertex_indices" es D f1 -> list_field "face" "vertex_index" es D f2 -> f1 = None \/ f2 = None ->
  (f1 <> None \/ f2 <> None \/ forall e p, In e es -> In p (eprops e) -> plist p = None) ->
  read_ply geta junk to64 (ply_file f ls body) =
    Ret (convert to64 tv V, match first2 f2 f1 with Some M => map (map signed) M | None => [] end, match n with Some (t, M) => convert to64 t M | None => [] end,
         rows_or_none (first2 (first2 c2 c1) (first2 c4 c3))).
Proof.
  intros H B OK CL HV TV HN TN H1 H2 H3 H4 T1 T2 T3 T4 L1 L2 ONE KN. eapply read_ok; eauto using clean_ok.
  - destruct KN as [X|[X|X]]; auto. right. right. apply Forall_forall. intros e I. apply Forall_forall. intros p J. eauto.
  - apply parse_ok. exact H.
Qed.

(** ** writing and reading *)
(** what a matrix of colours is read back as: entry i of the flattened matrix is the red of row i, the rest is zero *)
Theorem C97_roundtrip_binary showa geta junk to64 V F N C :
  Forall (fun r => List.length r = 3%nat /\ Forall (in_range 8) r) V -> Forall (fun r => List.length r = 3%nat /\ Forall int32 r) F ->
  Forall (fun r => List.length r = 3%nat /\ Forall (in_range 8) r) N -> N = [] \/ List.length N = List.length V ->
  Forall (fun r => List.length r = 4%nat /\ Forall (in_range 1) r) C ->
  exists s, write_ply showa V F N C true = Ret s /\ read_ply geta junk to64 s = Ret (V, F, N, colors V F C).
Proof.
  intros HV HF HN NV HC. assert (W : forall M, Forall (fun r => List.length r = 3%nat /\ Forall (in_range 8) r) M -> Forall (fun r => List.length r = 3%nat /\ Forall (number (fun _ => True) true) r) M).
  { intros M H. eapply Forall_impl; [|exact H]. intros r (L & R). split; auto. eapply Forall_impl; [|exact R]. intros z Z. split; auto. }
  destruct (round_ok geta showa (fun _ => True) (fun z => z) true ltac:(discriminate) V F N C (W V HV) HF (W N HN) NV HC junk to64) as (s & E & R). exists s. split; [exact E|]. rewrite R.
  assert (I : forall M, map (map (back (fun z => z) true FLOAT64)) M = M). { intros M. rewrite <- (map_id M) at 2. apply map_ext. intros r. apply map_id. } rewrite !I. reflexivity.
Qed.
(** the default; doubles come back as rt of them, what operator>> makes of the six digits that operator<< prints *)
Theorem C97_roundtrip_text showa geta finite rt junk to64 V F N C : text_io geta showa finite rt ->
  Forall (fun r => List.length r = 3%nat /\ Forall (fun z => in_range 8 z /\ finite z) r) V -> Forall (fun r => List.length r = 3%nat /\ Forall int32 r) F ->
  Forall (fun r => List.length r = 3%nat /\ Forall (fun z => in_range 8 z /\ finite z) r) N -> N = [] \/ List.length N = List.length V ->
  Forall (fun r => List.length r = 4%nat /\ Forall (in_range 1) r) C ->
  exists s, write_ply showa V F N C false = Ret s /\ read_ply geta junk to64 s = Ret (map (map rt) V, F, map (map rt) N, colors V F C).
Proof.
  intros IO HV HF HN NV HC. assert (W : forall M, Forall (fun r => List.length r = 3%nat /\ Forall (fun z => in_range 8 z /\ finite z) r) M -> Forall (fun r => List.length r = 3%nat /\ Forall (number finite false) r) M).
  { intros M H. eapply Forall_impl; [|exact H]. intros r (L & R). split; auto. eapply Forall_impl; [|exact R]. intros z (Z & Fz). split; auto. }
  exact (round_ok geta showa finite rt false (fun _ => IO) V F N C (W V HV) HF (W N HN) NV HC junk to64).
Qed.
(** without colours nothing is lost in a binary file *)
Theorem C97_roundtrip_partial showa geta junk to64 V F N :
  Forall (fun r => List.length r = 3%nat /\ Forall (in_range 8) r) V -> Forall (fun r => List.length r = 3%nat /\ Forall int32 r) F ->
  Forall (fun r => List.length r = 3%nat /\ Forall (in_range 8) r) N -> N = [] \/ List.length N = List.length V ->
  exists s, write_ply showa V F N [] true = Ret s /\ read_ply geta junk to64 s = Ret (V, F, N, []).
Proof.
  intros HV HF HN NV. destruct (C97_roundtrip_binary showa geta junk to64 V F N [] HV HF HN NV (Forall_nil _)) as (s & E & R). exists s. split; [exact E|]. rewrite R. unfold colors, corrupted. destruct (_ || _); reflexivity.
Qed.
(** colours: only black transparent ones, except for the first red, survive.  Whatever the numbers of a text file do. *)
Lemma zeros_only C : Forall (fun r => List.length r = 4%nat) C -> forall k, C = firstn (List.length C) (map quad (repeat 0%Z (S k) ++ concat C)%list) -> C = repeat [0; 0; 0; 0]%Z (List.length C).
Proof.
  induction 1 as [|r C L H IH]; intros k E; [reflexivity|]. cbn [List.length repeat] in *. cbn [repeat List.app map firstn] in E. injection E as E1 E2. unfold quad in E1. f_equal; auto.
  apply (IH (k + 3)%nat). replace ((0%Z :: repeat 0%Z (k + 3)) ++ concat C)%list with (repeat 0%Z k ++ concat (r :: C))%list; [exact E2|].
  change (0%Z :: repeat 0%Z (k + 3)) with (repeat 0%Z (S (k + 3))). rewrite E1. cbn [concat]. replace (S (k + 3)) with (k + 4)%nat by lia. rewrite repeat_app, <- app_assoc. reflexivity.
Qed.
Theorem C97_colors_refuted showa geta finite rt junk to64 V F N C binary : (binary = false -> text_io geta showa finite rt) ->
  Forall (fun r => List.length r = 3%nat /\ Forall (number finite binary) r) V -> Forall (fun r => List.length r = 3%nat /\ Forall int32 r) F ->
  Forall (fun r => List.length r = 3%nat /\ Forall (number finite binary) r) N -> N = [] \/ List.length N = List.length V ->
  Forall (fun r => List.length r = 4%nat /\ Forall (in_range 1) r) C -> (List.length C = List.length V \/ List.length C = List.length F) -> C <> [] ->
  exists s V' F' N' C', write_ply showa V F N C binary = Ret s /\ read_ply geta junk to64 s = Ret (V', F', N', C') /\
    (C' = C -> exists z, C = [z; 0; 0; 0]%Z :: repeat [0; 0; 0; 0]%Z (List.length C - 1)).
Proof.
  intros IO HV HF HN NV HC LEN NE. destruct (round_ok geta showa finite rt binary IO V F N C HV HF HN NV HC junk to64) as (s & E & R). do 5 eexists. split; [exact E|]. split; [exact R|].
  assert (Q : colors V F C = corrupted C).
  { unfold colors. destruct LEN as [L|L]; rewrite (proj2 (Nat.eqb_eq _ _) L); rewrite ?orb_true_r; reflexivity. }
  rewrite Q. unfold corrupted. clear -HC NE. destruct C as [|r C]; [congruence|]. inversion HC as [|? ? (L & _) HC']; subst. intros E. destruct r as [|a [|b [|c [|d [|? ?]]]]]; try discriminate L.
  cbn [List.length concat List.app map firstn] in E. unfold quad at 1 in E. injection E as E1 E2 E3 E4. subst b c d. exists a. f_equal. cbn [List.length Nat.sub]. rewrite Nat.sub_0_r. apply (zeros_only C) with (k := 2%nat).
  - eapply Forall_impl; [|exact HC']. cbn. tauto.
  - symmetry. assumption.
Qed.

(** ** what is not checked when reading *)
Definition doubles (zs : list Z) : string := cat (map (le 8) zs).
Definition vertices (names : list string) (ty : string) (n : nat) : list string := ("element vertex " ++ show_int (Z.of_nat n)) :: map (fun k => "property " ++ ty ++ " " ++ k) names.
Definition faces (n : nat) : list string := ["element face " ++ show_int (Z.of_nat n); "property list uchar int vertex_indices"].
(** the coordinates are returned in the order in which the file declares them: here y = 2, x = 1, z = 3 *)
Theorem C97_property_order_refuted geta junk to64 :
  read_ply geta junk to64 (ply_file Little (vertices ["y"; "x"; "z"] "double" 1) (doubles [2; 1; 3]%Z)) = Ret ([[2; 1; 3]%Z], [], [], []).
Proof. reflexivity. Qed.
(** a file that ends too early is read without an error: the numbers are whatever was in memory *)
Theorem C97_truncated_refuted geta to64 :
  let s := ply_file Little (vertices ["x"; "y"; "z"] "double" 1) (doubles [1; 2]%Z) in
  read_ply geta "000"%char to64 s = Ret ([[0; 0; 0]%Z], [], [], []) /\ read_ply geta "001"%char to64 s = Ret ([[72340172838076673; 72340172838076673; 72340172838076673]%Z], [], [], []).
Proof. split; vm_compute; reflexivity. Qed.
(** double normals next to single precision coordinates are dropped: the type that is tested is that of the coordinates *)
Theorem C97_normals_refuted geta junk :
  read_ply geta junk (fun z => z) (ply_file Little (vertices ["x"; "y"; "z"] "float" 1 ++ ["property double nx"; "property double ny"; "property double nz"])
    (cat (map (le 4) [1; 2; 3]%Z) ++ doubles [4; 5; 6]%Z)) = Ret ([[1; 2; 3]%Z], [], [], []).
Proof. reflexivity. Qed.
(** no vertices: a null pointer is followed, whatever the rest of a file without lists is *)
Theorem C97_no_vertices_refuted geta junk to64 f ls body es cap mem : describes ls es -> (forall e, In e es -> ename e <> "vertex") ->
  read_data geta junk f es (Some body) = Ret (cap, mem) -> read_ply geta junk to64 (ply_file f ls body) = Crash.
Proof.
  intros H NO E. unfold read_ply. rewrite (parse_ok f ls es body H). cbn [obind]. rewrite E. cbn [obind fst snd]. unfold unpack. rewrite group_of_requests.
  rewrite req_lacks; [reflexivity|]. intros e I Q. destruct (NO e I Q).
Qed.
(** a quadrilateral: the reader has room for three indices a face, and reports the end of the file *)
Theorem C97_quad_refuted geta junk to64 :
  read_ply geta junk to64 (ply_file Little (vertices ["x"; "y"; "z"] "double" 1 ++ faces 1) (doubles [1; 2; 3]%Z ++ le 1 4 ++ cat (map (le 4) [0; 0; 0; 0]%Z))) = Throw.
Proof. reflexivity. Qed.

(** ** the hypotheses can be met *)
Definition geta0 (t : ptype) (s : string) : option (Z * string) := let '(w, r) := token s in match parse_int w with Some z => Some (z, r) | None => None end.
(** a big endian file with a comment, another element and further properties, read by the theorem *)
Definition lines0 : list string :=
  ["comment made by hand"; "element material 1"; "property int id"; "element vertex 2"; "property float x"; "property float y"; "property uchar quality"; "property float z"; "element face 1"; "property list uchar int vertex_index"].
Definition es0 : list element :=
  [{| ename := "material"; esize := 1; eprops := [scalar INT32 "id"] |};
   {| ename := "vertex"; esize := 2; eprops := [scalar FLOAT32 "x"; scalar FLOAT32 "y"; scalar UINT8 "quality"; scalar FLOAT32 "z"] |};
   {| ename := "face"; esize := 1; eprops := [{| pname := "vertex_index"; pty := INT32; plist := Some UINT8 |}] |}].
Definition D0 : list (list (list cellv)) := [[[One 7]]; [[One 1; One 2; One 9; One 3]; [One 4; One 5; One 9; One 6]]; [[Many [0; 1; 4294967295]]]]%Z.
Definition be (t : ptype) (z : Z) : string := enc Big t z.
Definition body0 : string :=
  be INT32 7 ++ (be FLOAT32 1 ++ be FLOAT32 2 ++ be UINT8 9 ++ be FLOAT32 3) ++ (be FLOAT32 4 ++ be FLOAT32 5 ++ be UINT8 9 ++ be FLOAT32 6) ++ be UINT8 3 ++ be INT32 0 ++ be INT32 1 ++ be INT32 4294967295 ++ "rest".
Example C97_nonvacuous_header : describes lines0 es0.
Proof.
  apply (d_list ["comment made by hand"; "element material 1"; "property int id"; "element vertex 2"; "property float x"; "property float y"; "property uchar quality"; "property float z"; "element face 1"]
    [{| ename := "material"; esize := 1; eprops := [scalar INT32 "id"] |}; {| ename := "vertex"; esize := 2; eprops := [scalar FLOAT32 "x"; scalar FLOAT32 "y"; scalar UINT8 "quality"; scalar FLOAT32 "z"] |}] "face" 1 []
    UINT8 "uchar" INT32 "int" "vertex_index"); [|cbn; tauto|cbn; tauto|split; [discriminate|reflexivity]].
  apply (d_element ["comment made by hand"; "element material 1"; "property int id"; "element vertex 2"; "property float x"; "property float y"; "property uchar quality"; "property float z"]
    [{| ename := "material"; esize := 1; eprops := [scalar INT32 "id"] |}; {| ename := "vertex"; esize := 2; eprops := [scalar FLOAT32 "x"; scalar FLOAT32 "y"; scalar UINT8 "quality"; scalar FLOAT32 "z"] |}] "face" 1); [|split; [discriminate|reflexivity]].
  set (m := {| ename := "material"; esize := 1; eprops := [scalar INT32 "id"] |}).
  apply (d_property ["comment made by hand"; "element material 1"; "property int id"; "element vertex 2"; "property float x"; "property float y"; "property uchar quality"] [m] "vertex" 2
    [scalar FLOAT32 "x"; scalar FLOAT32 "y"; scalar UINT8 "quality"] FLOAT32 "float" "z"); [|cbn; tauto|split; [discriminate|reflexivity]].
  apply (d_property ["comment made by hand"; "element material 1"; "property int id"; "element vertex 2"; "property float x"; "property float y"] [m] "vertex" 2 [scalar FLOAT32 "x"; scalar FLOAT32 "y"] UINT8 "uchar" "quality");
    [|cbn; tauto|split; [discriminate|reflexivity]].
  apply (d_property ["comment made by hand"; "element material 1"; "property int id"; "element vertex 2"; "property float x"] [m] "vertex" 2 [scalar FLOAT32 "x"] FLOAT32 "float" "y"); [|cbn; tauto|split; [discriminate|reflexivity]].
  apply (d_property ["comment made by hand"; "element material 1"; "property int id"; "element vertex 2"] [m] "vertex" 2 [] FLOAT32 "float" "x"); [|cbn; tauto|split; [discriminate|reflexivity]].
  apply (d_element ["comment made by hand"; "element material 1"; "property int id"] [m] "vertex" 2); [|split; [discriminate|reflexivity]].
  apply (d_property ["comment made by hand"; "element material 1"] [] "material" 1 [] INT32 "int" "id"); [|cbn; tauto|split; [discriminate|reflexivity]].
  apply (d_element ["comment made by hand"] [] "material" 1); [|split; [discriminate|reflexivity]].
  apply (d_comment [] [] "made by hand"); [constructor|reflexivity].
Qed.
Ltac cells := repeat (eapply row_cons || eapply row_nil || (eapply cell_one; [reflexivity|apply at_big])).
Example C97_nonvacuous_body : body_at geta0 Big es0 D0 body0 "rest".
Proof.
  unfold es0, D0, body0, be. rewrite !app_as.
  eapply body_cons; [reflexivity| |eapply body_cons; [reflexivity| |eapply body_cons; [reflexivity| |apply body_nil]]]; cbn [eprops].
  - eapply rows_cons; [cells|apply rows_nil].
  - eapply rows_cons; [cells|]. eapply rows_cons; [cells|apply rows_nil].
  - eapply rows_cons; [|apply rows_nil]. eapply row_cons; [|apply row_nil]. eapply cell_many; [reflexivity|apply at_big|]. repeat (eapply scalars_cons; [apply at_big|]). apply scalars_nil.
Qed.
Example C97_nonvacuous_read : read_ply geta0 "j"%char (fun z => (z + 1000)%Z) (ply_file Big lines0 body0) = Ret ([[1001; 1002; 1003]; [1004; 1005; 1006]]%Z, [[0; 1; -1]%Z], [], []).
Proof.
  assert (P : forall t z, (0 <= z < 256)%Z -> t <> INVALID -> in_range (stride t) z) by (intros [] z H Q; try congruence; unfold in_range; cbn; lia).
  rewrite (C97_read geta0 "j"%char (fun z => (z + 1000)%Z) Big lines0 es0 body0 "rest" D0 FLOAT32 [[1; 2; 3]; [4; 5; 6]]%Z None None None None None None (Some [[0; 1; 4294967295]%Z])); try reflexivity.
  - exact C97_nonvacuous_header.
  - exact C97_nonvacuous_body.
  - unfold es0, D0, data_ok. repeat (apply Forall2_cons || apply Forall2_nil || apply Forall_cons || apply Forall_nil || (match goal with |- cell_ok _ _ => split end)); cbn [pty scalar plist cell_vals List.length]; try discriminate;
      try (unfold in_range; cbn; lia); intros lt E; try discriminate E; injection E as <-; split; [exact I|lia].
  - split; [repeat constructor; cbn; intuition discriminate|]. intros e p q I J K. cbn in I, K. destruct I as [<-|[<-|[<-|[]]]]; cbn in J;
      repeat (destruct J as [<-|J]; [cbn [ename pname]; repeat (destruct K as [<-|K]; [intros Q; (discriminate Q || reflexivity)|]); destruct K|]); destruct J.
  - apply (field_has "vertex" ["x"; "y"; "z"] es0 D0 (nth 1 es0 (nth 0 es0 {| ename := ""; esize := 0; eprops := [] |})) (nth 1 D0 [])); [right; left; reflexivity|reflexivity|reflexivity].
  - left. reflexivity.
  - apply field_lacks. intros e [<-|[<-|[<-|[]]]] Q; try discriminate Q; reflexivity.
  - intros t M Q. discriminate Q.
  - apply field_lacks. intros e [<-|[<-|[<-|[]]]] Q; try discriminate Q; reflexivity.
  - apply field_lacks. intros e [<-|[<-|[<-|[]]]] Q; try discriminate Q; reflexivity.
  - apply field_lacks. intros e [<-|[<-|[<-|[]]]] Q; try discriminate Q; reflexivity.
  - apply field_lacks. intros e [<-|[<-|[<-|[]]]] Q; try discriminate Q; reflexivity.
  - intros t M Q. discriminate Q.
  - intros t M Q. discriminate Q.
  - intros t M Q. discriminate Q.
  - intros t M Q. discriminate Q.
  - apply list_field_lacks. intros e [<-|[<-|[<-|[]]]] Q; try discriminate Q; reflexivity.
  - apply (list_field_has "face" "vertex_index" es0 D0 (nth 2 es0 (nth 0 es0 {| ename := ""; esize := 0; eprops := [] |})) (nth 2 D0 []) INT32 UINT8); [right; right; left; reflexivity|reflexivity|left; reflexivity|reflexivity|].
    repeat constructor.
  - left. reflexivity.
  - right. left. discriminate.
Qed.
(** four vertices, two triangles, normals, four colours; the colours that come back *)
Example C97_nonvacuous_roundtrip :
  let V := [[1; 2; 3]; [4607182418800017408; 5; 6]; [7; 8; 9]; [1; 1; 1]]%Z in let C := [[10; 20; 30; 40]; [50; 60; 70; 80]; [90; 100; 110; 120]; [130; 140; 150; 160]]%Z in
  obind (write_ply (fun _ _ => "") V [[0; 1; 2]; [0; 2; 3]]%Z V C true) (fun s => read_ply geta0 "j"%char (fun z => z) s) = Ret (V, [[0; 1; 2]; [0; 2; 3]]%Z, V, [[10; 0; 0; 0]; [20; 0; 0; 0]; [30; 0; 0; 0]; [40; 0; 0; 0]]%Z).
Proof. vm_compute. reflexivity. Qed.
(** a number format as the theorem about text files wants it *)
Lemma shown z : (0 <= z)%Z -> wordy (show_int z).
Proof. intros H. rewrite <- (Z2Nat.id z H). apply show_wordy. Qed.
Lemma geta0_ok t z b r : (0 <= z)%Z -> all_space b = true -> ends r -> geta0 t (b ++ show_int z ++ r) = Some (z, r).
Proof. intros H B E. unfold geta0. rewrite (token_word b (show_int z) r B (shown z H) E). rewrite parse_show. reflexivity. Qed.
Example C97_nonvacuous_text : text_io geta0 (fun _ z => show_int z) (fun _ => True) (fun z => z).
Proof.
  split; intros.
  - apply shown. unfold in_range in *. tauto.
  - apply geta0_ok; unfold in_range in *; tauto.
  - apply geta0_ok; unfold in_range in *; tauto.
  - apply (geta0_ok UINT8 3); auto. discriminate.
  - assumption.
Qed.
