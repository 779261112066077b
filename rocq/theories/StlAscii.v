(** The ASCII grammar and the ASCII writer. *)
From Coq Require Import String Ascii List ZArith Bool Lia Arith.
From Verif Require Import TextModel StlModel StlProofs.
Import ListNotations.
Open Scope string_scope.

(** the keyword lines of an STL file *)
Inductive token := TSolid | TEndSolid | TNormal | TEndFacet | TLoop | TEndLoop | TVertex (p : point).
Section Ascii.
Variable getf : string -> option (Z * string).
Variable junk : ascii.
Definition reads (line : string) (t : token) : Prop :=
  match t with
  | TSolid => starts "solid" line = true
  | TEndSolid => starts "endsolid" line = true
  | TNormal => starts "facet normal" line = true /\ exists p, three_values getf (trim (drop 12 line)) = Some p
  | TEndFacet => starts "endfacet" line = true
  | TLoop => starts "outer loop" line = true
  | TEndLoop => starts "endloop" line = true
  | TVertex p => starts "vertex" line = true /\ three_values getf (trim (drop 6 line)) = Some p
  end.
Definition keywords : list string := ["solid"; "endsolid"; "facet normal"; "endfacet"; "outer loop"; "endloop"; "vertex"].
Definition comment (line : string) : Prop := forall k, In k keywords -> starts k line = false.
Inductive tokens : list string -> list token -> Prop :=
| tokens_nil : tokens [] []
| tokens_comment l ls ts : comment l -> tokens ls ts -> tokens (l :: ls) ts
| tokens_line l ls t ts : reads l t -> tokens ls ts -> tokens (l :: ls) (t :: ts).

(** ** one line *)
Definition mk s f l n k w c o : machine := {| solid := s; inFacet := f; inLoop := l; solids := n; loops := k; verts := w; v := c; out := o |}.
Definition stepT (t : token) (m : machine) : option machine :=
  match m with {| solid := s; inFacet := f; inLoop := l; solids := n; loops := k; verts := w; v := c; out := o |} =>
  match t with
  | TSolid => if s || negb (Nat.eqb n 0) then None else Some (mk true f l n k w c o)
  | TEndSolid => if negb s || f || l then None else Some (mk false f l (S n) k w c o)
  | TNormal => if negb s || l || f then None else Some (mk s true l n k w c o)
  | TEndFacet => if negb s || l || negb f || negb (Nat.eqb k 1) then None else Some (mk s false l n 0 w c (o ++ [c])%list)
  | TLoop => if negb s || negb f || l then None else Some (mk s f true n k w c o)
  | TEndLoop => if negb s || negb f || negb l || negb (Nat.eqb w 3) then None else Some (mk s f false n (S k) 0 c o)
  | TVertex p => if negb s || negb f || negb l || Nat.leb 3 w then None else Some (mk s f l n k (S w) (set_corner w p c) o)
  end end.
Lemma starts_head a k b l : starts (String a k) (String b l) = true -> a = b.
Proof. cbn. destruct (Ascii.eqb_spec a b); [auto|discriminate]. Qed.
(** the keywords exclude one another *)
Lemma excl k k' l : In k keywords -> In k' keywords -> starts k l = true -> k <> k' -> starts k' l = false.
Proof.
  intros I I' H N. destruct (starts k' l) eqn:E; [|reflexivity]. exfalso.
  assert (P : forall p q l, starts p l = true -> starts q l = true -> starts p q = true \/ starts q p = true).
  { induction p as [|a p IH]; intros q s A B; [now left|]. destruct q as [|b q]; [now right|]. destruct s as [|c s]; [discriminate|].
    cbn in A, B. apply andb_prop in A as [A1 A2]. apply andb_prop in B as [B1 B2]. apply Ascii.eqb_eq in A1, B1. subst. cbn. rewrite !Ascii.eqb_refl. cbn. eauto. }
  destruct (P k k' l H E) as [Q|Q]; cbn in I, I'; repeat (destruct I as [<-|I]; [repeat (destruct I' as [<-|I']; [first [congruence|discriminate Q]|]); contradiction|]); contradiction.
Qed.
Ltac kw := cbn [keywords In]; tauto.
Ltac off HS H l := match type of HS with starts ?k l = true =>
  repeat match type of H with context [starts ?k' l] => lazymatch k' with k => fail | _ => let Q := fresh in assert (Q : starts k' l = false) by (apply (excl k k' l); [kw|kw|exact HS|discriminate]); rewrite Q in H; clear Q; cbn [obind] in H end end; rewrite ?HS in H; cbn [obind solid inFacet inLoop solids loops verts v out] in H end.
Lemma on_line_ret l m m' : on_line getf l m = Ret m' <-> (comment l /\ m' = m) \/ exists t, reads l t /\ stepT t m = Some m'.
Proof.
  split.
  - unfold on_line. intros H.
    assert (C : (exists k, In k keywords /\ starts k l = true) \/ comment l).
    { unfold comment. destruct (existsb (fun k => starts k l) keywords) eqn:E; [left; apply existsb_exists in E; exact E|right].
      intros k I. destruct (starts k l) eqn:Q; [|reflexivity]. assert (existsb (fun k => starts k l) keywords = true) by (apply existsb_exists; eauto). congruence. }
    unfold on_solid, on_endsolid, on_normal, on_endfacet, on_loop, on_endloop, on_vertex in H.
    destruct C as [(k & I & HS)|C].
    + right. destruct m as [s f lo n k0 w c o]. cbn [keywords In] in I. cbn [solid inFacet inLoop solids loops verts v out] in H.
      destruct I as [<-|[<-|[<-|[<-|[<-|[<-|[<-|[]]]]]]]]; off HS H l.
      * exists TSolid. split; [exact HS|]. cbn. destruct (s || negb (Nat.eqb n 0)); [discriminate|].
        cbn [obind] in H. off HS H l. injection H as <-. reflexivity.
      * exists TEndSolid. split; [exact HS|]. cbn. destruct (negb s || f || lo); [discriminate|].
        cbn [obind] in H. off HS H l. injection H as <-. reflexivity.
      * destruct (negb s || lo || f) eqn:G; [discriminate|]. destruct (three_values getf (trim (drop 12 l))) as [p|] eqn:T; [|discriminate].
        exists TNormal. split; [split; [exact HS|eauto]|]. cbn [stepT solid inFacet inLoop solids loops verts v out]. rewrite G.
        cbn [obind] in H. off HS H l. injection H as <-. reflexivity.
      * exists TEndFacet. split; [exact HS|]. cbn. destruct (negb s || lo || negb f || negb (Nat.eqb k0 1)); [discriminate|].
        cbn [obind] in H. off HS H l. injection H as <-. reflexivity.
      * exists TLoop. split; [exact HS|]. cbn. destruct (negb s || negb f || lo); [discriminate|].
        cbn [obind] in H. off HS H l. injection H as <-. reflexivity.
      * exists TEndLoop. split; [exact HS|]. cbn. destruct (negb s || negb f || negb lo || negb (Nat.eqb w 3)); [discriminate|].
        cbn [obind] in H. off HS H l. injection H as <-. reflexivity.
      * destruct (negb s || negb f || negb lo || Nat.leb 3 w) eqn:G; [discriminate|]. destruct (three_values getf (trim (drop 6 l))) as [p|] eqn:T; [|discriminate].
        exists (TVertex p). split; [split; auto|]. cbn [stepT solid inFacet inLoop solids loops verts v out]. rewrite G. injection H as <-. reflexivity.
    + left. split; auto. rewrite !C in H by kw. cbn [obind] in H. repeat (rewrite !C in H by kw; cbn [obind] in H). congruence.
  - unfold on_line, on_solid, on_endsolid, on_normal, on_endfacet, on_loop, on_endloop, on_vertex. intros [[C ->]|(t & R & HS)].
    + repeat (rewrite !C by kw; cbn [obind]). reflexivity.
    + destruct m as [s f lo n k0 w c o].
      cbn [solid inFacet inLoop solids loops verts v out].
      destruct t; cbn [reads] in R; try match type of R with _ /\ _ => destruct R as [R ER] end; try match type of ER with ex _ => destruct ER as [q ER] end;
      repeat (match goal with |- context [starts ?k' l] => match type of R with starts ?k l = true => lazymatch k' with k => rewrite R | _ => let Q := fresh in assert (Q : starts k' l = false) by (apply (excl k k' l); [kw|kw|exact R|discriminate]); rewrite Q; clear Q end end end; cbn [obind solid inFacet inLoop solids loops verts v out]);
      cbn [stepT] in HS; rewrite ?ER;
      match type of HS with (if ?b then _ else _) = _ => destruct b; [discriminate|] end; cbn [obind];
      repeat (match goal with |- context [starts ?k' l] => match type of R with starts ?k l = true => lazymatch k' with k => rewrite R | _ => let Q := fresh in assert (Q : starts k' l = false) by (apply (excl k k' l); [kw|kw|exact R|discriminate]); rewrite Q; clear Q end end end; cbn [obind solid inFacet inLoop solids loops verts v out]);
      injection HS as <-; reflexivity.
Qed.
Fixpoint run (ls : list string) (m : machine) : outcome (list facet) :=
  match ls with [] => finish m | l :: r => obind (on_line getf l m) (run r) end.
Fixpoint runT (ts : list token) (m : machine) : outcome (list facet) :=
  match ts with [] => finish m | t :: r => match stepT t m with Some m' => runT r m' | None => Code 0 end end.
Lemma run_tokens ls : forall m fs, run ls m = Ret fs <-> exists ts, tokens ls ts /\ runT ts m = Ret fs.
Proof.
  induction ls as [|l ls IH]; intros m fs; cbn [run].
  - split; [intros H; exists []; split; [constructor|exact H]|]. intros (ts & T & H). inversion T; subst. exact H.
  - split.
    + destruct (on_line getf l m) as [m'|] eqn:E; cbn [obind]; [|discriminate]. intros H. apply IH in H as (ts & T & H).
      apply on_line_ret in E as [[C ->]|(t & R & S)]; [exists ts; split; [now constructor|exact H]|]. exists (t :: ts). split; [now constructor|]. cbn. rewrite S. exact H.
    + intros (ts & T & H). inversion T as [|l' ls' ts' C T' E1 E2|l' ls' t ts' R T' E1 E2]; subst.
      * assert (E : on_line getf l m = Ret m) by (apply on_line_ret; left; auto). rewrite E. cbn [obind]. apply IH. eauto.
      * cbn in H. destruct (stepT t m) as [m'|] eqn:S; [|discriminate]. assert (E : on_line getf l m = Ret m') by (apply on_line_ret; right; eauto). rewrite E. cbn [obind]. apply IH. eauto.
Qed.

(** ** the grammar *)
Definition facet_tokens (f : facet) : list token := let '(a, b, c) := f in [TNormal; TLoop; TVertex a; TVertex b; TVertex c; TEndLoop; TEndFacet].
Lemma trap ts : forall l k w c o fs, (k >= 2 \/ (k = 1 /\ l = true))%nat -> runT ts (mk true true l 0 k w c o) <> Ret fs.
Proof.
  induction ts as [|t ts IH]; intros l k w c o fs K; [discriminate|]. cbn [runT].
  destruct t; unfold mk; cbn [stepT negb orb].
  - discriminate.
  - discriminate.
  - destruct l; discriminate.
  - destruct l; [discriminate|]. destruct K as [K|[_ K]]; [|discriminate]. destruct (Nat.eqb_spec k 1); [lia|discriminate].
  - destruct l; [discriminate|]. apply IH. destruct K as [K|[_ K]]; [now left|discriminate].
  - destruct l; [|discriminate]. cbn [negb orb]. destruct (Nat.eqb w 3); [|discriminate]. cbn [negb]. apply IH. lia.
  - destruct l; [|discriminate]. cbn [negb orb]. destruct (Nat.leb 3 w); [discriminate|]. apply IH. auto.
Qed.
Lemma over : forall ts c o fs, runT ts (mk false false false 1 0 0 c o) = Ret fs -> ts = [] /\ fs = o.
Proof. intros [|t ts] c o fs H; [injection H as <-; auto|]. destruct t; discriminate. Qed.
Lemma body : forall n ts c o fs, (List.length ts <= n)%nat -> runT ts (mk true false false 0 0 0 c o) = Ret fs ->
  exists gs, fs = (o ++ gs)%list /\ ts = (flat_map facet_tokens gs ++ [TEndSolid])%list.
Proof.
  induction n as [|n IH]; intros ts c o fs L H; (destruct ts as [|t ts]; [discriminate|]); [cbn in L; lia|]. cbn in L.
  destruct t; try discriminate.
  - cbn in H. apply over in H as [-> ->]. exists []. rewrite app_nil_r. auto.
  - cbn in H. destruct ts as [|t ts]; [discriminate|]. destruct t; try discriminate. cbn in H.
    destruct ts as [|t ts]; [discriminate|]. destruct t; try discriminate. cbn in H.
    destruct ts as [|t ts]; [discriminate|]. destruct t; try discriminate. cbn in H.
    destruct ts as [|t ts]; [discriminate|]. destruct t; try discriminate. cbn in H.
    destruct ts as [|t ts]; [discriminate|]. destruct t; try discriminate. cbn in H.
    destruct ts as [|t ts]; [discriminate|]. destruct t; try discriminate.
    + cbn in H. destruct c as [[c0 c1] c2]. cbn [set_corner] in H. apply IH in H as (gs & -> & ->); [|cbn in L; lia]. exists ((p, p0, p1) :: gs). rewrite <- app_assoc. split; reflexivity.
    + cbn in H. exfalso. revert H. apply trap. lia.
Qed.
Lemma body_ok gs : forall c o, runT (flat_map facet_tokens gs ++ [TEndSolid]) (mk true false false 0 0 0 c o) = Ret (o ++ gs)%list.
Proof.
  induction gs as [|[[a b] c] gs IH]; intros [[c0 c1] c2] o; [cbn; rewrite app_nil_r; reflexivity|].
  cbn. unfold mk in IH. rewrite IH. rewrite <- app_assoc. reflexivity.
Qed.
Lemma grammar ts fs : runT ts start = Ret fs <-> ts = (TSolid :: flat_map facet_tokens fs ++ [TEndSolid])%list.
Proof.
  split.
  - destruct ts as [|t ts]; [discriminate|]. destruct t; try discriminate. cbn. intros H. eapply body in H; [|apply Nat.le_refl]. destruct H as (gs & -> & ->). reflexivity.
  - intros ->. cbn. exact (body_ok fs _ []).
Qed.

(** ** from the bytes to the lines *)
(** the lines of a file: split at newlines; the byte that could not be read at the end of the file is added to the last one, unless it is a newline *)
Definition junk_end : string := if Ascii.eqb junk NL then "" else String junk "".
Fixpoint with_end (ls : list string) : list string := match ls with [] => [] | [l] => [l ++ junk_end] | l :: r => l :: with_end r end.
Definition file_lines (s : string) : list string := with_end (split_on NL s).
Lemma split_cons c s : exists p ps, split_on c s = p :: ps.
Proof. induction s as [|a s (p & ps & E)]; cbn; eauto. rewrite E. destruct (Ascii.eqb a c); eauto. Qed.
Lemma next_line_spec s : forall n p ps, split_on NL s = p :: ps -> (n + String.length p <= 257)%nat ->
  match ps with
  | [] => next_line junk n s = Line (p ++ junk_end) None \/ (n + String.length p = 257)%nat
  | _ => exists r, next_line junk n s = Line p (Some r) /\ split_on NL r = ps /\ (String.length s = String.length p + S (String.length r))%nat
  end.
Proof.
  unfold junk_end. induction s as [|a s IH]; intros n p ps E L; cbn [split_on next_line] in *.
  - injection E as <- <-. destruct (Ascii.eqb junk NL); [left; reflexivity|]. cbn in L. destruct (Nat.ltb_spec 256 n); [right; cbn; lia|left; reflexivity].
  - destruct (Ascii.eqb a NL).
    + injection E as <- <-. destruct (split_cons NL s) as (q & qs & Q). rewrite Q. exists s. split; [reflexivity|]. split; [exact Q|reflexivity].
    + destruct (split_cons NL s) as (q & qs & Q). rewrite Q in E. injection E as <- <-. cbn in L. destruct (Nat.ltb_spec 256 n); [lia|].
      specialize (IH (S n) q qs Q ltac:(lia)). destruct qs as [|x qs].
      * destruct IH as [->|IH]; [left; reflexivity|right; cbn; lia].
      * destruct IH as (r & -> & R & LE). exists r. cbn. rewrite LE. auto.
Qed.
Definition short (ls : list string) : Prop := Forall (fun l => (String.length l <= 256)%nat) ls.
Lemma read_lines_run fuel : forall s m, (String.length s + 1 < fuel)%nat -> short (split_on NL s) -> read_lines getf junk fuel (Some s) m = run (map trim (file_lines s)) m.
Proof.
  induction fuel as [|k IH]; intros s m L SH; [lia|]. unfold file_lines. destruct (split_cons NL s) as (p & ps & E). rewrite E in *. inversion SH as [|? ? S1 S2]; subst.
  pose proof (next_line_spec s 0 p ps E ltac:(lia)) as N. cbn [read_lines]. destruct ps as [|q qs].
  - destruct N as [->|N]; [|lia]. cbn [with_end map run]. destruct (on_line getf (trim (p ++ junk_end)) m); cbn [obind]; [|reflexivity]. destruct k; reflexivity.
  - destruct N as (r & -> & R & LE). cbn [with_end map run]. fold with_end. destruct (on_line getf (trim p) m) as [m'|]; cbn [obind]; [|reflexivity].
    rewrite IH by (rewrite ?R; auto; lia). unfold file_lines. rewrite R. reflexivity.
Qed.
Lemma read_ascii_run s : short (split_on NL s) -> read_ascii getf junk s = run (map trim (file_lines s)) start.
Proof. intros H. unfold read_ascii. apply read_lines_run; auto; lia. Qed.
(** a line that is too long, and is not the last one *)
Lemma next_line_long s : forall n p ps, split_on NL s = p :: ps -> (n <= 257)%nat -> (257 < n + String.length p)%nat -> next_line junk n s = TooLong.
Proof.
  induction s as [|a s IH]; intros n p ps E N L; cbn [split_on next_line] in *; [injection E as <- <-; cbn in L; lia|].
  destruct (Ascii.eqb a NL); [injection E as <- <-; cbn in L; lia|].
  destruct (Nat.ltb_spec 256 n); [reflexivity|]. destruct (split_cons NL s) as (q & qs & Q). rewrite Q in E. injection E as <- <-. cbn in L.
  rewrite (IH (S n) q qs Q) by lia. reflexivity.
Qed.
Lemma read_lines_long fuel : forall s m, (exists l, In l (split_on NL s) /\ (257 < String.length l)%nat) -> (String.length s + 1 < fuel)%nat -> forall fs, read_lines getf junk fuel (Some s) m <> Ret fs.
Proof.
  induction fuel as [|k IH]; intros s m (l & I & B) L fs; [lia|]. destruct (split_cons NL s) as (p & ps & E). rewrite E in I. cbn [read_lines].
  destruct (le_lt_dec (String.length p) 257) as [C|C].
  - destruct I as [<-|I]; [lia|]. pose proof (next_line_spec s 0 p ps E ltac:(lia)) as N. destruct ps as [|q qs]; [destruct I|].
    destruct N as (r & -> & R & LE). destruct (on_line getf (trim p) m) as [m'|]; cbn [obind]; [|discriminate]. apply IH; [|lia]. exists l. rewrite R. auto.
  - rewrite (next_line_long s 0 p ps E) by lia. discriminate.
Qed.
End Ascii.
