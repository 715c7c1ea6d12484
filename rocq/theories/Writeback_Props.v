(** C122: writing back to the document. *)
From Coq Require Import String Ascii List Arith Bool Lia.
From Verif Require Import Base Element_Model Element_Spec Element_Edits Element_Props Writeback_Model.
Import ListNotations.
Local Open Scope string_scope.
Local Open Scope list_scope.
Open Scope nat_scope.

Lemma loop_spec : forall cs d n, edit_loop cs d n = (Doc (d_text d) (d_root d) (rev cs ++ d_pending d), n + List.length cs).
Proof.
  induction cs as [|c r IH]; intros [t x p] n; cbn [edit_loop List.length rev app d_text d_root d_pending].
  - rewrite Nat.add_0_r. reflexivity.
  - rewrite IH. unfold assign. cbn [d_text d_root d_pending]. rewrite <- app_assoc. cbn [app]. f_equal. lia.
Qed.

(** The changes carried out from the last to the first give the text that has each
    region replaced. *)
Lemma splice_all : forall cs text from, in_order from cs -> from <= List.length text ->
  Forall (fun c => c_end c <= List.length text) cs ->
  fold_left splice (rev cs) text = firstn from text ++ apply_changes text from cs.
Proof.
  induction cs as [|c r IH]; intros text from O L F; cbn [rev apply_changes].
  - cbn [fold_left]. symmetry. apply firstn_skipn.
  - destruct O as (O1 & O2 & O3). inversion F as [|? ? F1 F2]; subst.
    rewrite fold_left_app. cbn [fold_left]. rewrite (IH text (c_end c)) by assumption.
    unfold splice.
    assert (LE : List.length (firstn (c_end c) text) = c_end c) by (apply firstn_length_le; lia).
    rewrite firstn_app, LE. replace (c_pos c - c_end c) with 0 by lia. cbn [firstn].
    rewrite firstn_firstn, Nat.min_l by lia. rewrite app_nil_r.
    rewrite skipn_app, LE, Nat.sub_diag. cbn [skipn].
    rewrite (skipn_all2 (firstn (c_end c) text)) by lia. cbn [app].
    unfold between. rewrite (app_assoc (firstn from text)). f_equal.
    rewrite <- (firstn_skipn from (firstn (c_pos c) text)) at 1.
    rewrite firstn_firstn, Nat.min_l by lia. f_equal. apply skipn_firstn_comm.
Qed.

Lemma skip_bound : forall tokens p pos d ts' pos' d' N,
  (forall t, In t tokens -> t_pos t <= N /\ t_end t <= N) -> pos <= N -> d <= N ->
  skip_tokens tokens p pos d = (ts', pos', d') -> pos' <= N /\ d' <= N /\ forall t, In t ts' -> In t tokens.
Proof.
  induction tokens as [|t r IH]; intros p pos d ts' pos' d' N B P D S; cbn [skip_tokens] in S.
  - injection S as <- <- <-. auto.
  - destruct (p <=? t_pos t).
    + injection S as <- <- <-. split; [apply (B t); left; reflexivity|]. split; [exact D|]. intros x I; right; exact I.
    + destruct (IH _ _ _ _ _ _ N (fun x I => B x (or_intror I)) P (proj2 (B t (or_introl eq_refl))) S) as (A1 & A2 & A3).
      split; [exact A1|]. split; [exact A2|]. intros x I; right; apply A3, I.
Qed.

Lemma last_end_ge : forall ts ps from, placed ts from ps -> from <= last_end from ps.
Proof.
  intros ts ps. induction ps as [|p r IH]; intros from PL; cbn [last_end placed] in *; [lia|].
  destruct (p_span p) as [[i j]|].
  - destruct PL as (A & B & _ & _ & PL). specialize (IH j PL). lia.
  - apply IH, PL.
Qed.

Lemma ends_bound : forall all N ps tokens pos stop a cs,
  (forall t, In t tokens -> t_pos t <= N /\ t_end t <= N) -> placed all pos ps -> last_end pos ps <= N -> stop <= N ->
  edits_loop ps tokens pos stop a = Ok cs -> Forall (fun c => c_end c <= N) cs.
Proof.
  intros all N ps. induction ps as [|p r IH]; intros tokens pos stop a cs B PL L ST E; cbn [edits_loop placed last_end] in *.
  - injection E as <-. destruct (pos <? stop); repeat constructor; exact ST.
  - destruct (p_span p) as [[i j]|].
    + destruct PL as (P1 & P2 & _ & _ & PL). pose proof (last_end_ge _ _ _ PL) as G.
      assert (PN : pos <= N) by lia.
      assert (H : exists tk before, (if pos <? i then
              let '(tokens, pos', del_end) := skip_tokens tokens i pos pos in
              (tokens, if pos <? del_end
               then [Change pos (if truthy (collapse_whitespace [a; p_before p]) && (del_end <? pos') then pos' else del_end) (collapse_whitespace [a; p_before p])]
               else [])
            else (tokens, if truthy (collapse_whitespace [a; p_before p]) then [Change i i (collapse_whitespace [a; p_before p])] else [])) = (tk, before)
            /\ (forall t, In t tk -> t_pos t <= N /\ t_end t <= N) /\ Forall (fun c => c_end c <= N) before).
      { destruct (pos <? i).
        - destruct (skip_tokens tokens i pos pos) as [[ts' pos'] d'] eqn:SK.
          destruct (skip_bound _ _ _ _ _ _ _ N B PN PN SK) as (A1 & A2 & A3).
          eexists _, _. split; [reflexivity|]. split; [intros t I; apply B, A3, I|].
          destruct (pos <? d'); repeat constructor. cbn [c_end]. destruct (_ && _)%bool; assumption.
        - eexists _, _. split; [reflexivity|]. split; [exact B|]. destruct (truthy _); repeat constructor. cbn [c_end]. lia. }
      destruct H as (tk & before & H1 & H2 & H3). rewrite H1 in E.
      destruct (if p_modified p then _ else _) as [m|] eqn:M; cbn [bindr] in E; [|discriminate].
      destruct (edits_loop r tk j stop (p_after p)) as [rest|] eqn:R; cbn [bindr] in E; [|discriminate].
      injection E as <-. apply Forall_app. split; [exact H3|]. apply Forall_app. split; [|exact (IH _ _ _ _ _ H2 PL L ST R)].
      destruct (p_modified p); [|injection M as <-; constructor].
      destruct (p_text p); cbn [bindr] in M; [|discriminate]. injection M as <-. repeat constructor. cbn [c_end]. lia.
    + destruct (p_text p) as [t|]; cbn [bindr] in E; [|discriminate].
      destruct (truthy t).
      * destruct (edits_loop r tokens pos stop (p_after p)) as [rest|] eqn:R; cbn [bindr] in E; [|discriminate].
        injection E as <-. constructor; [|exact (IH _ _ _ _ _ B PL L ST R)]. cbn [c_end].
        pose proof (last_end_ge _ _ _ PL). lia.
      * exact (IH _ _ _ _ _ B PL L ST E).
Qed.

(** The text of the document after [edit] is the old text with the region from the
    start on replaced by the new text of the points, and what comes after the region
    kept.  The result is the number of changes; the document has no open changes
    left. *)
Theorem C122_text : forall concat_space e ps d context start end_ limit,
  let x := match context with Some x => x | None => d_root d end in
  let text := d_text d in
  let tokens := x_tokens x in
  let pos := match start with Some s => s | None => x_pos x end in
  let stop := match end_ with Some s => s | None => x_end x end in
  d_pending d = [] ->
  (forall t, In t tokens -> t_pos t <= t_end t <= List.length text) -> stop <= List.length text ->
  points concat_space e = Ok ps ->
  source text tokens pos limit -> last_end pos ps <= limit -> placed tokens pos ps ->
  Forall writable ps -> Forall (fun p => blank (p_before p) /\ blank (p_after p)) ps ->
  exists cs s d', edits concat_space e (x_pos x) (x_end x) tokens start end_ = Ok cs /\
    edit concat_space e d context start end_ = (d', Ok (List.length cs)) /\
    rewritten text [] ps s /\
    d_text d' = firstn pos text ++ s ++ skipn (Nat.max (last_end pos ps) stop) text /\ d_pending d' = [].
Proof.
  intros cs0 e ps d ctx start end_ limit x text tokens pos stop PE TB SB P SO LE PL W B.
  destruct (C51_edits cs0 e ps text tokens (x_pos x) (x_end x) start end_ limit P SO LE PL W B) as (cs & s & E & O & R & A).
  fold pos in O, A. fold stop in A.
  assert (F : Forall (fun c => c_end c <= List.length text) cs).
  { unfold edits in E. fold pos stop in E. rewrite P in E. cbn [bindr] in E.
    refine (ends_bound tokens _ ps tokens pos stop [] cs _ PL _ SB E).
    - intros t I. specialize (TB t I). lia.
    - destruct SO as (_ & _ & SO & _). lia. }
  unfold edit. fold x. fold tokens. exists cs, s. eexists.
  split; [exact E|]. rewrite E, loop_spec. split; [reflexivity|]. split; [exact R|].
  unfold leave. cbn [d_text d_pending]. split; [|reflexivity].
  rewrite PE, app_nil_r. fold text.
  rewrite (splice_all cs text 0); [exact A| |lia|exact F].
  apply (in_order_mono _ _ pos); [lia|exact O].
Qed.
Print Assumptions C122_text.

(** Nothing was modified: nothing is changed and the result is zero. *)
Theorem C122_unmodified : forall concat_space e ps d context start end_,
  let x := match context with Some x => x | None => d_root d end in
  let pos := match start with Some s => s | None => x_pos x end in
  let stop := match end_ with Some s => s | None => x_end x end in
  d_pending d = [] -> points concat_space e = Ok ps ->
  tokens_from 0 (x_tokens x) -> cuts_no_token (x_tokens x) pos -> placed (x_tokens x) pos ps ->
  untouched (x_tokens x) pos [] ps -> stop <= last_end pos ps ->
  edit concat_space e d context start end_ = (d, Ok 0).
Proof.
  intros cs0 e ps [t x0 p] ctx start end_ x pos stop PE P T C PL U L. cbn [d_pending] in PE. subst p.
  unfold edit. fold x. rewrite (C52_unmodified cs0 e ps (x_tokens x) (x_pos x) (x_end x) start end_ P T C PL U L). reflexivity.
Qed.
Print Assumptions C122_unmodified.

(** The whole is carried out or nothing: when a text cannot be written the exception
    is raised and the document is as it was; when the result is zero also. *)
Theorem C122_atomic : forall concat_space e d context start end_ d' r,
  d_pending d = [] -> edit concat_space e d context start end_ = (d', r) ->
  d_pending d' = [] /\ d_root d' = d_root d /\ ((r = Ok 0 \/ exists err, r = Err err) -> d' = d).
Proof.
  intros cs0 e [t x p] ctx start end_ d' r PE E. cbn [d_pending] in PE. subst p. unfold edit in E. cbn [d_root] in E.
  destruct (edits _ _ _ _ _ _ _) as [cs|err].
  - rewrite loop_spec in E. cbn [Nat.add] in E. injection E as <- <-. cbn. split; [reflexivity|]. split; [reflexivity|].
    intros [H|[err H]]; [|discriminate]. destruct cs; [reflexivity|discriminate].
  - injection E as <- <-. cbn. auto.
Qed.
Print Assumptions C122_atomic.

Lemma loop_raises : forall p err ps tokens pos stop a,
  In p ps -> p_span p = None \/ p_modified p = true -> p_text p = Err err ->
  exists err', edits_loop ps tokens pos stop a = Err err'.
Proof.
  intros p err ps. induction ps as [|q r IH]; intros tokens pos stop a I H T; [destruct I|].
  cbn [edits_loop]. destruct I as [->|I].
  - destruct (p_span p) as [[i j]|].
    + destruct H as [H|H]; [discriminate|].
      match goal with |- context [let '(_, _) := ?c in _] => destruct c as [tk bf] end.
      rewrite H, T. cbn [bindr]. eauto.
    + rewrite T. cbn [bindr]. eauto.
  - destruct (p_span q) as [[i j]|].
    + match goal with |- context [let '(_, _) := ?c in _] => destruct c as [tk bf] end.
      destruct (if p_modified q then _ else _) as [m|]; cbn [bindr]; [|eauto].
      destruct (IH tk j stop (p_after q) I H T) as [e' ->]. cbn [bindr]. eauto.
    + destruct (p_text q) as [t|]; cbn [bindr]; [|eauto]. destruct (truthy t); [|exact (IH _ _ _ _ I H T)].
      destruct (IH tokens pos stop (p_after q) I H T) as [e' ->]. cbn [bindr]. eauto.
Qed.

(** A new or modified text that cannot be written: an exception is raised and nothing
    is changed, whatever the other nodes are. *)
Theorem C122_raise : forall concat_space e ps d context start end_ p err,
  d_pending d = [] -> points concat_space e = Ok ps -> In p ps ->
  p_span p = None \/ p_modified p = true -> p_text p = Err err ->
  exists err', edit concat_space e d context start end_ = (d, Err err').
Proof.
  intros cs0 e ps [t x q] ctx start end_ p err PE P I H T. cbn [d_pending] in PE. subst q.
  unfold edit, edits. rewrite P. cbn [bindr].
  match goal with |- context [edits_loop ?a ?b ?c ?d ?e] => destruct (loop_raises p err a b c d e I H T) as [e' ->] end.
  exists e'. reflexivity.
Qed.
Print Assumptions C122_raise.

(** A new node without text after a change of another one. *)
Example C122_raise_witness :
  let bad := E (Attrs Head 4 (Err ValueError) [] None None false false [] [] [] [] []) [] in
  let d := Doc (txt "a") (Context 0 1 [Tok 0 1]) [] in
  edit concat_default (plain 0 " " "" [at_ 1 "b" 0 1 true; bad]) d None None None = (d, Err ValueError) /\
  exists d', edit concat_default (plain 0 " " "" [at_ 1 "b" 0 1 true]) d None None None = (d', Ok 1) /\ d_text d' = txt "b".
Proof. cbv zeta. split; [reflexivity|]. eexists. split; reflexivity. Qed.

(** "a b c" with b removed, c changed to "xx" and "n" added at the end; the context
    is the root. *)
Definition the_doc := Doc (txt "a b c ") (Context 0 5 [Tok 0 1; Tok 2 3; Tok 4 5]) [].
Definition the_tree := plain 0 " " "" [at_ 1 "a" 0 1 false; at_ 3 "xx" 4 5 true; leaf 4 "n" "" ""].
Example C122_witness :
  (exists ps, points concat_default the_tree = Ok ps /\ source (d_text the_doc) (x_tokens (d_root the_doc)) 0 5 /\
    last_end 0 ps <= 5 /\ placed (x_tokens (d_root the_doc)) 0 ps /\ Forall writable ps /\
    Forall (fun p => blank (p_before p) /\ blank (p_after p)) ps) /\
  (forall t, In t (x_tokens (d_root the_doc)) -> t_pos t <= t_end t <= List.length (d_text the_doc)) /\
  edit concat_default the_tree the_doc None None None =
    (Doc (txt "a xx n ") (Context 0 5 [Tok 0 1; Tok 2 3; Tok 4 5]) [], Ok 3).
Proof.
  split; [eexists; split; [reflexivity|split; [|split; [|split; [|split]]]]|split].
  - repeat split; try (cbn; lia).
    + intros t I. right. lia.
    + intros i c L O N. destruct i as [|[|[|[|[|i]]]]]; cbn in N; try (injection N as <-; reflexivity); exfalso.
      * apply (O (Tok 0 1)); cbn; [auto|lia].
      * apply (O (Tok 2 3)); cbn; [auto|lia].
      * apply (O (Tok 4 5)); cbn; [auto|lia].
      * lia.
  - cbn. lia.
  - cbn. repeat split; try lia.
    + exists (Tok 0 1). cbn. auto.
    + intros t [<-|[<-|[<-|[]]]]; cbn; lia.
    + exists (Tok 4 5). cbn. auto.
    + intros t [<-|[<-|[<-|[]]]]; cbn; lia.
  - repeat constructor; intros _; eexists; reflexivity.
  - repeat constructor; intros c I; cbn in I; repeat (destruct I as [<-|I]; [reflexivity|]); destruct I.
  - intros t [<-|[<-|[<-|[]]]]; cbn; lia.
  - reflexivity.
Qed.

(** Finding: the result counts the changes, also those that change nothing: a node
    given the text it already has counts as one. *)
Theorem C122_count_finding :
  let e := plain 0 " " "" [at_ 1 "a" 0 1 true] in
  let d := Doc (txt "a") (Context 0 1 [Tok 0 1]) [] in
  edit concat_default e d None None None = (d, Ok 1).
Proof. reflexivity. Qed.
Print Assumptions C122_count_finding.
