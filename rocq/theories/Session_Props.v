(** C140: edits of one document after another. *)
From Coq Require Import String Ascii List Arith Bool Lia.
From Verif Require Import Base Element_Model Element_Props Writeback_Model Writeback_Props Session_Model.
Import ListNotations.
Open Scope nat_scope.

Section Session.
Variable concat_space : attrs -> elem -> elem -> str.
Variable lex : str -> context.
Variable transform : str -> elem.
Notation edit_cursor := (edit_cursor concat_space lex transform).
Notation edit_all := (edit_all concat_space lex transform).
Notation load := (load lex transform).

(** ** Specification *)
(** The edits done each on a document that is loaded just before: [each texts l text']. *)
Inductive each : str -> list op -> str -> list (res nat) -> Prop :=
| each_none text : each text [] text []
| each_more text o s n r text' ns : edit_cursor o (load text) = (s, n) -> each (d_text (s_doc s)) r text' ns -> each text (o :: r) text' (n :: ns).
(** An edit that ends well on this text: it does not raise and writes what it changed in the tree (at least one change), or it leaves the tree as it is. *)
Definition ends_well (o : op) (text : str) : Prop :=
  fst (o_body o (transform text)) = transform text \/
  (o_readonly o = false /\ exists s n, edit_cursor o (load text) = (s, Ok (S n))).
Fixpoint end_well (l : list op) (text : str) : Prop :=
  match l with
  | [] => True
  | o :: r => ends_well o text /\ forall s n, edit_cursor o (load text) = (s, n) -> end_well r (d_text (s_doc s))
  end.
(** An edit that does nothing but write the tree. *)
Definition write_only : op := Op (fun t => (t, None)) (fun t => t) (fun _ => (None, None)) false.

(** ** C140 *)
(** An edit that raises, that is readonly, or that makes no changes leaves the text as it is; so does any edit that reports an exception. *)
Theorem C140_text_kept : forall o text s r, edit_cursor o (load text) = (s, r) ->
  o_readonly o = true \/ r = Ok 0 \/ (exists err, r = Err err) -> d_text (s_doc s) = text.
Proof.
  intros o text s r E H. unfold Session_Model.edit_cursor in E. cbn [Session_Model.load s_tree s_doc] in E. destruct (o_body o (transform text)) as [t' [err|]] eqn:B; [injection E as <- _; reflexivity|].
  destruct (o_readonly o) eqn:RO; [injection E as <- _; reflexivity|]. destruct (o_range o (transform text)) as [a b].
  destruct (edit concat_space (o_part o t') (Doc text (lex text) []) None a b) as [d q] eqn:W. pose proof (fun H => C122_atomic concat_space _ _ _ _ _ _ _ H W) as K0; destruct (K0 eq_refl) as (_ & _ & K).
  destruct q as [[|n]|err].
  - injection E as <- _. rewrite (K (or_introl eq_refl)). reflexivity.
  - injection E as <- <-. destruct H as [H|[H|(err & H)]]; discriminate.
  - injection E as <- _. rewrite (K (or_intror (ex_intro _ err eq_refl))). reflexivity.
Qed.

Lemma well_loads o text s r : ends_well o text -> edit_cursor o (load text) = (s, r) -> s = load (d_text (s_doc s)).
Proof.
  intros W E. unfold Session_Model.edit_cursor in E. cbn [Session_Model.load s_tree s_doc] in E. unfold ends_well in W. destruct (o_body o (transform text)) as [t' x] eqn:B. cbn [fst] in W.
  destruct W as [->|(RO & s1 & n & W)].
  - destruct x as [err|]; [injection E as <- _; reflexivity|]. destruct (o_readonly o); [injection E as <- _; reflexivity|]. destruct (o_range o (transform text)) as [a b].
    destruct (edit concat_space (o_part o (transform text)) (Doc text (lex text) []) None a b) as [d q] eqn:W. pose proof (fun H => C122_atomic concat_space _ _ _ _ _ _ _ H W) as K0; destruct (K0 eq_refl) as (_ & _ & K).
    destruct q as [[|n]|err]; injection E as <- _.
    + rewrite (K (or_introl eq_refl)). reflexivity.
    + reflexivity.
    + rewrite (K (or_intror (ex_intro _ err eq_refl))). reflexivity.
  - unfold Session_Model.edit_cursor in W. cbn [Session_Model.load s_tree s_doc] in W. rewrite B in W. destruct x as [err|]; [discriminate|]. rewrite RO in *. destruct (o_range o (transform text)) as [a b].
    destruct (edit concat_space (o_part o t') (Doc text (lex text) []) None a b) as [d [[|m]|err]]; try discriminate. injection E as <- _. reflexivity.
Qed.
(** Edits that end well do not influence each other: a sequence of them on one document gives the same text and the same results as when the document is loaded
    again before each of them.
    Missing for the full claim: edits that raise, are readonly or make no changes although they changed the tree (C140_leftover_finding). *)
Theorem C140_independent_partial : forall l text, end_well l text ->
  exists text' ns, each text l text' ns /\ edit_all l (load text) = (load text', ns).
Proof.
  induction l as [|o r IH]; intros text W.
  - exists text, []. split; [constructor|reflexivity].
  - destruct W as [W N]. cbn [Session_Model.edit_all]. destruct (edit_cursor o (load text)) as [s n] eqn:E. rewrite (well_loads o text s n W E).
    destruct (IH (d_text (s_doc s)) (N s n eq_refl)) as (text' & ns & A & B). rewrite B. exists text', (n :: ns). split; [|reflexivity]. econstructor; [exact E|exact A].
Qed.

(** Finding: what an edit changed in the tree before it raised, or what a readonly edit changed, stays there; the next edit writes it to the text, though it does not
    change anything itself. *)
Theorem C140_leftover_finding : forall o text t' x d n,
  o_body o (transform text) = (t', x) -> (exists err, x = Some err) \/ o_readonly o = true ->
  edit concat_space t' (Doc text (lex text) []) None None None = (d, Ok n) ->
  exists s r, edit_all [o; write_only] (load text) = (s, [r; Ok n]) /\ d_text (s_doc s) = d_text d.
Proof.
  intros o text t' x d n B H W. cbn [Session_Model.edit_all].
  assert (E : exists r, edit_cursor o (load text) = (Session (Doc text (lex text) []) t', r)).
  { unfold Session_Model.edit_cursor. cbn [Session_Model.load s_tree s_doc]. rewrite B. destruct x as [err|]; [eauto|]. destruct H as [(err & H)|H]; [discriminate|]. rewrite H. eauto. }
  destruct E as (r & ->). unfold Session_Model.edit_cursor. cbn [s_tree s_doc write_only o_body o_readonly o_range o_part]. rewrite W.
  destruct n; (eexists; exists r; split; [reflexivity|reflexivity]).
Qed.
End Session.
Print Assumptions C140_text_kept.
Print Assumptions C140_independent_partial.
Print Assumptions C140_leftover_finding.

(** ** Examples *)
Local Open Scope string_scope.
Local Open Scope list_scope.
(** Texts of three characters: two notes with a space between. *)
Definition lex2 (text : str) : context := Context 0 3 [Tok 0 1; Tok 2 3].
Definition tree2 (text : str) : elem :=
  plain 0 " " "" (map (fun x => E (Attrs Head (fst x) (Ok (firstn 1 (skipn (snd x) text))) [] (Some [Tok (snd x) (snd x + 1)]) None false false [] [] [] [] []) []) [(1, 0); (2, 2)]).
(** Set the head of child [k]. *)
Definition set_head (k : nat) (t : string) (e : elem) : elem :=
  match e with
  | E a kids => E a (map (fun c => match c with E b l => if Nat.eqb (a_id b) k then E (Attrs Head k (Ok (txt t)) [] (a_head_origin b) None true false [] [] [] [] []) l else c end) kids)
  end.
Definition setting (k : nat) (t : string) (raised : option exn) (readonly : bool) : op := Op (fun e => (set_head k t e, raised)) (fun e => e) (fun _ => (None, None)) readonly.
Example C140_witness :
  let run l := let '(s, ns) := edit_all concat_default lex2 tree2 l (load lex2 tree2 (txt "c d")) in (d_text (s_doc s), ns) in
  end_well concat_default lex2 tree2 [setting 1 "e" None false; setting 2 "f" None false; write_only] (txt "c d") /\
  run [setting 1 "e" None false; setting 2 "f" None false; write_only] = (txt "e f", [Ok 1; Ok 1; Ok 0]) /\
  run [setting 1 "e" (Some KeyError) false] = (txt "c d", [Err KeyError]) /\
  run [setting 1 "e" (Some KeyError) false; setting 2 "f" None false] = (txt "e f", [Err KeyError; Ok 2]) /\
  run [setting 1 "e" None true; write_only] = (txt "e d", [Ok 0; Ok 1]).
Proof.
  split; [|repeat split; vm_compute; reflexivity].
  split; [right; split; [reflexivity|]; eexists; exists 0; vm_compute; reflexivity|]. intros s n E. vm_compute in E. injection E as <- <-.
  split; [right; split; [reflexivity|]; eexists; exists 0; vm_compute; reflexivity|]. intros s n E. vm_compute in E. injection E as <- <-.
  split; [left; reflexivity|]. intros s n E. exact I.
Qed.
