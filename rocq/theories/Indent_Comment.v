(** Property C58, for comments: a comment with three comment characters that starts a line starts at the margin. *)
From Coq Require Import String Ascii List Arith Bool Lia.
From Verif Require Import Base Element_Model Element_Spec Heads_Model Indent_Model Indent_Spec Indent_Proofs Indent_Props.
Import ListNotations.
Open Scope nat_scope.

(** The text starts with three times the same character. *)
Definition triple (text : str) : Prop := exists c r, text = c :: c :: c :: r.

(** The comment elements of LilyPond, LaTeX ([%]) and Scheme ([;]) with a head that starts with two more comment characters, and only these, have an indent
    of their own, which is 0. *)
Theorem C58_comment : forall c head, (comment_override (single_write c head) = Some 0 <-> exists r, head = c :: c :: r) /\
  ((exists r, head = c :: c :: r) \/ comment_override (single_write c head) = None).
Proof.
  intros c head. unfold comment_override, single_write. destruct head as [|a [|b r]]; cbn [app firstn].
  - split; [split; [discriminate|intros (r & [=])]|right; reflexivity].
  - split; [split; [discriminate|intros (r & [=])]|right; reflexivity].
  - destruct (Ascii.eqb_spec c a) as [<-|N1]; cbn [andb]; [destruct (Ascii.eqb_spec c b) as [<-|N2]|].
    + split; [split; [intros _; eauto|reflexivity]|left; eauto].
    + split; [split; [discriminate|intros (r' & [=]); congruence]|right; reflexivity].
    + split; [split; [discriminate|intros (r' & [=]); congruence]|right; reflexivity].
Qed.
Lemma override_triple text : comment_override text = Some 0 <-> triple text.
Proof.
  unfold comment_override, triple. destruct text as [|a [|b [|c r]]]; cbn [firstn]; try (split; [discriminate|intros (x & r' & [=])]).
  destruct (Ascii.eqb_spec a b) as [<-|N1]; cbn [andb]; [destruct (Ascii.eqb_spec a c) as [<-|N2]|]; (split; [|intros (x & r' & [=]); subst]); try discriminate; try congruence; eauto.
Qed.

Section Margin.
Variables iw si : nat.
Variable ic : elem -> bool.
Variable ov : elem -> option nat.
Variable cs : attrs -> elem -> elem -> str.

Definition margin (l : line) : Prop := match l_pieces l with p :: _ => triple p -> l_indent l = 0 | [] => True end.
Lemma margin_space depth w : forall ls, Forall margin ls -> Forall margin (add_space iw si depth w ls).
Proof.
  induction w as [|c w IH]; intros ls F; [exact F|]. cbn [add_space]. apply IH. destruct (Ascii.eqb c nl); [constructor; [exact I|exact F]|].
  destruct F as [|l ls M F]; [constructor|]. constructor; [|exact F]. unfold margin in *. cbn [l_pieces l_indent].
  destruct (l_pieces l) as [|p ps]; cbn [app]; [intros (x & r & [=])|exact M].
Qed.
Lemma margin_typeset ws ls evs out : typeset iw si ws ls evs out ->
  Forall (fun ev => match ev with Say t text _ own => triple text -> t = false /\ own = Some 0 | _ => True end) evs -> Forall margin ls -> Forall margin out.
Proof.
  induction 1 as [ws ls|ws ls w r out T IH|ws ls t text depth own g r out S T IH]; intros E M; [exact M|inversion E; subst; auto|].
  inversion E as [|? ? Q E']; subst. apply IH; [exact E'|]. pose proof (margin_space depth g ls M) as G.
  destruct (add_space iw si depth g ls) as [|l more]; [constructor|]. inversion G as [|? ? ML MM]; subst. cbn [add_piece]. constructor; [|exact MM].
  unfold margin in *. cbn [l_pieces l_indent]. destruct (l_pieces l) as [|p ps]; cbn [app].
  - intros Tr. destruct (Q Tr) as [-> ->]. reflexivity.
  - intros Tr. rewrite (ML Tr). destruct t; [destruct (l_tails l); reflexivity|reflexivity].
Qed.
Lemma flow_says (P : bool -> str -> option nat -> Prop) : forall e depth,
  every_node (fun n => match n with E a k => P false (head_text a) (ov n) /\ P true (a_tail a) None end) e ->
  Forall (fun ev => match ev with Say t text _ own => P t text own | _ => True end) (flow ic ov cs depth e).
Proof.
  fix IH 1. intros [a kids] depth [[H1 H2] HK]. cbn [flow]. constructor; [exact I|].
  apply Forall_app. split.
  { destruct (truthy (head_text a)); [|constructor]. constructor; [exact H1|]. destruct kids, (a_tail a); repeat constructor. }
  apply Forall_app. split.
  { set (inner := if ic (E a kids) then S depth else depth). clearbody inner. clear H1 H2. induction kids as [|n r IHr]; [constructor|]. destruct HK as [HN HR].
    apply Forall_app. split; [apply IH; exact HN|]. apply Forall_app. split; [destruct r; repeat constructor|]. apply IHr. exact HR. }
  apply Forall_app. split; [|repeat constructor]. destruct (truthy (a_tail a)); [|constructor]. constructor; [exact I|]. constructor; [exact H2|constructor].
Qed.
End Margin.

(** In the output every line that starts with such a comment has no indent, at any depth, when the comments are the elements that have a text that starts
    that way.  (At the beginning of a document whitespace is removed, so the first line may start with a comment that did not start the line.) *)
Theorem C58_margin : forall iw si ma ic align ov cs is_space s0 e, printable ic e -> every_node (unaligned ic align) e ->
  every_node (fun n => match n with E a k => (triple (head_text a) -> ov n = comment_override (head_text a)) /\ ~ triple (a_tail a) end) e ->
  exists ls out, document_lines iw si ic ov cs e ls /\ stripped is_space ls out /\
    indenter_write iw si ma ic align ov cs is_space s0 e = Ok (concat (map (fun l => line_text (l_indent l) l) out)) /\
    forall l p ps, In l ls -> l_pieces l = p :: ps -> triple p -> l_indent l = 0.
Proof.
  intros iw si ma ic align ov cs is_space s0 e P U O. destruct (C58_indent iw si ma ic align ov cs is_space s0 e P U) as (ls & out & D & S & W).
  exists ls, out. split; [exact D|]. split; [exact S|]. split; [exact W|]. destruct D as (o & T & ->).
  assert (M : Forall margin o).
  { eapply margin_typeset; [exact T| |constructor; [exact I|constructor]].
    apply (flow_says ic ov cs (fun t text own => triple text -> t = false /\ own = Some 0)).
    revert O. clear. revert e. fix IH 1. intros [a k] [[H1 H2] HK]. split.
    - split; [intros Tr; split; [reflexivity|]; rewrite (H1 Tr); apply override_triple; exact Tr|intros Tr; destruct (H2 Tr)].
    - clear H1 H2. induction k as [|n r IHr]; [exact I|]. destruct HK as [HN HR]. split; [apply IH; exact HN|apply IHr; exact HR]. }
  intros l p ps J E Tr. apply in_rev in J. pose proof (proj1 (Forall_forall _ _) M l J) as ML. unfold margin in ML. rewrite E in ML. exact (ML Tr).
Qed.
Print Assumptions C58_comment. Print Assumptions C58_margin.

Local Open Scope string_scope.
Definition com (t : string) : elem := E (Attrs Head 1 (Ok (txt' t)) [] None None false false [] [] [] [] (txt' nls)) [].
Definition ov_ex (e : elem) : option nat := comment_override (head_text (attrs_of e)).
Example C58_margin_witness :
  let e := blk nls [note "a"; com "% b"; com "%%% c"; note "d"] in
  printable ic_ex e /\ every_node (unaligned ic_ex (fun _ => [])) e /\
  every_node (fun n => match n with E a k => (triple (head_text a) -> ov_ex n = comment_override (head_text a)) /\ ~ triple (a_tail a) end) e /\
  indenter_write 2 0 16 ic_ex (fun _ => []) ov_ex concat_default is_ws (State [] [] [] 0 [] false) e = Ok (lines_of ["{"; "  a"; "  % b"; "%%% c"; "  d"; "}"]).
Proof.
  split; [|split; [|split; [|reflexivity]]]; cbn; repeat split; try discriminate; eauto; intros (x & r & [=]).
Qed.
