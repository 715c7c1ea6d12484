(** Writing the modifications of a tree back to the document it was read from
    (quickly/dom/element.py 662-685). *)
From Coq Require Import List Arith Ascii.
From Verif Require Import Base Element_Model.
Import ListNotations.
Open Scope nat_scope.

(** element.py:678-684: the parts of a parce document that [edit] uses: its text,
    the root context (position, end and tokens), and the changes assigned inside
    [with document], newest first.  Simplified: the lexer is not modelled, so the
    context is a given part of the document. *)
Record context := Context { x_pos : nat; x_end : nat; x_tokens : list token }.
(** element.py:678-684, see [context] *)
Record doc := Doc { d_text : str; d_root : context; d_pending : list change }.

(** element.py:683 [document[pos:end] = text] inside [with document]: parce only
    records the assignment. *)
Definition assign (d : doc) (c : change) : doc := Doc (d_text d) (d_root d) (c :: d_pending d).

(** element.py:681: one recorded assignment carried out on the text *)
Definition splice (text : str) (c : change) : str :=
  firstn (c_pos c) text ++ c_text c ++ skipn (c_end c) text.

(** element.py:681, the end of [with document]: parce carries out the recorded
    assignments from the last to the first, all positions being those of the old text. *)
Definition leave (d : doc) : doc := Doc (fold_left splice (d_pending d) (d_text d)) (d_root d) [].

(** element.py:681, [with document] left by an exception: parce forgets the
    assignments. *)
Definition abandon (d : doc) : doc := Doc (d_text d) (d_root d) [].

(** element.py:682-684, the loop *)
Fixpoint edit_loop (cs : list change) (d : doc) (n : nat) : doc * nat :=
  match cs with
  | [] => (d, n)
  | c :: r => edit_loop r (assign d c) (n + 1)
  end.

(** element.py:662-685 edit.  Simplified: [edits] is a generator that can raise
    after some changes; those are only recorded and then forgotten, so they are
    left out here. *)
Definition edit (concat_space : attrs -> elem -> elem -> str) (e : elem) (d : doc)
    (context : option context) (start end_ : option nat) : doc * res nat :=
  let x := match context with None => d_root d | Some x => x end in
  match edits concat_space e (x_pos x) (x_end x) (x_tokens x) start end_ with
  | Ok cs => let (d, n) := edit_loop cs d 0 in (leave d, Ok n)
  | Err err => (abandon d, Err err)
  end.
