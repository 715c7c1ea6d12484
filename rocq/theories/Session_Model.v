(** Model of edits of one document, one after another: the tree is kept by the document between edits
    (quickly/dom/edit.py 92-131, docs/source/quicklydom.rst 443-500). *)
From Coq Require Import List Arith Ascii Bool.
From Verif Require Import Base Element_Model Writeback_Model.
Import ListNotations.
Open Scope nat_scope.

(** What one call of Edit.edit_cursor() does (dom/edit.py 92-131): [o_body] is edit_range(): the tree after it (it is changed in place) and the exception that it
    raised, if any; [o_part] gives the ancestor of the range in the tree; [o_range] the start and end that were found for the selection. *)
Record op := Op {
  o_body : elem -> elem * option exn;
  o_part : elem -> elem;
  o_range : elem -> option nat * option nat;
  o_readonly : bool }.

Section Session.
Variable concat_space : attrs -> elem -> elem -> str.
(** What parce makes of a text: the root context and the transformed tree. *)
Variable lex : str -> context.
Variable transform : str -> elem.

(** A parce document (dom/edit.py 108): its text and root context, and the tree that is kept. *)
Record session := Session { s_doc : doc; s_tree : elem }.
(** A document that was just loaded, for dom/edit.py 108: the tree is made from the text. *)
Definition load (text : str) : session := Session (Doc text (lex text) []) (transform text).

(** dom/edit.py 108-131 edit_cursor.  get_transform() (108) gives the kept tree.  Only when the text is changed a new tree is made.  Simplified: parce
    makes new only the parts of the tree that the change affects. *)
Definition edit_cursor (o : op) (s : session) : session * res nat :=
  let tree := s_tree s in
  let '(tree', raised) := o_body o tree in
  match raised with
  | Some err => (Session (s_doc s) tree', Err err)
  | None =>
      if o_readonly o then (Session (s_doc s) tree', Ok 0)
      else
        let '(start, stop) := o_range o tree in
        match edit concat_space (o_part o tree') (s_doc s) None start stop with
        | (d, Ok 0) => (Session d tree', Ok 0)
        | (d, Ok n) => (load (d_text d), Ok n)
        | (d, Err err) => (Session d tree', Err err)
        end
  end.

(** Calls of edit_cursor() (dom/edit.py 92-131) one after another; exceptions are caught by the caller. *)
Fixpoint edit_all (l : list op) (s : session) : session * list (res nat) :=
  match l with
  | [] => (s, [])
  | o :: r => let '(s, n) := edit_cursor o s in let '(s, ns) := edit_all r s in (s, n :: ns)
  end.
End Session.
