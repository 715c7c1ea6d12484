(** Model of the state of an Edit object, quickly/dom/edit.py 44-161: which document it has and how many changes it made, through a history of edits. *)
From Coq Require Import List Bool PeanoNat.
From Verif Require Import Base.
Import ListNotations.
Open Scope nat_scope.

(** What edit_range() (implemented by a subclass) does: ask for document(), start another edit with the same object, or fail. What it does to the nodes
    is in Cursor_Model and the models of the edits. (dom/edit.py 60-72, 81-161) *)
Inductive op :=
| Cursor (doc : nat) (body : list act) (changes : option nat)   (* edit_cursor (or edit_document): the changes that Element.edit() makes; None if it raises *)
| Range (body : list act)                                       (* edit_range() or edit_node(): no document *)
with act := Look | Do (o : op) | Raise.

(** The attributes [_document] and [_changes] (dom/edit.py 44-45). *)
Record obj := mk_obj { o_doc : option nat; o_changes : nat }.
(** dom/edit.py 44-45, with [obj] *)
Definition new_obj : obj := mk_obj None 0.

Section Edit.
Variable readonly : bool.
(** The object afterwards, what document() returned whenever it was asked for, and whether an exception was raised.  An exception in a nested edit
    is not caught. (dom/edit.py 81-150) *)
Fixpoint run (o : op) (s : obj) : obj * list (option nat) * bool :=
  let acts := fix acts (l : list act) (s : obj) : obj * list (option nat) * bool :=
    match l with
    | [] => (s, [], false)
    | Look :: r => let '(s', seen, x) := acts r s in (s', o_doc s :: seen, x)
    | Do o' :: r =>
        let '(s1, seen1, x1) := run o' s in
        if x1 then (s1, seen1, true) else let '(s2, seen2, x2) := acts r s1 in (s2, seen1 ++ seen2, x2)
    | Raise :: r => (s, [], true)
    end in
  match o with
  | Cursor doc body changes =>
      (* 124-131 *)
      let '(s1, seen, x) := acts body (mk_obj (Some doc) 0) in
      if x then (s1, seen, true)
      else if readonly then (mk_obj None (o_changes s1), seen, false)
      else match changes with
           | Some n => (mk_obj None n, seen, false)
           | None => (s1, seen, true)
           end
  | Range body => acts body s
  end.

(** Calls one after another; the caller catches exceptions. The results: what was seen in each, and whether it raised. (dom/edit.py 44-161) *)
Fixpoint history (l : list op) (s : obj) : obj * list (list (option nat) * bool) :=
  match l with
  | [] => (s, [])
  | o :: r => let '(s1, seen, x) := run o s in let '(s2, more) := history r s1 in (s2, (seen, x) :: more)
  end.
End Edit.
