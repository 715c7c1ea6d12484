(** Model of Edit.edit_cursor of quickly/dom/edit.py (92-131): the range that is
    edited and the part of the text that is written. *)
From Coq Require Import List Arith Bool.
From Verif Require Import Base Node_Model Find_Model Range_Model.
Import ListNotations.

(** parce.Cursor: pos and end, and has_selection().  An end of None: [edit_open_cursor]. (for [edit_cursor], dom/edit.py 109-126) *)
Record cursor := Cursor { c_pos : nat; c_end : nat }.
(** for [edit_cursor], dom/edit.py 109-126 *)
Definition has_selection (c : cursor) : bool := negb (c_pos c =? c_end c).

Section Cursor.
Context {B : Type}.
(** the nodes as objects, with their parents *)
Variable h : heap B.
(** the attributes of the Edit object *)
Variables range_from_root range_from_cursor : bool.

(** dom/edit.py 109-126: the ancestor and the trails given to the Range, [start] and [end].
    A node is always true, so [if start_node] asks for None.  The document is [d],
    with the positions of its nodes; in [h] are the same nodes (by their identity). *)
Definition edit_cursor (fuel : nat) (d : pn) (c : cursor) :
  res ((nat * option (list nat) * option (list nat)) * (option nat * option nat)) :=
  let whole := Ok ((pid d, None, None), (None, None)) in
  if has_selection c then
    let! start_node := find_descendant_right (c_pos c) d in
    let! end_node := find_descendant_left (c_end c) d in
    match start_node, end_node with
    | None, None => whole
    | _, _ =>
        let! r := from_nodes fuel h (option_map pid start_node) (option_map pid end_node) range_from_root in
        Ok (r, (match start_node with Some n => pos n | None => None end, match end_node with Some n => pend n | None => None end))
    end
  else if range_from_cursor then
    let! start_node := find_descendant_right (c_pos c) d in
    match start_node with
    | Some n => let! r := from_nodes fuel h (Some (pid n)) None false in Ok (r, (None, None))
    | None => whole
    end
  else whole.

(** dom/element.py 455-471 find_descendant_left(None): the position of the last child that has one is compared with None *)
Definition left_of_none (d : pn) : res (option pn) :=
  if existsb (fun n => match pos n with Some _ => true | None => false end) (pkids d) then Err TypeError else Ok None.
(** dom/edit.py 109-126 with a cursor that has an end of None: parce counts this as a selection that goes on to the end of the text *)
Definition edit_open_cursor (fuel : nat) (d : pn) (p : nat) : res ((nat * option (list nat) * option (list nat)) * (option nat * option nat)) :=
  let! start_node := find_descendant_right p d in
  let! end_node := left_of_none d in
  match start_node, end_node with
  | None, None => Ok ((pid d, None, None), (None, None))
  | _, _ =>
      let! r := from_nodes fuel h (option_map pid start_node) (option_map pid end_node) range_from_root in
      Ok (r, (match start_node with Some n => pos n | None => None end, match end_node with Some n => pend n | None => None end))
  end.
End Cursor.
