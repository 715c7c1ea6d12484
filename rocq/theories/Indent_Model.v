(** Model of quickly/dom/indent.py: indented output of a node. *)
From Coq Require Import String Ascii List Arith PeanoNat Bool.
From Verif Require Import Base Element_Model.
Import ListNotations.

(** indent.py:29-49 _IndentLevel; [align_positions] is a dictionary, later entries
    are put in front, so the first one for an index counts. *)
Record level := Level { align_indices : list nat; align_positions : list (nat * nat) }.

(** dom/indent.py 35-37 align_child *)
Definition align_child (l : level) (index pos : nat) : level := Level (align_indices l) ((index, pos) :: align_positions l).

(** for [align_pos_loop], dom/indent.py 39-49 *)
Fixpoint lookup (d : list (nat * nat)) (k : nat) : option nat :=
  match d with [] => None | (j, v) :: r => if Nat.eqb j k then Some v else lookup r k end.

(** dom/indent.py 39-49 get_align_pos: the loop over the indices *)
Fixpoint align_pos_loop (d : list (nat * nat)) (indices : list nat) : option nat :=
  match indices with [] => None | i :: r => match lookup d i with Some p => Some p | None => align_pos_loop d r end end.
(** dom/indent.py 39-49, with [align_pos_loop] *)
Definition get_align_pos (l : level) : option nat := align_pos_loop (align_positions l) (align_indices l).

(** dom/indent.py 52-69 _Block *)
Record block := Blk { b_indent : nat; b_line : list str }.

(** dom/indent.py 63-65 offset *)
Definition offset (b : block) (pos : nat) : nat := list_sum (map (@length ascii) (firstn pos (b_line b))).

(** dom/indent.py 67-69 output *)
Definition block_output (b : block) : str := repeat sp (b_indent b) ++ concat (b_line b) ++ [nl].

(** The working variables (dom/indent.py 105-111).  The lists [_output], [_indent_stack] and
    [_indenters] are kept in reverse: the last item is the head; [i_ded] is the
    negative of [_dedenters]. *)
Record state := State {
  i_output : list block;
  i_stack : list nat;
  i_indenters : list level;
  i_ded : nat;
  i_ws : list str;
  i_can : bool }.

(** [del l[-n]] on a list kept in reverse; IndexError if there is no such item. (for [output_tail], dom/indent.py 257-264) *)
Fixpoint del_nth (n : nat) (l : list nat) : res (list nat) :=
  match n, l with
  | _, [] => Err IndexError
  | 0, _ :: r => Ok r
  | S n, x :: r => let! r := del_nth n r in Ok (x :: r)
  end.

(** dom/base.py 68-77 SinglelineComment.indent_override, of the text that write_head() returns; other elements: None (dom/element.py 766-774) *)
Definition comment_override (text : str) : option nat :=
  match firstn 3 text with
  | [a; b; c] => if Ascii.eqb a b && Ascii.eqb b c then Some 0 else None
  | _ => None
  end.

Section Indenter.
(** The attributes (96-103). *)
Variables indent_width start_indent max_align_indent : nat.
(** What the node's methods yield: [indent_children] (element.py:741 and overrides), [indent_align_indices]
    (748), [indent_override] (766) and [concat_space] (595).  Any functions are covered. *)
Variable indent_children : elem -> bool.
Variable align : elem -> list nat.
Variable override : elem -> option nat.
Variable concat_space : attrs -> elem -> elem -> str.

(** dom/indent.py 194-199 current_indent *)
Definition current_indent (stack : list nat) : nat := match stack with [] => start_indent | x :: _ => x end.

(** dom/indent.py 211-218: the loop over the indenters, oldest first *)
Fixpoint push_levels (ls : list level) (output : list block) (new_indent current : nat) (stack : list nat) : res (list nat) :=
  match ls with
  | [] => Ok stack
  | i :: r =>
      let new_indent := new_indent + indent_width in
      let! new_indent :=
        match get_align_pos i with
        | None => Ok new_indent
        | Some pos =>
            match output with
            | [] => Err IndexError
            | b :: _ => let a := offset b pos in Ok (if a <=? max_align_indent then current + a else new_indent)
            end
        end in
      push_levels r output new_indent current (new_indent :: stack)
  end.

(** dom/indent.py 201-224 create_new_block.  The stack is in reverse: [del stack[-n:]] drops the
    first [n] items. *)
Definition create_new_block (s : state) : res state :=
  let stack := skipn (i_ded s) (i_stack s) in
  let! stack := push_levels (rev (i_indenters s)) (i_output s) (current_indent stack) (current_indent stack) stack in
  Ok (State (Blk (current_indent stack) [] :: i_output s) stack [] 0 (i_ws s) (match stack with [] => false | _ => true end)).

(** Append a piece of text to the last line; [_output[-1]]. (for [space_loop], dom/indent.py 228-232) *)
Definition append_text (s : state) (t : str) : res state :=
  match i_output s with
  | [] => Err IndexError
  | b :: r => Ok (State (Blk (b_indent b) (b_line b ++ [t]) :: r) (i_stack s) (i_indenters s) (i_ded s) (i_ws s) (i_can s))
  end.

(** dom/indent.py 228-232 *)
Fixpoint space_loop (w : str) (s : state) : res state :=
  match w with
  | [] => Ok s
  | c :: r =>
      let! s := if Ascii.eqb c nl then create_new_block s else append_text s [c] in
      space_loop r s
  end.

(** dom/indent.py 226-233 output_space *)
Definition output_space (s : state) : res state :=
  let! s := space_loop (collapse_whitespace (i_ws s)) s in
  Ok (State (i_output s) (i_stack s) (i_indenters s) (i_ded s) [] (i_can s)).

(** dom/indent.py 179-181 add_whitespace *)
Definition add_whitespace (w : str) (s : state) : state :=
  State (i_output s) (i_stack s) (i_indenters s) (i_ded s) (i_ws s ++ [w]) (i_can s).

(** dom/indent.py 235-255 output_head; the index is None for -1 *)
Definition output_head (text : str) (index : option nat) (over : option nat) (s : state) : res state :=
  let! s := output_space s in
  match i_output s with
  | [] => Err IndexError
  | b :: r =>
      let indent := match b_line b, over with [], Some o => o | _, _ => b_indent b end in
      let indenters :=
        match i_indenters s, index with
        | l :: ls, Some i => if existsb (Nat.eqb i) (align_indices l) then align_child l i (length (b_line b)) :: ls else l :: ls
        | ls, _ => ls
        end in
      Ok (State (Blk indent (b_line b ++ [text]) :: r) (i_stack s) indenters (i_ded s) (i_ws s) false)
  end.

(** dom/indent.py 257-264 output_tail *)
Definition output_tail (text : str) (s : state) : res state :=
  let! s := output_space s in
  let! s :=
    if i_can s && negb (Nat.eqb (i_ded s) 0) then
      let! stack := del_nth (i_ded s - 1) (i_stack s) in
      match i_output s with
      | [] => Err IndexError
      | b :: r => Ok (State (Blk (current_indent stack) (b_line b) :: r) stack (i_indenters s) 0 (i_ws s) (i_can s))
      end
    else Ok s in
  append_text s text.

(** dom/indent.py 183-185 enter_indent *)
Definition enter_indent (e : elem) (s : state) : state :=
  State (i_output s) (i_stack s) (Level (align e) [] :: i_indenters s) (i_ded s) (i_ws s) (i_can s).

(** dom/indent.py 187-192 leave_indent *)
Definition leave_indent (s : state) : state :=
  match i_indenters s with
  | _ :: ls => State (i_output s) (i_stack s) ls (i_ded s) (i_ws s) (i_can s)
  | [] => State (i_output s) (i_stack s) [] (S (i_ded s)) (i_ws s) (i_can s)
  end.

(** dom/indent.py 140-177 output_node; [write_head] may raise (base.Unknown) *)
Fixpoint output_node (e : elem) (index : option nat) (s : state) : res state :=
  match e with
  | E a kids =>
      let! head := a_head a in
      let tail := a_tail a in
      let has_children := negb (Nat.eqb (length kids) 0) in
      let s := add_whitespace (a_before a) s in
      let! s :=
        if truthy head then
          let! s := output_head head index (override e) s in
          Ok (if truthy tail || has_children then add_whitespace (a_after_head a) s else s)
        else Ok s in
      let s := if indent_children e then enter_indent e s else s in
      let! s :=
        (fix children (l : list elem) (prev : option elem) (i : nat) (s : state) : res state :=
           match l with
           | [] => Ok s
           | m :: r =>
               let s := match prev with None => s | Some n => add_whitespace (concat_space a n m) s end in
               let! s := output_node m (Some i) s in
               children r (Some m) (S i) s
           end) kids None 0 s in
      let s := if indent_children e then leave_indent s else s in
      let! s := if truthy tail then output_tail tail (add_whitespace (a_before_tail a) s) else Ok s in
      Ok (add_whitespace (a_after a) s)
  end.

(** str.isspace, for the given class of space characters *)
Variable is_space : ascii -> bool.
(** dom/indent.py 140-177, with [output_node] *)
Definition isspace (s : str) : bool := truthy s && forallb is_space s.

(** dom/indent.py 127-136: the while loop that deletes leading space pieces and empty lines *)
Fixpoint strip_line (l : list str) : list str :=
  match l with [] => [] | p :: r => if isspace p then strip_line r else p :: r end.
(** dom/indent.py 127-136, with [strip_line] *)
Fixpoint strip (bs : list block) : list block :=
  match bs with
  | [] => []
  | b :: r => match strip_line (b_line b) with [] => strip r | l => Blk (b_indent b) l :: r end
  end.

(** dom/indent.py 113-138 write; [s] is what an earlier call left behind: everything is
    cleared but [_can_dedent] (119-123) *)
Definition indenter_write (s : state) (e : elem) : res str :=
  let! s := create_new_block (State [] [] [] 0 [] (i_can s)) in
  let! s := output_node e None s in
  Ok (concat (map block_output (strip (rev (i_output s))))).
End Indenter.
