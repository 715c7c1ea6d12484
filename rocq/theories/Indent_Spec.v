(** Specification of indented output, in terms of lines and nesting depth. *)
From Coq Require Import String Ascii List Arith Bool.
From Verif Require Import Base Element_Model Element_Spec Indent_Model.
Import ListNotations.

(** A document as a sequence of whitespace requests and texts; a text is a head or a tail,
    with its nesting depth: the number of its indenting ancestors; a head may have its own indent. *)
Inductive event := Want (w : str) | Say (is_tail : bool) (text : str) (depth : nat) (own : option nat).

Section Spec.
Variables indent_width start_indent : nat.
Variable indent_children : elem -> bool.
Variable override : elem -> option nat.
Variable concat_space : attrs -> elem -> elem -> str.

Definition head_text (a : attrs) : str := match a_head a with Ok s => s | Err _ => [] end.

(** [space_before], the head, [space_after_head] if something follows within the node, the children
    with [concat_space] between them, [space_before_tail], the tail, [space_after]. *)
Fixpoint flow (depth : nat) (e : elem) : list event :=
  match e with
  | E a kids =>
      let inner := if indent_children e then S depth else depth in
      [Want (a_before a)]
      ++ (if truthy (head_text a)
          then Say false (head_text a) depth (override e)
               :: match kids, a_tail a with [], [] => [] | _, _ => [Want (a_after_head a)] end
          else [])
      ++ (fix children (l : list elem) : list event :=
            match l with
            | [] => []
            | n :: r => flow inner n ++ match r with [] => [] | m :: _ => [Want (concat_space a n m)] end ++ children r
            end) kids
      ++ (if truthy (a_tail a) then [Want (a_before_tail a); Say true (a_tail a) depth None] else [])
      ++ [Want (a_after a)]
  end.

(** All heads can be written, and indenting nodes have a tail. *)
Fixpoint printable (e : elem) : Prop :=
  match e with
  | E a kids => (exists s, a_head a = Ok s) /\ (indent_children e = true -> a_tail a <> []) /\
      (fix all (l : list elem) : Prop := match l with [] => True | n :: r => printable n /\ all r end) kids
  end.

(** A line: its indent, whether it holds no heads (so far), and its pieces of text. *)
Record line := Line { l_indent : nat; l_tails : bool; l_pieces : list str }.

Definition indent_at (depth : nat) : nat := start_indent + indent_width * depth.

(** Lines are kept in reverse, the current line first.  Every newline starts a line with the indent for [depth]. *)
Fixpoint add_space (depth : nat) (w : str) (ls : list line) : list line :=
  match w with
  | [] => ls
  | c :: r =>
      add_space depth r
        (if Ascii.eqb c nl then Line (indent_at depth) true [] :: ls
         else match ls with [] => [] | l :: more => Line (l_indent l) (l_tails l) (l_pieces l ++ [[c]]) :: more end)
  end.

(** A head that is the first in a line determines its own indent if it wants to.  A line that starts with
    tails is indented like the outermost of those. *)
Definition add_piece (is_tail : bool) (text : str) (depth : nat) (own : option nat) (ls : list line) : list line :=
  match ls with
  | [] => []
  | l :: more =>
      Line (if is_tail then if l_tails l then Nat.min (l_indent l) (indent_at depth) else l_indent l
            else match l_pieces l, own with [], Some i => i | _, _ => l_indent l end)
           (l_tails l && is_tail)
           (l_pieces l ++ [text]) :: more
  end.

(** The lines for a document; whitespace after the last text is not written. *)
Inductive typeset : list str -> list line -> list event -> list line -> Prop :=
| ts_end ws ls : typeset ws ls [] ls
| ts_want ws ls w r out : typeset (ws ++ [w]) ls r out -> typeset ws ls (Want w :: r) out
| ts_say ws ls t text depth own g r out : strongest ws g ->
    typeset [] (add_piece t text depth own (add_space depth g ls)) r out ->
    typeset ws ls (Say t text depth own :: r) out.

(** The lines of a whole document, in order. *)
Definition document_lines (e : elem) (ls : list line) : Prop :=
  exists out, typeset [] [Line (indent_at 0) true []] (flow 0 e) out /\ ls = rev out.
End Spec.

Section Strip.
Variable is_space : ascii -> bool.
Definition blank_piece (p : str) : Prop := p <> [] /\ forall c, In c p -> is_space c = true.
(** [out] is [ls] without the space at the beginning. *)
Definition stripped (ls out : list line) : Prop :=
  (out = [] /\ Forall (fun l => Forall blank_piece (l_pieces l)) ls) \/
  exists front i t sp p ps more, ls = front ++ Line i t (sp ++ p :: ps) :: more /\ out = Line i t (p :: ps) :: more /\
    Forall (fun l => Forall blank_piece (l_pieces l)) front /\ Forall blank_piece sp /\ ~ blank_piece p.
End Strip.

(** The text of a line with an indent. *)
Definition line_text (indent : nat) (l : line) : str := repeat (ascii_of_nat 32) indent ++ concat (l_pieces l) ++ [ascii_of_nat 10].

(** The lines without indent, as one text. *)
Fixpoint join_lines (ls : list line) : str :=
  match ls with
  | [] => []
  | [l] => concat (l_pieces l)
  | l :: r => concat (l_pieces l) ++ ascii_of_nat 10 :: join_lines r
  end.

(** The same document as in Element_Spec: requests and texts. *)
Definition items (evs : list event) : list item :=
  map (fun ev => match ev with Want w => Req w | Say _ t _ _ => Txt (Frag None (Ok t) false) end) evs.

(** Elements without a head or a tail have none to write. *)
Fixpoint proper (e : elem) : Prop :=
  match e with
  | E a kids => (has_head a = false -> a_head a = Ok []) /\ (has_tail a = false -> a_tail a = []) /\
      (fix all (l : list elem) : Prop := match l with [] => True | n :: r => proper n /\ all r end) kids
  end.

(** A property of all nodes of a tree. *)
Fixpoint every_node (Q : elem -> Prop) (e : elem) : Prop :=
  Q e /\ match e with E _ kids => (fix all (l : list elem) : Prop := match l with [] => True | n :: r => every_node Q n /\ all r end) kids end.
