(** Model of replace_unknown() in quickly/dom/util.py 137-150, and of writing with Unknown elements (dom/base.py 159-190). *)
From Coq Require Import String Ascii List Bool PeanoNat.
From Verif Require Import Base.
Import ListNotations.
Open Scope nat_scope.

(** An element: an Unknown with its position and end in the source and no children, a Text with its text, whether it is modified, and its origin, or
    another element with its identity, its head and tail texts and its children. (for [replace_unknown], dom/util.py 147-150) *)
Inductive el := Unknown (pos stop : nat) | Text (text : str) (modified : bool) (pos stop : nat) | Other (id : nat) (head tail : str) (kids : list el).

(** [text[pos:stop]]. (for [replace_unknown], dom/util.py 147-150) *)
Definition slice (pos stop : nat) (text : str) : str := firstn (stop - pos) (skipn pos text).

(** dom/util.py 147-150: [for n in tree // Unknown], with [n.replace_with(t)]. The iteration is by index in each list of children, so that replacing the
    current child does not disturb it; the replaced node has no children to enter.  The tree itself is not a descendant. *)
Fixpoint replace_unknown (text : str) (tree : el) : el :=
  match tree with
  | Other i h t kids =>
      Other i h t (map (fun n => match n with
                                 | Unknown pos stop => Text (slice pos stop text) true pos stop
                                 | _ => replace_unknown text n
                                 end) kids)
  | _ => tree
  end.

(** The text written (without whitespace between parts); base.py 186-190: write_head() of an Unknown raises RuntimeError. *)
Fixpoint write (e : el) : res str :=
  match e with
  | Unknown _ _ => Err RuntimeError
  | Text s _ _ _ => Ok s
  | Other _ h t kids =>
      let! l := (fix all (l : list el) : res str :=
                   match l with [] => Ok [] | x :: r => let! a := write x in let! b := all r in Ok (a ++ b) end) kids in
      Ok (h ++ l ++ t)
  end.
