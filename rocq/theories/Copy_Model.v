(** Model of copying, of the origin and the modified flag, and of the Python dump of quickly/dom/element.py. *)
From Coq Require Import String Ascii List Arith PeanoNat Bool.
From Verif Require Import Base Element_Model.
Import ListNotations.

(** The base class of a class: Element (dom/element.py 150), HeadElement (796), BlockElement (831) or TextElement (862). *)
Inductive base := BPlain | BHead | BBlock | BText.

Section Copy.
(** The type of head values. *)
Variable V : Type.
(** Python's == on them *)
Variable veqb : V -> V -> bool.
(** What the element classes define: the base class, the defaults of the spacing properties (142-146, inherited by subclasses; numbered 0 before,
    1 after_head, 2 between, 3 before_tail, 4 after), what the constructor makes of the head value (889-892: nothing; lily.py 1713-1716, 1794-1797: a
    fraction), and what write_head() and write_tail() return.  No class of the package looks at anything else than the
    head in write_head(), and write_tail() is not overridden. *)
Variable base_of : nat -> base.
Variable default : nat -> nat -> str.
Variable init_head : nat -> V -> V.
Variable write_head : nat -> option V -> res str.
Variable write_tail : nat -> str.

(** An element: its class; the head (None if it is not a TextElement); the own spacing dictionary ([_space], dom/element.py 79-127); the origins (None when the attribute
    does not exist); and the two bits of the modified flag (75-76), which exists for a TextElement only and reads as 0 otherwise (165). *)
Record inst := Inst {
  i_cls : nat;
  i_head : option V;
  i_space : space_dict;
  i_head_origin : option (list token);
  i_tail_origin : option (list token);
  i_modified : bool * bool }.
(** dom/element.py 150-176 *)
Inductive obj := Obj (i : inst) (kids : list obj).
(** dom/element.py 150-176 *)
Definition inst_of (o : obj) : inst := match o with Obj i _ => i end.
(** dom/element.py 150-176 *)
Definition kids_of (o : obj) : list obj := match o with Obj _ k => k end.

(** dom/element.py 173-176, 889-892 the constructor, with the keyword arguments for the spacing properties *)
Definition construct (c : nat) (head : option V) (attrs : list (nat * str)) : inst :=
  Inst c (option_map (init_head c) head) (fold_left (fun d kv => space_set (default c) d (fst kv) (snd kv)) attrs None) None None (false, false).

(** dom/element.py 186, 196, 923, 927: [getattr(self, '_spacing', {})].  The dictionary is the attribute [_space]; there is no attribute
    [_spacing], and the slots (161) do not allow to set one. *)
Definition spacing_argument (i : inst) : list (nat * str) := [].

(** dom/element.py 178-186 Element.copy, 915-923 TextElement.copy, with_children=True *)
Fixpoint copy (o : obj) : obj :=
  match o with Obj i kids => Obj (construct (i_cls i) (i_head i) (spacing_argument i)) (map copy kids) end.
(** The same with with_children=False. (dom/element.py 178-186) *)
Definition copy_single (o : obj) : obj := Obj (construct (i_cls (inst_of o)) (i_head (inst_of o)) (spacing_argument (inst_of o))) [].

(** Can the attribute head_origin, tail_origin, _head and _modified be set (dom/element.py 798, 833, 875)? *)
Definition has_head_origin (c : nat) : bool := match base_of c with BPlain => false | _ => true end.
(** dom/element.py 798, 833, 875, with [has_head_origin] *)
Definition has_tail_origin (c : nat) : bool := match base_of c with BBlock => true | _ => false end.
(** dom/element.py 798, 833, 875, with [has_head_origin] *)
Definition has_modified (c : nat) : bool := match base_of c with BText => true | _ => false end.

(** dom/element.py 200-232 copy_origin_from.  The first except clause is reached when the other has no head_origin or this one cannot have it, and the same for the
    tail origin; the second one when this one has no modified flag. *)
Definition copy_origin_from (self other : inst) (modified : option bool) : inst :=
  let '(ho, to, flag) :=
    match i_head_origin other with
    | Some h =>
        if has_head_origin (i_cls self) then
          match i_tail_origin other with
          | Some t => if has_tail_origin (i_cls self) then (Some h, Some t, (true, true)) else (Some h, i_tail_origin self, (true, false))
          | None => (Some h, i_tail_origin self, (true, false))
          end
        else (i_head_origin self, i_tail_origin self, (false, false))
    | None => (i_head_origin self, i_tail_origin self, (false, false))
    end in
  let m := match modified with Some true => flag | None => i_modified other | Some false => (false, false) end in
  Inst (i_cls self) (i_head self) (i_space self) ho to (if has_modified (i_cls self) then m else i_modified self).

(** dom/element.py 188-198, 925-929 copy_with_origin *)
Fixpoint copy_with_origin (o : obj) : obj :=
  match o with
  | Obj i kids => Obj (copy_origin_from (construct (i_cls i) (i_head i) (spacing_argument i)) i None) (map copy_with_origin kids)
  end.

(** dom/element.py 478-482 head.setter, of a TextElement; for other elements it raises AttributeError if the value is not the class value *)
Definition set_head (i : inst) (head : V) : res inst :=
  match base_of (i_cls i), i_head i with
  | BText, Some h =>
      if veqb head h then Ok i
      else Ok (Inst (i_cls i) (Some head) (i_space i) (i_head_origin i) (i_tail_origin i) (true, snd (i_modified i)))
  | _, _ => Err AttributeError
  end.

(** ** The element as it is written (see Element_Model). (dom/element.py 547-593) *)
Definition kind_of (c : nat) : kind := match base_of c with BPlain => Plain | BBlock => Block | BHead | BText => Head end.
(** dom/element.py 547-593 *)
Definition attrs_of_inst (i : inst) : attrs :=
  Attrs (kind_of (i_cls i)) (i_cls i) (write_head (i_cls i) (i_head i)) (write_tail (i_cls i)) (i_head_origin i) (i_tail_origin i)
    (fst (i_modified i)) (snd (i_modified i))
    (space_get (default (i_cls i)) (i_space i) 0) (space_get (default (i_cls i)) (i_space i) 1) (space_get (default (i_cls i)) (i_space i) 2)
    (space_get (default (i_cls i)) (i_space i) 3) (space_get (default (i_cls i)) (i_space i) 4).
(** dom/element.py 547-593 *)
Fixpoint elem_of (o : obj) : elem := match o with Obj i kids => E (attrs_of_inst i) (map elem_of kids) end.

(** ** equals (node.py 362-385, element.py 906-908) *)
Fixpoint equals (a b : obj) : bool :=
  match a, b with
  | Obj i k, Obj j l =>
      Nat.eqb (i_cls i) (i_cls j) && Nat.eqb (length k) (length l) &&
      (if has_modified (i_cls i) then match i_head i, i_head j with Some x, Some y => veqb x y | None, None => true | _, _ => false end else true) &&
      (fix all (k l : list obj) : bool := match k, l with a :: k, b :: l => equals a b && all k l | _, _ => true end) k l
  end.

(** ** py_dump (263-319) *)
(** The last part of the module name and the class name, and Python's repr() of a head value *)
Variable module class_name : nat -> str.
Variable repr : V -> str.
(** dom/element.py 307 *)
Definition newline : ascii := ascii_of_nat 10.

(** dom/element.py 300-306: what is written for the node itself, up to the children; [level] is len(stack). *)
Definition dump_head (indent_width level : nat) (o : obj) : str :=
  (List.repeat " "%char (level * indent_width) ++ module (i_cls (inst_of o)) ++ txt "." ++ class_name (i_cls (inst_of o)) ++ txt "(" ++
   (if has_modified (i_cls (inst_of o))
    then match i_head (inst_of o) with Some h => repr h | None => txt "None" end ++ (match kids_of o with [] => [] | _ => txt "," end)
    else []))%list.
(** dom/element.py 307 *)
Definition dump_tail (more : bool) : str := (if more then txt ")," ++ [newline] else txt ")")%list.
(** 294-318 the loop: [gen] are the nodes still to come from the current iterator, [stack] the outer iterators with the text to write at
    the end.  A node other than the first one has a sibling after it if the iterator gives another one; [more] tells that of the first one.
    [node.parent] is always true for a node with a parent (node.py 230). *)
Fixpoint dump_loop (fuel indent_width : nat) (more : bool) (gen : list obj) (stack : list (list obj * str)) : res str :=
  match fuel with
  | 0 => Err OutOfFuel
  | S f =>
      match gen with
      | node :: gen' =>
          let text := dump_tail (match stack with [] => more | _ => match gen' with [] => false | _ => true end end) in
          match kids_of node with
          | [] => let! r := dump_loop f indent_width more gen' stack in Ok ((dump_head indent_width (length stack) node ++ text) ++ r)%list
          | kids =>
              let! r := dump_loop f indent_width more kids ((gen', text) :: stack) in
              Ok ((dump_head indent_width (length stack) node ++ [newline]) ++ r)%list
          end
      | [] =>
          match stack with
          | (gen', text) :: stack' => let! r := dump_loop f indent_width more gen' stack' in Ok (text ++ r)%list
          | [] => Ok []
          end
      end
  end.
(** [more]: the node has a parent and is not its last child. (dom/element.py 263-319) *)
Definition py_dump (fuel indent_width : nat) (more : bool) (o : obj) : res str := dump_loop fuel indent_width more [o] [].
End Copy.
