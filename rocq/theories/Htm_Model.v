(** Model of the HTML elements of quickly/dom/htm.py that are made with the constructor object [m], and of their plain text. *)
From Coq Require Import String Ascii List Arith PeanoNat Bool.
From Verif Require Import Base Element_Model.
From Verif Require Heads_Model.
Import ListNotations.
Open Scope nat_scope.

(** The classes; [HOther]: all other ones, with a number. (for [attrs_of], element.py 167-171) *)
Inductive hcls := HElement | HText | HEntityRef | HOpenTag | HCloseTag | HSingleTag | HTagName | HAttribute | HAttrName | HEqualSign | HDqString | HOther (n : nat).
(** A node; [head] is the head value of a TextElement. (for [elem_of], element.py 167-171) *)
Inductive hnode := Hn (c : hcls) (head : str) (kids : list hnode).

(** ** Writing *)
(** Attributes of the classes: 164 Element, 206-209 Text, 216-229 EntityRef, 267-270 DqString (its base 252), 313 Tag, 320-343 the tags, 346 TagName,
    350 Attribute, 359 AttrName, 363-365 EqualSign.  All spacing is empty by default (element.py 167-171); only a Tag has a space between its children.
    The nodes are new: without origin. *)
Definition new_attrs (k : kind) (head tail between : str) : attrs := Attrs k 0 (Ok head) tail None None false false [] [] between [] [].
Section Write.
Variable other : nat -> str -> attrs.
(** element.py 167-171, with [new_attrs] *)
Definition attrs_of (c : hcls) (head : str) : attrs :=
  match c with
  | HElement | HAttribute => new_attrs Plain [] [] []
  | HText => new_attrs Head (Heads_Model.html_write head) [] []
  | HEntityRef => new_attrs Head (Heads_Model.entity_write head) [] []
  | HOpenTag => new_attrs Block (txt "<") (txt ">") (txt " ")
  | HCloseTag => new_attrs Block (txt "</") (txt ">") (txt " ")
  | HSingleTag => new_attrs Block (txt "<") (txt "/>") (txt " ")
  | HTagName | HAttrName => new_attrs Head head [] []
  | HEqualSign => new_attrs Head (txt "=") [] []
  | HDqString => new_attrs Block (txt """") (txt """") []
  | HOther n => other n head
  end.
(** element.py 167-171, with [new_attrs] *)
Fixpoint elem_of (n : hnode) : elem := match n with Hn c head kids => E (attrs_of c head) (map elem_of kids) end.
End Write.

(** ** dom/htm.py 374-426 the element constructor *)
Definition leaf (c : hcls) (head : str) : hnode := Hn c head [].
(** dom/htm.py 407-409 a value of None is an attribute without value *)
Definition attribute (kv : str * option str) : hnode :=
  match kv with
  | (key, Some value) => Hn HAttribute [] [leaf HAttrName key; leaf HEqualSign []; Hn HDqString [] [leaf HText value]]
  | (key, None) => Hn HAttribute [] [leaf HAttrName key]
  end.
(** A child is a string or a node. (for [m], dom/htm.py 405-418, 421) *)
Definition child (c : str + hnode) : hnode := match c with inl s => leaf HText s | inr n => n end.
(** dom/htm.py 405-418, 421 *)
Definition m (name : str) (children : list (str + hnode)) (attrs : list (str * option str)) : hnode :=
  let attributes := map attribute attrs in
  match children with
  | [] => Hn HElement [] [Hn HSingleTag [] (leaf HTagName name :: attributes)]
  | _ => Hn HElement [] (Hn HOpenTag [] (leaf HTagName name :: attributes) :: map child children ++ [Hn HCloseTag [] [leaf HTagName name]])%list
  end.

(** ** 173-196 to_plaintext *)
Section Plain.
(** html.unescape of an entity with that name, in Python's library *)
Variable unescape : str -> str.
(** What an entity resolver returns: a string or a node, here other than an EntityRef, which would be resolved again. (for [to_text], dom/htm.py 184-194) *)
Inductive resolved := RStr (s : str) | RNode (n : hnode).
(** [Element.to_plaintext()] without argument, of the node's children. (for [to_text], dom/htm.py 184-194) *)
Fixpoint to_plaintext_default (n : hnode) : str :=
  match n with
  | Hn _ _ kids =>
      concat (map (fun o => match o with
        | Hn HElement _ _ => to_plaintext_default o
        | Hn HText h _ => h
        | Hn HEntityRef h _ => unescape h
        | _ => []
        end) kids)
  end.
(** dom/htm.py 184-194 to_text, on the children of the node; nested elements are asked without the resolver (186) *)
Definition to_text (resolver : str -> resolved) (o : hnode) : str :=
  match o with
  | Hn HElement _ _ => to_plaintext_default o
  | Hn HText h _ => h
  | Hn HEntityRef h _ =>
      match resolver h with
      | RStr s => s
      | RNode (Hn HElement h k) => to_plaintext_default (Hn HElement h k)
      | RNode (Hn HText h _) => h
      | RNode _ => []
      end
  | _ => []
  end.
(** dom/htm.py 184-194, with [to_text] *)
Definition to_plaintext (resolver : option (str -> resolved)) (n : hnode) : str :=
  match n with
  | Hn _ _ kids => concat (map (to_text (match resolver with None => fun name => RStr (unescape name) | Some r => r end)) kids)
  end.
End Plain.
