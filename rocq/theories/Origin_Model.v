(** Model of how the transforms make elements, with or without keeping the origin tokens: the factory methods of quickly/dom/base.py and quickly/lang/html.py, and
    from_origin and with_origin of quickly/dom/element.py. *)
From Coq Require Import String Ascii List Arith PeanoNat Bool.
From Verif Require Import Base Element_Model Copy_Model.
Import ListNotations.

Section Origin.
(** The classes, as in Copy_Model; [read_head] is the class method that reads the head value from the tokens, and may raise (dom/element.py 495-502 and overrides). *)
Variable V : Type.
Variable base_of : nat -> base.
Variable default : nat -> nat -> str.
Variable init_head : nat -> V -> V.
Variable read_head : nat -> list token -> res V.

(** dom/element.py 801-803 HeadElement.from_origin, 910-913 TextElement.from_origin; an Element has no such method *)
Definition from_origin (c : nat) (head tail : list token) (kids : list (obj V)) : res (obj V) :=
  match base_of c with
  | BPlain => Err AttributeError
  | BText => let! h := read_head c head in Ok (Obj V (construct V default init_head c (Some h) []) kids)
  | BHead | BBlock => Ok (Obj V (construct V default init_head c None []) kids)
  end.
(** The assignments to head_origin and tail_origin. (dom/element.py 814, 838-839) *)
Definition set_origin (i : inst V) (head : list token) (tail : option (list token)) : inst V :=
  Inst V (i_cls V i) (i_head V i) (i_space V i) (Some head) tail (i_modified V i).
(** dom/element.py 805-815 HeadElement.with_origin, 835-840 BlockElement.with_origin *)
Definition with_origin (c : nat) (head tail : list token) (kids : list (obj V)) : res (obj V) :=
  let! o := from_origin c head tail kids in
  match o with
  | Obj _ i k => Ok (Obj V (set_origin i head (match base_of c with BBlock => Some tail | _ => i_tail_origin V i end)) k)
  end.
(** dom/base.py 229-238 Transform.factory (the same in lang/html.py 96-105), 250-259 AdHocTransform.factory; read.py 52-54 chooses the transform *)
Definition factory (keep : bool) (c : nat) (head tail : list token) (kids : list (obj V)) : res (obj V) :=
  if keep then with_origin c head tail kids else from_origin c head tail kids.

(** What a transform does to make an element: call the factory; call the class itself (such as lily.Document, lang/lilypond.py 95-97); make an element of
    another class with the same head and children and copy the origin (lang/lilypond.py 846-848, dom/lily.py 1494-1495); or copy_with_origin (dom/lily.py 492).
    An element that is appended later is a child. *)
Inductive ask :=
| Made (c : nat) (head tail : list token) (kids : list ask)
| Direct (c : nat) (head : option V) (kids : list ask)
| Retyped (c : nat) (a : ask)
| Copied (a : ask).

(** lang/lilypond.py 846-848 and dom/lily.py 1494-1495 *)
Definition retype (c : nat) (o : obj V) : obj V :=
  match o with Obj _ i k => Obj V (copy_origin_from V base_of (construct V default init_head c (i_head V i) []) i None) k end.

(** What the transform returns. (dom/read.py 57-205; the calls themselves are those of the methods of lang/lilypond.py 77-656 and the like) *)
Fixpoint build (keep : bool) (a : ask) : res (obj V) :=
  let all := fix all (l : list ask) : res (list (obj V)) :=
    match l with [] => Ok [] | x :: r => let! o := build keep x in let! os := all r in Ok (o :: os) end in
  match a with
  | Made c head tail kids => let! os := all kids in factory keep c head tail os
  | Direct c head kids => let! os := all kids in Ok (Obj V (construct V default init_head c head []) os)
  | Retyped c a => let! o := build keep a in Ok (retype c o)
  | Copied a => let! o := build keep a in Ok (copy_with_origin V base_of default init_head o)
  end.
(** dom/read.py 114-117, 150-183, 191-194, 202-205: the first child of the document, or None *)
Definition read_one (keep : bool) (document : ask) : res (option (obj V)) :=
  let! o := build keep document in Ok (hd_error (kids_of V o)).
End Origin.
