(** Specification of copying, of the modified flag and of the dump as a Python expression. *)
From Coq Require Import String Ascii List Arith Bool.
From Verif Require Import Base Element_Model Copy_Model.
Import ListNotations.

Section Spec.
Variable V : Type.
Variable base_of : nat -> base.
Variable default : nat -> nat -> str.
Variable init_head : nat -> V -> V.

(** The same tree: the same classes and heads in the same places. *)
Inductive same_tree : obj V -> obj V -> Prop :=
| same_node i j k l : i_cls V i = i_cls V j -> i_head V i = i_head V j -> Forall2 same_tree k l -> same_tree (Obj V i k) (Obj V j l).

(** A condition on all elements of a tree. *)
Inductive every (P : inst V -> Prop) : obj V -> Prop :=
| every_node i k : P i -> Forall (every P) k -> every P (Obj V i k).

(** An element that can exist: only a TextElement has a head value, which is one that its constructor keeps, and a modified flag; only an element with
    a head has a head origin, only a block a tail origin, and it has one only together with a head origin (with_origin sets both). *)
Definition proper (i : inst V) : Prop :=
  match base_of (i_cls V i) with
  | BText => (exists h, i_head V i = Some h /\ init_head (i_cls V i) h = h) /\ i_tail_origin V i = None
  | b => i_head V i = None /\ i_modified V i = (false, false) /\
      match b with
      | BPlain => i_head_origin V i = None /\ i_tail_origin V i = None
      | BBlock => i_head_origin V i = None -> i_tail_origin V i = None
      | _ => i_tail_origin V i = None
      end
  end.
(** No spacing property has been given another value than that of the class. *)
Definition class_spacing (i : inst V) : Prop := forall n, space_get (default (i_cls V i)) (i_space V i) n = default (i_cls V i) n.
(** The origin is not an empty tuple. *)
Definition real_origin (i : inst V) : Prop := i_head_origin V i <> Some [].

(** The values of the head while values are assigned one after another; and whether one of them was a change. *)
Definition changes (veqb : V -> V -> bool) (h : V) (values : list V) : Prop :=
  exists a b c, h :: values = a ++ b :: c /\ exists d r, c = d :: r /\ veqb d b = false.
End Spec.

(** An element without its origins and flags. *)
Definition unplaced (a : attrs) : attrs :=
  Attrs (a_kind a) (a_id a) (a_head a) (a_tail a) None None false false (a_before a) (a_after_head a) (a_between a) (a_before_tail a) (a_after a).
Fixpoint unplaced_elem (e : elem) : elem := match e with E a k => E (unplaced a) (map unplaced_elem k) end.
(** The whitespace between two children does not depend on where they come from. *)
Definition unplaced_space (concat_space : attrs -> elem -> elem -> str) : Prop :=
  forall a n m, concat_space (unplaced a) (unplaced_elem n) (unplaced_elem m) = concat_space a n m.

(** ** Python expressions that construct a tree *)
Section Python.
Variable V : Type.
Variable base_of : nat -> base.
Variable module class_name : nat -> str.
Variable repr : V -> str.
Definition blank (s : str) : Prop := Forall (fun c => c = " "%char \/ c = newline) s.
(** [mod.Class(head, child, ..., child)], with blanks before the name and before the arguments; [arguments] are separated by commas. *)
Inductive expression : str -> obj V -> Prop :=
| expression_call w i args kids : blank w -> call_arguments i args kids ->
    expression (w ++ module (i_cls V i) ++ txt "." ++ class_name (i_cls V i) ++ txt "(" ++ args ++ txt ")") (Obj V i kids)
with call_arguments : inst V -> str -> list (obj V) -> Prop :=
| arguments_text i h : base_of (i_cls V i) = BText -> i_head V i = Some h -> call_arguments i (repr h) []
| arguments_text_children i h s kids : base_of (i_cls V i) = BText -> i_head V i = Some h -> children s kids ->
    call_arguments i (repr h ++ txt "," ++ s) kids
| arguments_none i : base_of (i_cls V i) <> BText -> call_arguments i [] []
| arguments_children i s kids : base_of (i_cls V i) <> BText -> children s kids -> call_arguments i s kids
with children : str -> list (obj V) -> Prop :=
| children_one w s o : blank w -> expression s o -> children (w ++ s) [o]
| children_more w s o t kids : blank w -> expression s o -> children t kids -> children (w ++ s ++ txt "," ++ t) (o :: kids).
End Python.
