(** Specification of reading with and without the origin. *)
From Coq Require Import String Ascii List Arith Bool.
From Verif Require Import Base Element_Model Copy_Model Copy_Spec Origin_Model.
Import ListNotations.

Section Spec.
Variable V : Type.
Variable base_of : nat -> base.
Variable init_head : nat -> V -> V.
Variable read_head : nat -> list token -> res V.

(** The same elements: classes, heads, spacing and flags; only the origins may differ. *)
Inductive alike : obj V -> obj V -> Prop :=
| alike_node i j k l : i_cls V i = i_cls V j -> i_head V i = i_head V j -> i_space V i = i_space V j -> i_modified V i = i_modified V j ->
    Forall2 alike k l -> alike (Obj V i k) (Obj V j l).
(** The same outcome: an exception of the same kind, or related results. *)
Definition same_outcome {A} (R : A -> A -> Prop) (x y : res A) : Prop :=
  match x, y with Ok a, Ok b => R a b | Err e, Err f => e = f | _, _ => False end.
Definition option_related {A} (R : A -> A -> Prop) (x y : option A) : Prop :=
  match x, y with Some a, Some b => R a b | None, None => True | _, _ => False end.

(** No element knows where it comes from, or is marked as changed. *)
Definition nowhere (i : inst V) : Prop := i_head_origin V i = None /\ i_tail_origin V i = None /\ i_modified V i = (false, false).

(** Where the elements come from: the class and head value, the tokens of the head and of the tail. *)
Inductive source := Source (c : nat) (value : option V) (head tail : option (list token)) (kids : list source).
Fixpoint source_of (o : obj V) : source := match o with Obj _ i k => Source (i_cls V i) (i_head V i) (i_head_origin V i) (i_tail_origin V i) (map source_of k) end.
(** Every element has precisely the tokens that it was made from, a tail only if it is a block, and the value that its class reads from
    the tokens of the head; a change of the class and a copy keep them. *)
Fixpoint asked (a : ask V) : source :=
  match a with
  | Made _ c head tail kids => Source c (match base_of c, read_head c head with BText, Ok v => Some (init_head c v) | _, _ => None end) (Some head) (match base_of c with BBlock => Some tail | _ => None end) (map asked kids)
  | Direct _ c value kids => Source c (option_map (init_head c) value) None None (map asked kids)
  | Retyped _ c a => match asked a with Source _ value head tail kids => Source c (option_map (init_head c) value) head tail kids end
  | Copied _ a => asked a
  end.

(** A change of the class is from one class with a text as its head to another one (Note to Pitch or PitchedRest). *)
Fixpoint cls_of_ask (a : ask V) : nat :=
  match a with Made _ c _ _ _ | Direct _ c _ _ | Retyped _ c _ => c | Copied _ a => cls_of_ask a end.
Inductive sound : ask V -> Prop :=
| sound_made c head tail kids : Forall sound kids -> sound (Made V c head tail kids)
| sound_direct c head kids : Forall sound kids -> sound (Direct V c head kids)
| sound_retyped c a : sound a -> base_of c = BText -> base_of (cls_of_ask a) = BText -> sound (Retyped V c a)
| sound_copied a : sound a -> sound (Copied V a).
(** No element is made from an empty list of tokens. *)
Inductive with_tokens : ask V -> Prop :=
| tokens_made c head tail kids : head <> [] -> Forall with_tokens kids -> with_tokens (Made V c head tail kids)
| tokens_direct c head kids : Forall with_tokens kids -> with_tokens (Direct V c head kids)
| tokens_retyped c a : with_tokens a -> with_tokens (Retyped V c a)
| tokens_copied a : with_tokens a -> with_tokens (Copied V a).
End Spec.
