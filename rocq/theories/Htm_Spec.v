(** Specification of markup: what a string of HTML says. *)
From Coq Require Import String Ascii List Arith Bool.
From Verif Require Import Base Heads_Spec.
Import ListNotations.

(** The contents of a document: text, references to entities, and elements with a name, attributes (with or without value) and contents. *)
Inductive content := CText (s : str) | CEntity (name : str) | CElem (name : str) (attrs : list (str * option str)) (kids : list content).

(** [markup s c]: the string [s] means [c].  (An element without contents can be written in two ways.) *)
Inductive markup_attrs : str -> list (str * option str) -> Prop :=
| attrs_nil : markup_attrs [] []
| attrs_value key v t s r : xml_text t v -> markup_attrs s r -> markup_attrs (txt " " ++ key ++ txt "=""" ++ t ++ txt """" ++ s) ((key, Some v) :: r)
| attrs_bare key s r : markup_attrs s r -> markup_attrs (txt " " ++ key ++ s) ((key, None) :: r).
Inductive markup : str -> content -> Prop :=
| markup_text t s : xml_text t s -> markup t (CText s)
| markup_entity name : markup (txt "&" ++ name ++ txt ";") (CEntity name)
| markup_single name attrs a : markup_attrs a attrs -> markup (txt "<" ++ name ++ a ++ txt "/>") (CElem name attrs [])
| markup_element name attrs kids a s : markup_attrs a attrs -> markup_list s kids ->
    markup (txt "<" ++ name ++ a ++ txt ">" ++ s ++ txt "</" ++ name ++ txt ">") (CElem name attrs kids)
with markup_list : str -> list content -> Prop :=
| markup_nil : markup_list [] []
| markup_cons s c t r : markup s c -> markup_list t r -> markup_list (s ++ t) (c :: r).

(** Names are not empty. *)
Inductive named : content -> Prop :=
| named_text s : named (CText s)
| named_entity n : named (CEntity n)
| named_elem n a k : n <> [] -> Forall (fun kv => fst kv <> []) a -> Forall named k -> named (CElem n a k).

(** The text of the contents, without the markup; [entity] gives the text of an entity. *)
Inductive text_of_content (entity : str -> str) : content -> str -> Prop :=
| tc_text s : text_of_content entity (CText s) s
| tc_entity n : text_of_content entity (CEntity n) (entity n)
| tc_elem n a k ss : Forall2 (text_of_content entity) k ss -> text_of_content entity (CElem n a k) (concat ss).
