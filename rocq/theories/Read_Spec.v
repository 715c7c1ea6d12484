(** Specification of reading blocks and markup. *)
From Coq Require Import String Ascii List Bool PeanoNat.
From Verif Require Import Base Read_Model.
Import ListNotations.
Open Scope nat_scope.

(** ** Tokens *)
(** The tokens of an element, in the order of the text, and those of an item. *)
Fixpoint toks (n : node) : list token := match n with N _ h kids tl => h ++ flat_map toks kids ++ tl end.
Fixpoint item_toks (i : item) : list token :=
  match i with
  | Tok t => [t]
  | Ctx _ (OElem n) => toks n
  | Ctx _ (OItems l) => flat_map item_toks l
  | Ctx _ (ONodes l) => flat_map toks l
  | Ctx _ OOther => []
  end.
Definition has_text (s : string) (t : token) : Prop := t_text t = txt s.

(** Every token has text. *)
Definition some_text (i : item) : Prop := match i with Tok t => t_text t <> [] | _ => True end.
(** All the elements of the first list are in the second, in the same order. *)
Inductive sublist {A} : list A -> list A -> Prop :=
| sub_nil : sublist [] []
| sub_keep x l l' : sublist l l' -> sublist (x :: l) (x :: l')
| sub_drop x l l' : sublist l l' -> sublist l (x :: l').

(** ** Markup *)
Section Markup.
(** the number of arguments of a markup command *)
Variable arity : str -> nat.
(** A token of a markup command: a backslash and a name. *)
Definition command (t : token) (n : nat) : Prop := t_action t = AFunction /\ exists b name, t_text t = b :: name /\ arity name = n.
(** What is no part of markup: other tokens, and contexts that became no element. *)
Definition noise (i : item) : Prop :=
  match i with
  | Tok t => t_action t <> AText /\ t_action t <> AFunction
  | Ctx _ (OElem _) => False
  | Ctx _ _ => True
  end.
Definition wanted (i : item) : bool :=
  match i with Tok t => match t_action t with AText | AFunction => true | _ => false end | Ctx _ (OElem _) => true | _ => false end.
Definition is_remark (n : node) : Prop := cls_of n = KComment.

(** One argument: a word, an element (a string, scheme expression, markup list ...; or a comment), or a command with its arguments. *)
Inductive argument : list item -> node -> Prop :=
| arg_word t : t_action t = AText -> argument [Tok t] (N KMarkupWord [t] [] [])
| arg_element name n : argument [Ctx name (OElem n)] n
| arg_command t its ns k : command t k -> arguments its ns k -> argument (Tok t :: its) (N KMarkupCommand [t] ns [])
| arg_noise i its n : noise i -> argument its n -> argument (i :: its) n
(** [n] arguments; comments before them do not count. *)
with arguments : list item -> list node -> nat -> Prop :=
| args_none : arguments [] [] 0
| args_one its n its' ns k : argument its n -> ~ is_remark n -> arguments its' ns k -> arguments (its ++ its') (n :: ns) (S k)
| args_remark its n its' ns k : argument its n -> is_remark n -> arguments its' ns (S k) -> arguments (its ++ its') (n :: ns) (S k).

(** A command of which the text ends before it has all its arguments. *)
Inductive unfinished : list item -> node -> Prop :=
| un_command t its ns k : command t k -> some_of its ns k -> unfinished (Tok t :: its) (N KMarkupCommand [t] ns [])
| un_noise i its n : noise i -> unfinished its n -> unfinished (i :: its) n
with some_of : list item -> list node -> nat -> Prop :=
| some_end its k : Forall noise its -> some_of its [] (S k)
| some_last its n k : unfinished its n -> some_of its [n] (S k)
| some_one its n its' ns k : argument its n -> ~ is_remark n -> some_of its' ns k -> some_of (its ++ its') (n :: ns) (S k)
| some_remark its n its' ns k : argument its n -> is_remark n -> some_of its' ns (S k) -> some_of (its ++ its') (n :: ns) (S k).

(** A text: arguments one after the other, and at the end nothing, or an unfinished command. *)
Inductive markup_text : list item -> list node -> Prop :=
| text_end its : Forall noise its -> markup_text its []
| text_unfinished its n : unfinished its n -> markup_text its [n]
| text_more its n its' ns : argument its n -> markup_text its' ns -> markup_text (its ++ its') (n :: ns).
End Markup.

(** ** Blocks *)
(** The items of a block: the tokens it begins with, its contents and the closing token. *)
Definition block (head : list token) (body : list item) (close : token) : list item := map Tok head ++ body ++ [Tok close].
Definition open_block (head : list token) (body : list item) : list item := map Tok head ++ body.
(** The contents do not end with the given text. *)
Definition not_closed (s : string) (items : list item) : Prop := forall l t, items = l ++ [Tok t] -> ~ has_text s t.

(** ** Common text: tokens that make an element or not, elements, and markups with their argument. *)
Inductive common_text (arity : str -> nat) (make : token -> option node) : list item -> list node -> Prop :=
| common_nil : common_text arity make [] []
| common_token t n its ns : make t = Some n -> common_text arity make its ns -> common_text arity make (Tok t :: its) (n :: ns)
| common_skip t its ns : make t = None -> common_text arity make its ns -> common_text arity make (Tok t :: its) ns
| common_element name n its ns : common_text arity make its ns -> common_text arity make (Ctx name (OElem n) :: its) (n :: ns)
| common_markup c own following n its ns : argument arity (own ++ following) n -> common_text arity make its ns ->
    common_text arity make (Ctx (txt "markup") (OItems (Tok c :: own)) :: following ++ its) (N KMarkup [c] [n] [] :: ns)
| common_nodes name l its ns : common_text arity make its ns -> common_text arity make (Ctx name (ONodes l) :: its) ns
| common_other name its ns : common_text arity make its ns -> common_text arity make (Ctx name OOther :: its) ns.

(** ** Chord modifiers *)
(** What is in a chord modifier: a qualifier, a step, a step with an alteration, a dot, or a comment. *)
Inductive modifier := MQualifier (t : token) | MStep (t : token) | MAltered (t alt : token) | MDot (t : token) | MRemark (name : str) (n : node).
Definition modifier_ok (m : modifier) : Prop :=
  match m with
  | MQualifier t => t_action t = ASymbol
  | MStep t => t_action t = ANumber /\ t_group t <> Some 0
  | MAltered t alt => t_action t = ANumber /\ t_group t = Some 0
  | MDot t => t_action t = ADot
  | MRemark _ n => True
  end.
Definition modifier_items (m : modifier) : list item :=
  match m with MQualifier t | MStep t | MDot t => [Tok t] | MAltered t alt => [Tok t; Tok alt] | MRemark name n => [Ctx name (OElem n)] end.
Definition modifier_node (m : modifier) : node :=
  match m with
  | MQualifier t => N KQualifier [t] [] []
  | MStep t => N KStep [t] [] []
  | MAltered t alt => N KStep [t] [N KAlteration [alt] [] []] []
  | MDot t => N KSeparator [t] [] []
  | MRemark _ n => n
  end.
