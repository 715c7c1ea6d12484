(** Specification of HTML as it is read: the grammar of the token trees and the elements they mean. *)
From Coq Require Import String Ascii List Arith Bool.
From Verif Require Import Base Html_Model.
Import ListNotations.

Definition reads (t : token) (s : string) : Prop := t_text t = txt s.
Definition slash (t : token) : Prop := In "/"%char (t_text t).

(** ** Strings *)
Inductive string_piece : token -> node -> Prop :=
| piece_entity t : t_action t = AEscape \/ t_action t = AStringEscape -> string_piece t (N KEntityRef [t] [] [])
| piece_text t : t_action t = AStringSingle \/ t_action t = AStringDouble -> string_piece t (N KText [t] [] []).
Definition quote_of (l : lexicon) (k : cls) (q : string) : Prop := (l = LDq /\ k = KDqString /\ q = """"%string) \/ (l = LSq /\ k = KSqString /\ q = "'"%string).
(** A string, closed or not (the source may end in it). *)
Inductive string_tree : tree -> node -> Prop :=
| string_closed l k q o ts ns c : quote_of l k q -> Forall2 string_piece ts ns -> reads c q -> string_tree (TCx l (map TTok (o :: ts ++ [c]))) (N k [o] ns [c])
| string_open l k q o ts t ns : quote_of l k q -> Forall2 string_piece (ts ++ [t]) ns -> ~ reads t q -> string_tree (TCx l (map TTok (o :: ts ++ [t]))) (N k [o] ns [])
| string_bare l k q o : quote_of l k q -> ~ reads o q -> string_tree (TCx l [TTok o]) (N k [o] [] []).

(** ** Processing instructions: text, strings and entities; the tokens of a text are together. *)
Definition text_only (t : token) : Prop := forall n, ~ string_piece t n.
Definition text_ends (r : list tree) : Prop := forall t r', r = TTok t :: r' -> exists n, string_piece t n.
Inductive instruction_body : list tree -> list node -> Prop :=
| body_nil : instruction_body [] []
| body_piece t n r ns : string_piece t n -> instruction_body r ns -> instruction_body (TTok t :: r) (n :: ns)
| body_string t n r ns : string_tree t n -> instruction_body r ns -> instruction_body (t :: r) (n :: ns)
| body_text t ts r ns : Forall text_only (t :: ts) -> text_ends r -> instruction_body r ns -> instruction_body (map TTok (t :: ts) ++ r) (N KText (t :: ts) [] [] :: ns).
Inductive instruction_tree : tree -> node -> Prop :=
| instruction_closed o ts ns c : instruction_body ts ns -> reads c "?>" -> instruction_tree (TCx LInstruction (TTok o :: ts ++ [TTok c])) (N KInstruction [o] ns [c])
| instruction_open o ts ns : instruction_body ts ns -> (forall a c, TTok o :: ts = a ++ [TTok c] -> ~ reads c "?>") -> instruction_tree (TCx LInstruction (TTok o :: ts)) (N KInstruction [o] ns []).

(** The grammar has two versions: [whole = true] is that of documents of which nothing is left out. *)
Section Grammar.
Variable whole : bool.
(** ** Attributes *)
Definition name_token (t : token) : Prop := t_action t = AAttribute \/ (t_action t = AName /\ ~ reads t "=" /\ ~ reads t """").
Definition equal_token (t : token) : Prop := reads t "=" /\ t_action t <> AAttribute.
Definition plain (t : token) : Prop := ~ reads t "=" /\ ~ reads t """".
(** The value after the equal sign. *)
Inductive value_of : list tree -> list node -> Prop :=
| value_string t n : string_tree t n -> value_of [t] [n]
| value_number t : t_action t = ANumber -> plain t -> value_of [TTok t] [N KNumber [t] [] []]
| value_unit t u : t_action t = ANumber -> plain t -> t_action u = AUnit -> plain u -> value_of [TTok t; TTok u] [N KNumber [t] [] []; N KUnit [u] [] []]
| value_style t us u : (whole = true -> us = []) -> t_action t = AString -> reads t """" -> value_of [TTok t; TUntransformed us u] [N KUnknown [t; u] [] []].
(** What is left out after an attribute: values if there is no equal sign, a second string or equal sign, and a unit without a number. *)
Definition parts (n : node) : nat := match n with N _ _ kids _ => length kids end.
Inductive stray : node -> list tree -> Prop :=
| stray_equal n e : parts n <> 1 -> equal_token e -> stray n [TTok e]
| stray_number n t : parts n = 1 -> t_action t = ANumber -> plain t -> stray n [TTok t]
| stray_unit n t : parts n <= 2 -> t_action t = AUnit -> plain t -> stray n [TTok t]
| stray_style n t us u : parts n = 1 -> t_action t = AString -> reads t """" -> stray n [TTok t; TUntransformed us u]
| stray_string n t m : parts n <> 2 -> string_tree t m -> stray n [t].
Inductive attribute : list tree -> node -> Prop :=
| attribute_stray a n s : whole = false -> attribute a n -> stray n s -> attribute (a ++ s) n
| attribute_bare t : name_token t -> attribute [TTok t] (N KAttribute [] [N KAttrName [t] [] []] [])
| attribute_open t e : name_token t -> equal_token e -> attribute [TTok t; TTok e] (N KAttribute [] [N KAttrName [t] [] []; N KEqualSign [e] [] []] [])
| attribute_value t e v ns : name_token t -> equal_token e -> value_of v ns ->
    attribute (TTok t :: TTok e :: v) (N KAttribute [] (N KAttrName [t] [] [] :: N KEqualSign [e] [] [] :: ns) []).
(** Attributes, and the delimiter after them if there is one. *)
Inductive attributes : list tree -> list node -> list token -> Prop :=
| attributes_nil : attributes [] [] []
| attributes_end t : t_action t = ADelimiter -> ~ reads t "=" -> attributes [TTok t] [] [t]
| attributes_more a n r ns tail : attribute a n -> attributes r ns tail -> attributes (a ++ r) (n :: ns) tail.

(** ** Tags and contents *)
(** An opening tag or a tag without contents: [opening ts n r], [r] is what follows it. *)
Definition tag_class (tail : list token) (k : cls) : Prop := (k = KSingleTag /\ exists t r, tail = t :: r /\ slash t) \/ (k = KOpenTag /\ forall t r, tail = t :: r -> ~ slash t).
Definition no_lily (r : list tree) : Prop := forall o t r', r <> TLily o t :: r'.
Definition no_untransformed (r : list tree) : Prop := forall us u r', r <> TUntransformed us u :: r'.
Inductive opening : list tree -> node -> list tree -> Prop :=
| opening_plain lt x gt k r : t_action lt = ADelimiter -> ~ slash lt -> t_last gt = true -> tag_class [gt] k -> no_untransformed r ->
    opening (TTok lt :: TTok x :: TTok gt :: r) (N k [lt] [N KTagName [x] [] []] [gt]) r
| opening_attrs lt x kids ns tail k r : t_action lt = ADelimiter -> ~ slash lt -> attributes kids ns tail -> tag_class tail k -> no_untransformed r ->
    opening (TTok lt :: TTok x :: TCx LAttrs kids :: r) (N k [lt] (N KTagName [x] [] [] :: ns) tail) r
| opening_options lt x kids ns tail k r : t_action lt = ADelimiter -> ~ slash lt -> attributes kids ns tail -> tag_class tail k ->
    (forall t s, tail = t :: s -> reads t ":" -> no_lily r) ->
    opening (TTok lt :: TTok x :: TCx LOptions kids :: r) (N k [lt] (N KTagName [x] [] [] :: ns) tail) r
| opening_short lt x kids ns c objs tail r : t_action lt = ADelimiter -> ~ slash lt -> attributes kids ns [c] -> reads c ":" ->
    opening (TTok lt :: TTok x :: TCx LOptions kids :: TLily objs tail :: r) (N KSingleTag [lt] (N KTagName [x] [] [] :: ns ++ N KColon [c] [] [] :: objs) tail) r.
(** A style or script element, or a document type: they are not read, only their first and last token are kept. *)
Inductive unread : list tree -> node -> list tree -> Prop :=
| unread_attrs t x kids ns tail us u r : t_action t = ADelimiter -> t_action x = ATag -> attributes kids ns tail ->
    unread (TTok t :: TTok x :: TCx LAttrs kids :: TUntransformed us u :: r) (N KUnknown [t; u] [] []) r
| unread_plain t x y us u r : t_action t = ADelimiter -> t_action x = ATag -> t_action y = ADelimiter ->
    unread (TTok t :: TTok x :: TTok y :: TUntransformed us u :: r) (N KUnknown [t; u] [] []) r
| unread_doctype t x y us u r : t_action t = ADelimiter -> t_action x = AKeyword -> t_action y = ATagDefinition ->
    unread (TTok t :: TTok x :: TTok y :: TUntransformed us u :: r) (N KUnknown [t; u] [] []) r.
(** Contexts and tokens of which nothing is kept. *)
Inductive dropped : tree -> Prop :=
| dropped_comment ts : dropped (TCx LComment (map TTok ts))
| dropped_cdata ts : dropped (TCx LCData (map TTok ts))
| dropped_instruction t n : instruction_tree t n -> dropped t
| dropped_string t n : string_tree t n -> dropped t
| dropped_untransformed us u : dropped (TUntransformed us u)
| dropped_token t : ~ In (t_action t) [AText; AWhitespace; AEscape; ADelimiter] -> dropped (TTok t).
Inductive contents : list tree -> list node -> Prop :=
| contents_nil : contents [] []
| contents_text t r ns : t_action t = AText \/ t_action t = AWhitespace -> contents r ns -> contents (TTok t :: r) (N KText [t] [] [] :: ns)
| contents_entity t r ns : t_action t = AEscape -> contents r ns -> contents (TTok t :: r) (N KEntityRef [t] [] [] :: ns)
| contents_element ts n kids r inner ns : opening ts n (TCx LTag kids :: r) -> contents kids inner -> contents r ns ->
    contents ts (N KElement [] (n :: inner) [] :: ns)
| contents_lilypond ts n objs tail r ns : (whole = true -> tail = []) -> opening ts n (TLily objs tail :: r) -> contents r ns -> contents ts (N KElement [] (n :: objs) [] :: ns)
| contents_single ts n r ns : opening ts n r -> contents r ns -> contents ts (N KElement [] [n] [] :: ns)
| contents_close lt x gt r ns : t_action lt = ADelimiter -> slash lt -> no_untransformed r -> contents r ns ->
    contents (TTok lt :: TTok x :: TTok gt :: r) (N KCloseTag [lt] [N KTagName [x] [] []] [gt] :: ns)
| contents_unread ts n r ns : whole = false -> unread ts n r -> contents r ns -> contents ts (n :: ns)
| contents_dropped t r ns : whole = false -> dropped t -> contents r ns -> contents (t :: r) ns
| contents_cut t r : whole = false -> t_action t = ADelimiter -> r = [] \/ (exists x, r = [TTok x]) -> contents (TTok t :: r) [].
End Grammar.

(** The tokens in order. *)
Fixpoint node_tokens (n : node) : list token := match n with N _ h kids t => h ++ flat_map node_tokens kids ++ t end.
Fixpoint tree_tokens (t : tree) : list token :=
  match t with TTok t => [t] | TCx _ kids => flat_map tree_tokens kids | TLily objs tail => flat_map node_tokens objs ++ tail | TUntransformed us u => us ++ [u] end.
(** One list is another one from which some items are left out. *)
Inductive sublist {A} : list A -> list A -> Prop :=
| sub_nil : sublist [] []
| sub_keep x a b : sublist a b -> sublist (x :: a) (x :: b)
| sub_skip x a b : sublist a b -> sublist a (x :: b).
