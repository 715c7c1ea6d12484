(** Specification of Scheme as it is read, and of the notation of Python values in Scheme. *)
From Coq Require Import String Ascii List Arith Bool.
From Verif Require Import Base Element_Model Scheme_Model.
From Verif Require Heads_Model.
Import ListNotations.
Open Scope nat_scope.

(** ** Reading *)
Definition quote_token (t : token) : Prop := t_action t = AQuote.
Inductive token_class : token -> cls -> Prop :=
| class_char t : t_action t = ACharacter -> token_class t KChar
| class_dot t : t_action t = ADot -> token_class t KDot
| class_name t : t_action t = AName \/ t_action t = AKeyword -> token_class t KIdentifier
| class_bool t : t_action t = ABoolean -> token_class t KBool.
(** Trees that say nothing: contexts without an element, and quotes (that have to be followed by what they quote). *)
Definition silent (t : tree) : Prop := t = TOther None \/ exists q, t = TTok q /\ quote_token q.
Definition closing (t : tree) : Prop := exists c, t = TTok c /\ t_text c = txt ")".
Definition number_class (radix : option nat) (k : cls) : Prop :=
  (k = KNumber /\ (radix = None \/ radix = Some 0 \/ radix = Some 10)) \/ (k = KBin /\ radix = Some 2) \/ (k = KOct /\ radix = Some 8) \/ (k = KHex /\ radix = Some 16).
Definition block_class (l : lexicon) (k : cls) : Prop := (l = LList /\ k = KList) \/ (l = LVector /\ k = KVector).

Section Reading.
Variable value : nat -> list token -> bool.
(** [datum ts n rest]: at the start of [ts] is the datum [n], [rest] is what follows it.  [data ts ns]: the data in [ts].  [contents t n]: what is in a context. *)
Inductive datum : list tree -> node -> list tree -> Prop :=
| datum_token t k r : token_class t k -> datum (TTok t :: r) (N k [t] [] []) r
| datum_context c n r : contents c n -> datum (c :: r) n r
| datum_skip r n r' : datum r n r' -> datum (TOther None :: r) n r'
| datum_quote q r n r' : quote_token q -> datum r n r' -> datum (TTok q :: r) (N KQuote [q] [n] []) r'
with data : list tree -> list node -> Prop :=
| data_end l : Forall silent l -> data l []
| data_more ts n r ns : datum ts n r -> data r ns -> data ts (n :: ns)
with contents : tree -> node -> Prop :=
| contents_other n : contents (TOther (Some n)) n
| contents_root ts ns : data ts ns -> contents (TCx LRoot ts) (N KDocument [] ns [])
| contents_closed l k o ts c ns : block_class l k -> t_text c = txt ")" -> data ts ns -> contents (TCx l (TTok o :: ts ++ [TTok c])) (N k [o] ns [c])
| contents_open l k o ts ns : block_class l k -> (forall a b, TTok o :: ts = a ++ [b] -> ~ closing b) -> data ts ns -> contents (TCx l (TTok o :: ts)) (N k [o] ns [])
| contents_number r k ts : number_class r k -> value (match r with Some 0 | None => 10 | Some n => n end) ts = true -> contents (TCx (LNumber r) (map TTok ts)) (N k ts [] [])
| contents_nan r k ts : number_class r k -> value (match r with Some 0 | None => 10 | Some n => n end) ts = false -> contents (TCx (LNumber r) (map TTok ts)) (N KNaN ts [] [])
| contents_string ts : contents (TCx LString (map TTok ts)) (N KString ts [] [])
| contents_multi ts : contents (TCx LMulti (map TTok ts)) (N KMulti ts [] [])
| contents_single ts : contents (TCx LSingle (map TTok ts)) (N KSingle ts [] []).
End Reading.

(** The trees that parce makes: a list starts with a token (that is not the closing one), numbers, strings and comments are only tokens. *)
Inductive shaped : tree -> Prop :=
| shaped_token t : shaped (TTok t)
| shaped_other n : shaped (TOther n)
| shaped_root ts : Forall shaped ts -> shaped (TCx LRoot ts)
| shaped_block l o ts : l = LList \/ l = LVector -> t_text o <> txt ")" -> Forall shaped ts -> shaped (TCx l (TTok o :: ts))
| shaped_flat l ts : l <> LRoot -> l <> LList -> l <> LVector -> shaped (TCx l (map TTok ts)).

(** The tokens in order. *)
Fixpoint node_tokens (n : node) : list token := match n with N _ h kids t => h ++ flat_map node_tokens kids ++ t end.
Fixpoint tree_tokens (t : tree) : list token :=
  match t with TTok t => [t] | TCx _ kids => flat_map tree_tokens kids | TOther (Some n) => node_tokens n | TOther None => [] end.
(** Every quote is followed by something in its context. *)
Inductive quotes_used : list tree -> Prop :=
| used_end l : Forall (fun t => t = TOther None) l -> quotes_used l
| used_more l t r : Forall silent l -> ~ silent t -> quotes_used r -> quotes_used (l ++ t :: r).
Inductive all_used : tree -> Prop :=
| all_token t : all_used (TTok t)
| all_other n : all_used (TOther n)
| all_root ts : quotes_used ts -> Forall all_used ts -> all_used (TCx LRoot ts)
| all_closed l o ts c : (l = LList \/ l = LVector) -> t_text c = txt ")" -> quotes_used ts -> Forall all_used ts -> all_used (TCx l (TTok o :: ts ++ [TTok c]))
| all_open l o ts : (l = LList \/ l = LVector) -> (forall a b, TTok o :: ts = a ++ [b] -> ~ closing b) -> quotes_used ts -> Forall all_used ts -> all_used (TCx l (TTok o :: ts))
| all_flat l ts : l <> LRoot -> l <> LList -> l <> LVector -> all_used (TCx l (map TTok ts)).

(** ** Values *)
(** Items with a space between them. *)
Fixpoint spaced (l : list str) : str := match l with [] => [] | [s] => s | s :: r => s ++ txt " " ++ spaced r end.
(** Elements without whitespace of their own, except between the items of a list: words, words before an element (quotes), and lists. *)
Inductive simple : elem -> str -> Prop :=
| simple_word s : s <> [] -> simple (E (plain_attrs Head s [] []) []) s
| simple_quote m e s : m <> [] -> simple e s -> simple (E (plain_attrs Head m [] []) [e]) (m ++ s)
| simple_list es ss : Forall2 simple es ss -> simple (E (plain_attrs Block (txt "(") (txt ")") (txt " ")) es) (txt "(" ++ spaced ss ++ txt ")").
(** The notation in Scheme. *)
Inductive notation : value -> str -> Prop :=
| notation_true : notation (VBool true) (txt "#t")
| notation_false : notation (VBool false) (txt "#f")
| notation_number t : t <> [] -> notation (VNumber t) t
| notation_str s : notation (VStr s) (Heads_Model.string_write s)
| notation_element e s : simple e s -> notation (VElement e) s
| notation_list l ss : Forall2 notation l ss -> notation (VList l) (txt "(" ++ spaced ss ++ txt ")")
| notation_pair l v ss s : l <> [] -> Forall2 notation l ss -> notation v s -> notation (VTuple (l ++ [v])) (txt "(" ++ spaced ss ++ txt " . " ++ s ++ txt ")").
(** A value somewhere in a value. *)
Inductive inside (v : value) : value -> Prop :=
| inside_here : inside v v
| inside_list w l : In w l -> inside v w -> inside v (VList l)
| inside_tuple w l : In w l -> inside v w -> inside v (VTuple l).
(** A value that can be converted: of a supported type, with two items or more in a tuple. *)
Definition sound_value (v : value) : Prop :=
  match v with VOther => False | VTuple l => 2 <= length l | VNumber t => t <> [] | VElement e => exists s, simple e s | _ => True end.

(** A tree in which everything can be read: in lists and documents there are only tokens that are quotes or of a known class. *)
Definition known_token (t : token) : Prop := quote_token t \/ exists k, token_class t k.
Definition known_item (t : tree) : Prop := match t with TTok t => known_token t | _ => True end.
Inductive known : tree -> Prop :=
| known_tok t : known (TTok t)
| known_other n : known (TOther n)
| known_root ts : Forall known ts -> Forall known_item ts -> known (TCx LRoot ts)
| known_closed l o ts c : (l = LList \/ l = LVector) -> t_text c = txt ")" -> Forall known ts -> Forall known_item ts -> known (TCx l (TTok o :: ts ++ [TTok c]))
| known_open l o ts : (l = LList \/ l = LVector) -> (forall a b, TTok o :: ts = a ++ [b] -> ~ closing b) -> Forall known ts -> Forall known_item ts -> known (TCx l (TTok o :: ts))
| known_number r k ts : number_class r k -> known (TCx (LNumber r) (map TTok ts))
| known_flat l ts : l = LString \/ l = LMulti \/ l = LSingle -> known (TCx l (map TTok ts)).
