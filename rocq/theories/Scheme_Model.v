(** Model of reading Scheme (quickly/lang/scheme.py) and of making Scheme of Python values (quickly/dom/scm.py). *)
From Coq Require Import String Ascii List Arith PeanoNat Bool.
From Verif Require Import Base Element_Model.
From Verif Require Heads_Model.
Import ListNotations.
Open Scope nat_scope.

(** ** lang/scheme.py *)
(** The actions of tokens that are distinguished (lang/scheme.py 45-51, 61). *)
Inductive action := ACharacter | ADot | AKeyword | AName | ABoolean | AQuote | AOther (n : nat).
(** lang/scheme.py 45-51, 61, with [action] *)
Record token := Token { t_num : nat; t_text : str; t_action : action }.
(** The classes in scm.py (lily.Scheme is [KLily]); [KOther] for all the others. (for [common_mapping], lang/scheme.py 45-51) *)
Inductive cls := KChar | KDot | KIdentifier | KBool | KQuote | KList | KVector | KNumber | KBin | KOct | KHex | KNaN | KString | KMulti | KSingle | KDocument | KLily | KOther (n : nat).
(** An element: its class, head_origin, children and tail_origin. (for [wrap], lang/scheme.py 68-69) *)
Inductive node := N (k : cls) (head : list token) (kids : list node) (tail : list token).
(** An item is a token, or what the transform made of a context: an element, or something else (such as None). (for [common], lang/scheme.py 54-71) *)
Inductive item := Tok (t : token) | Elem (n : node) | NoElem.

(** lang/scheme.py 45-51 _common_mapping *)
Definition common_mapping (a : action) : option cls :=
  match a with
  | ACharacter => Some KChar | ADot => Some KDot | AKeyword => Some KIdentifier | AName => Some KIdentifier | ABoolean => Some KBool
  | AQuote | AOther _ => None
  end.
(** lang/scheme.py 45-51, with [common_mapping] *)
Definition is_quote (a : action) : bool := match a with AQuote => true | _ => false end.
(** lang/scheme.py 68-69: the quotes around a node *)
Definition wrap (quotes : list token) (n : node) : node := fold_left (fun n q => N KQuote [q] [n] []) (rev quotes) n.
(** lang/scheme.py 54-71 common: the nodes that the generator yields, and the exception that ends it *)
Fixpoint common (quotes : list token) (items : list item) : list node * option exn :=
  match items with
  | [] => ([], None)
  | Tok t :: r =>
      if is_quote (t_action t) then common (quotes ++ [t]) r
      else match common_mapping (t_action t) with
           | None => ([], Some KeyError)
           | Some k => let (l, e) := common [] r in (wrap quotes (N k [t] [] []) :: l, e)
           end
  | Elem n :: r => let (l, e) := common [] r in (wrap quotes n :: l, e)
  | NoElem :: r => common quotes r
  end.
(** [*self.common(items)]. (for [read_root], lang/scheme.py 74-76) *)
Definition all_of (g : list node * option exn) : res (list node) := match snd g with None => Ok (fst g) | Some e => Err e end.
(** for [read_block], lang/scheme.py 78-82 *)
Definition tokens (items : list item) : list token := flat_map (fun i => match i with Tok t => [t] | _ => [] end) items.
(** [items[-1] == ')']: only a token compares equal to a string. (for [read_block], lang/scheme.py 78-82) *)
Definition closes (i : item) : bool := match i with Tok t => if list_eq_dec ascii_dec (t_text t) (txt ")") then true else false | _ => false end.

(** lang/scheme.py 74-76 root *)
Definition read_root (items : list item) : res node := let! l := all_of (common [] items) in Ok (N KDocument [] l []).
(** lang/scheme.py 78-82 list, 84-88 vector *)
Definition read_block (k : cls) (items : list item) : res node :=
  match rev items with
  | [] => Err IndexError
  | i :: _ =>
      let head := firstn 1 items in
      let tail := if closes i then [i] else [] in
      let items := if closes i then removelast items else items in
      let! l := all_of (common [] (skipn 1 items)) in
      Ok (N k (tokens head) l (tokens tail))
  end.
(** lang/scheme.py 90-102 number; [radix] is items.arg (None if there is none), [value] tells whether reading the value raises ValueError or ZeroDivisionError
    (in parce), which is caught.  The value itself is the matter of Heads_Model. *)
Definition radix_mapping (r : nat) : option cls :=
  match r with 2 => Some KBin | 8 => Some KOct | 10 => Some KNumber | 16 => Some KHex | _ => None end.
(** lang/scheme.py 90-102, with [radix_mapping] *)
Definition read_number (value : nat -> list token -> bool) (radix : option nat) (items : list item) : res node :=
  let r := match radix with None | Some 0 => 10 | Some r => r end in
  match radix_mapping r with
  | None => Err KeyError
  | Some k => Ok (N (if value r (tokens items) then k else KNaN) (tokens items) [] [])
  end.
(** lang/scheme.py 116-123 scheme *)
Definition read_scheme (items : list item) : res node :=
  match common [] (skipn 1 items) with
  | (n :: _, _) => Ok (N KLily (tokens (firstn 1 items)) [n] [])
  | ([], Some e) => Err e
  | ([], None) => Ok (N KLily (tokens (firstn 1 items)) [] [])
  end.
(** lang/scheme.py 125-128 argument *)
Definition read_argument (items : list item) : res (option node) :=
  match common [] items with
  | (n :: _, _) => Ok (Some n)
  | ([], Some e) => Err e
  | ([], None) => Ok None
  end.

(** ** The whole transform: the tree of contexts and tokens of parce is transformed from the leaves to the root, each context with the method with the
    name of its lexicon.  [CxOther] is a context of another language, with what its transform returns. (which method of lang/scheme.py 74-128 is called for a context) *)
Inductive lexicon := LRoot | LList | LVector | LNumber (radix : option nat) | LString | LMulti | LSingle.
(** which method of lang/scheme.py 74-128 is called for a context *)
Inductive tree := TTok (t : token) | TCx (l : lexicon) (kids : list tree) | TOther (n : option node).
Section Transform.
Variable value : nat -> list token -> bool.
(** lang/scheme.py 104-114 string and comments *)
Definition method (l : lexicon) (items : list item) : res node :=
  match l with
  | LRoot => read_root items
  | LList => read_block KList items
  | LVector => read_block KVector items
  | LNumber r => read_number value r items
  | LString => Ok (N KString (tokens items) [] [])
  | LMulti => Ok (N KMulti (tokens items) [] [])
  | LSingle => Ok (N KSingle (tokens items) [] [])
  end.
(** which method of lang/scheme.py 74-128 is called for a context *)
Fixpoint transform (t : tree) : res item :=
  match t with
  | TTok t => Ok (Tok t)
  | TOther (Some n) => Ok (Elem n)
  | TOther None => Ok NoElem
  | TCx l kids =>
      let! items := (fix go (k : list tree) : res (list item) :=
        match k with [] => Ok [] | c :: r => let! i := transform c in let! l := go r in Ok (i :: l) end) kids in
      let! n := method l items in Ok (Elem n)
  end.
End Transform.

(** ** dom/scm.py *)
(** Python values: bool, int, float and Fraction (the text of the Number is given, see Heads_Model), str, list, tuple, an element (given by what it writes), and
    any other. (dom/scm.py 228-241) *)
Inductive value := VBool (b : bool) | VNumber (text : str) | VStr (s : str) | VList (l : list value) | VTuple (l : list value) | VElement (e : elem) | VOther.

(** The attributes of a new element (scm.py 109-146, 148-225).  Number and String write at least one character. *)
Definition plain_attrs (k : kind) (head tail between : str) : attrs :=
  Attrs k 0 (Ok head) tail None None false false [] [] between [] [].
(** scm.py 109-146, 148-225, with [plain_attrs] *)
Definition e_bool (b : bool) : elem := E (plain_attrs Head (txt (if b then "#t" else "#f")) [] []) [].
(** scm.py 109-146, 148-225, with [plain_attrs] *)
Definition e_text (s : str) : elem := E (plain_attrs Head s [] []) [].
(** scm.py 109-146, 148-225, with [plain_attrs] *)
Definition e_list (kids : list elem) : elem := E (plain_attrs Block (txt "(") (txt ")") (txt " ")) kids.
(** scm.py 109-146, 148-225, with [plain_attrs] *)
Definition e_dot : elem := E (plain_attrs Head (txt ".") [] []) [].

(** dom/scm.py 228-241 create_element_from_value, 275-283 _element_mapping.  [map] is evaluated from the left, the tuple's last item at the end. *)
Fixpoint create (v : value) : res elem :=
  let all := (fix all (l : list value) : res (list elem) :=
    match l with [] => Ok [] | v :: r => let! e := create v in let! es := all r in Ok (e :: es) end) in
  match v with
  | VElement e => Ok e
  | VBool b => Ok (e_bool b)
  | VNumber t => Ok (e_text t)
  | VStr s => Ok (e_text (Heads_Model.string_write s))
  | VList l => let! es := all l in Ok (e_list es)
  | VTuple l =>
      let! es := all l in
      Ok (e_list (firstn (length es - 1) es ++ e_dot :: skipn (length es - 1) es)%list)
  | VOther => Err KeyError
  end.
(** dom/scm.py 244-256 q, qq, uq *)
Definition quote (mark : string) (v : value) : res elem :=
  let! e := create v in Ok (E (plain_attrs Head (txt mark) [] []) [e]).
(** dom/scm.py 264-266 p *)
Definition pair (v1 v2 : value) (args : list value) : res elem := create (VTuple (v1 :: v2 :: args)).
