(** Model of reading LaTeX (quickly/lang/latex.py 69-286, LatexTransform) and of the heads of quickly/dom/tex.py. *)
From Coq Require Import String Ascii List Arith PeanoNat Bool.
From Verif Require Import Base.
Import ListNotations.
Open Scope nat_scope.

(** The actions that are distinguished: Name.Builtin, Name.Command, Delimiter.Brace, Delimiter.Bracket, Delimiter, Name.Tag and all others. (for [matches], lang/latex.py 69-290) *)
Inductive action := ABuiltin | ACommand | ABrace | ABracket | ADelimiter | ATag | AOther (n : nat).
(** for [matches], lang/latex.py 69-290 *)
Definition action_eqb (a b : action) : bool :=
  match a, b with
  | ABuiltin, ABuiltin | ACommand, ACommand | ABrace, ABrace | ABracket, ABracket | ADelimiter, ADelimiter | ATag, ATag => true
  | AOther n, AOther m => Nat.eqb n m
  | _, _ => false
  end.
(** for [opt], lang/latex.py 82-96 *)
Record token := Token { t_num : nat; t_text : str; t_action : action }.
(** The classes in tex.py that are made, and all others (those of LilyPond). (for [math_class], lang/latex.py 168-177) *)
Inductive cls := KDocument | KOption | KBrace | KMathInlineParen | KMathInlineDollar | KMathDisplayBracket | KMathDisplayDollar | KCommand | KText
  | KEnvironment | KEnvironmentName | KComment | KOther (n : nat).
(** An element: its class, head_origin, children and tail_origin. (for [opt], lang/latex.py 82-96) *)
Inductive node := N (k : cls) (head : list token) (kids : list node) (tail : list token).

(** lang/latex.py 82-96: an option is an Option element, or a tuple of contents and tail if its [[] is not in the context. *)
Inductive opt := Part (contents : list node) (tail : list token) | Whole (n : node).
(** [item == text] and [item.action in], as used in lang/latex.py 69-290 *)
Inductive lexicon := LBrace | LMath | LComment | LOption | LEnvironmentOption | LEnvironment | LEnvironmentMath.
(** An item: a token; an element (brace, math, comment; [brace] tells if it is a brace context); what option, environment_option and environment (or
    environment_math) return; what latex_lilypond_environment returns (lang/lilypond.py 349-374, see Read_Model); or another context. *)
Inductive item := Tok (t : token) | INode (brace : bool) (n : node) | IOption (o : list opt) (command_head : list token) | IEnvOption (o : list opt) (name : option node)
  | IEnvironment (ns : list node) | ILily (o : list opt) (music : list node) (tail : list token) | IUnknown.

Section Transform.
(** [Items.peek] of parce: [below] tells if it also accepts actions below the one that is asked for (Delimiter.Brace is below Delimiter). *)
Variable below : bool.
(** [item == text] and [item.action in], as used in lang/latex.py 69-290 *)
Definition matches (a asked : action) : bool :=
  action_eqb a asked || (below && match a, asked with (ABrace | ABracket), ADelimiter => true | _, _ => false end).
(** [item == text] and [item.action in], as used in lang/latex.py 69-290 *)
Definition is_text (t : token) (s : string) : bool := if list_eq_dec ascii_dec (t_text t) (txt s) then true else false.
(** [item == text] and [item.action in], as used in lang/latex.py 69-290 *)
Definition item_is (s : string) (i : item) : bool := match i with Tok t => is_text t s | _ => false end.
(** [item == text] and [item.action in], as used in lang/latex.py 69-290 *)
Definition tokens (items : list item) : list token := flat_map (fun i => match i with Tok t => [t] | _ => [] end) items.

(** ** common (186-286) *)
(** lang/latex.py 193-200 get_options; a tuple cannot be a child *)
Fixpoint elements (o : list opt) : res (list node) :=
  match o with
  | [] => Ok []
  | Whole n :: r => let! ns := elements r in Ok (n :: ns)
  | Part _ _ :: _ => Err AttributeError
  end.
(** lang/latex.py 193-200, with [elements] *)
Definition get_options (head : token) (o : list opt) : res (list node) :=
  match o with
  | [] => Err IndexError
  | Part contents tail :: r => let! ns := elements r in Ok (N KOption [head] contents tail :: ns)
  | Whole _ :: _ => elements o
  end.
(** lang/latex.py 202-214 command: the element, and the items after it *)
Definition command (t : token) (items : list item) : res (node * list item) :=
  let! (args, items) :=
    match items with
    | Tok b :: IOption o _ :: r => if matches (t_action b) ABracket then let! ns := get_options b o in Ok (ns, r) else Ok ([], items)
    | _ => Ok ([], items)
    end in
  match items with
  | INode true n :: r => Ok (N KCommand [t] (args ++ [n]) [], r)
  | _ => Ok (N KCommand [t] args [], items)
  end.
(** lang/latex.py 216-232 lilypond_command *)
Definition lilypond_command (t : token) (items : list item) : res (node * list item) :=
  match items with
  | Tok b :: ILily _ music tail :: r =>
      if matches (t_action b) ABrace then Ok (N KCommand [t] [N KBrace [b] music tail] [], r) else Ok (N KCommand [t] [] [], items)
  | Tok b :: IOption o command_head :: r =>
      if matches (t_action b) ADelimiter then
        let! ns := get_options b o in
        match r with
        | ILily _ music tail :: r => Ok (N KCommand [t] (ns ++ [N KBrace command_head music tail]) [], r)
        | _ => Ok (N KCommand [t] ns [], r)
        end
      else Ok (N KCommand [t] [] [], items)
  | _ => Ok (N KCommand [t] [] [], items)
  end.
(** lang/latex.py 234-260 environment *)
Definition environment_name (a b c : token) : node := N KEnvironmentName [a; b; c] [] [].
(** lang/latex.py 234-260, with [environment_name] *)
Definition name_node (o : option node) : list node := match o with Some n => [n] | None => [] end.
(** lang/latex.py 239-249: the options and the name *)
Definition environment_begin (items : list item) : res (list node * list item) :=
  match items with
  | Tok a :: Tok b :: Tok c :: r =>
      if matches (t_action a) ADelimiter && matches (t_action b) ATag && matches (t_action c) ADelimiter then Ok ([environment_name a b c], r) else Ok ([], items)
  | Tok a :: IEnvOption o name :: r =>
      if matches (t_action a) ABracket then let! ns := get_options a o in Ok (ns ++ name_node name, r) else Ok ([], items)
  | _ => Ok ([], items)
  end.
(** lang/latex.py 250-260: the contents *)
Definition environment_body (t : token) (args : list node) (items : list item) : res (node * list item) :=
  match items with
  | [] | Tok _ :: _ => Ok (N KEnvironment [] [N KCommand [t] args []] [], items)
  | IEnvironment ns :: r => Ok (N KEnvironment [] (N KCommand [t] args [] :: ns) [], r)
  | ILily o music _ :: r => let! ns := elements o in Ok (N KEnvironment [] (N KCommand [t] (args ++ ns) [] :: music) [], r)
  | _ :: r => Ok (N KEnvironment [] [N KCommand [t] args []] [], r)
  end.
(** lang/latex.py 250-260, with [environment_body] *)
Definition read_environment (t : token) (items : list item) : res (node * list item) :=
  let! (args, items) := environment_begin items in environment_body t args items.
(** lang/latex.py 278-285: the text before a node *)
Definition flush (text : list token) : list node := match text with [] => [] | _ => [N KText text [] []] end.
(** lang/latex.py 262-286 the loop; [text]: the tokens collected *)
Fixpoint common (fuel : nat) (text : list token) (items : list item) : res (list node) :=
  match fuel with
  | O => Err OutOfFuel
  | S fuel =>
      match items with
      | [] => Ok (flush text)
      | Tok t :: r =>
          match t_action t with
          | ABuiltin =>
              let! (n, r) := (if is_text t "\lilypond" then lilypond_command t r else read_environment t r) in
              let! ns := common fuel [] r in Ok (flush text ++ n :: ns)
          | ACommand => let! (n, r) := command t r in let! ns := common fuel [] r in Ok (flush text ++ n :: ns)
          | _ => common fuel (text ++ [t]) r
          end
      | INode _ n :: r => let! ns := common fuel [] r in Ok (flush text ++ n :: ns)
      | (IOption _ _ | IEnvOption _ _ | IEnvironment _ | ILily _ _ _ | IUnknown) :: r => common fuel text r
      end
  end.
(** lang/latex.py 262-286, with [common] *)
Definition all_common (items : list item) : res (list node) := common (S (length items)) [] items.

(** ** The methods *)
(** Take off the last item if it is a token with this text. (for [brace], lang/latex.py 76-80) *)
Definition pop (s : string) (items : list item) : list item * list token :=
  match rev items with
  | Tok t :: r => if is_text t s then (rev r, [t]) else (items, [])
  | _ => (items, [])
  end.
(** lang/latex.py 76-80 brace *)
Definition brace (items : list item) : res node :=
  match items with
  | [] => Err IndexError
  | i :: _ => let (items, tail) := pop "}" items in let! ns := all_common (skipn 1 items) in Ok (N KBrace (tokens [i]) ns tail)
  end.
(** lang/latex.py 168-177 math *)
Definition math_class (t : token) : option (cls * string) :=
  if is_text t "\(" then Some (KMathInlineParen, "\)"%string)
  else if is_text t "$" then Some (KMathInlineDollar, "$"%string)
  else if is_text t "\[" then Some (KMathDisplayBracket, "\]"%string)
  else if is_text t "$$" then Some (KMathDisplayDollar, "$$"%string)
  else None.
(** lang/latex.py 168-177, with [math_class] *)
Definition math (items : list item) : res node :=
  match items with
  | [] => Err IndexError
  | Tok t :: r =>
      match math_class t with
      | None => Err KeyError
      | Some (k, s) => let (body, tail) := pop s r in let! ns := all_common body in Ok (N k [t] ns tail)
      end
  | _ :: _ => Err AttributeError
  end.
(** [items.index(s)]: the items before the first token with the text, the token, and those after it. (for [options], lang/latex.py 106-130) *)
Fixpoint index (s : string) (items : list item) : option (list item * token * list item) :=
  match items with
  | [] => None
  | i :: r =>
      match (if item_is s i then i else IUnknown) with
      | Tok t => Some ([], t, r)
      | _ => match index s r with Some (a, t, b) => Some (i :: a, t, b) | None => None end
      end
  end.
(** lang/latex.py 106-130 the options of option *)
Fixpoint options (fuel : nat) (head : list token) (items : list item) : res (list opt) :=
  match fuel with
  | O => Err OutOfFuel
  | S fuel =>
      match index "]" items with
      | None => let! ns := all_common items in Ok [Whole (N KOption head ns [])]
      | Some (a, t, r) =>
          let! ns := all_common a in
          let o := match head with [] => Part ns [t] | _ => Whole (N KOption head ns [t]) end in
          match index "[" r with
          | None => Ok [o]
          | Some (_, h, r) => let! os := options fuel [h] r in Ok (o :: os)
          end
      end
  end.
(** lang/latex.py 82-130 option *)
Definition option_method (items : list item) : res (list opt * list token) :=
  let (items, command_head) :=
    match rev items with
    | Tok t :: r => if matches (t_action t) ABrace then (rev r, [t]) else (items, [])
    | _ => (items, [])
    end in
  let! os :=
    match items with
    | Tok t :: r => if matches (t_action t) ABracket && is_text t "[" then options (S (length r)) [t] r else options (S (length items)) [] items
    | _ => options (S (length items)) [] items
    end in
  Ok (os, command_head).
(** lang/latex.py 132-146 environment_option *)
Definition environment_option (items : list item) : res (list opt * option node) :=
  let (items, name) :=
    match rev items with
    | Tok c :: Tok b :: Tok a :: r =>
        if matches (t_action a) ADelimiter && matches (t_action b) ATag && matches (t_action c) ADelimiter then (rev r, Some (environment_name a b c)) else (items, None)
    | _ => (items, None)
    end in
  let! x := option_method items in Ok (fst x, name).
(** lang/latex.py 152-166 environment, environment_math (148-150) *)
Definition environment (items : list item) : res (list node) :=
  let (items, e) :=
    match rev items with
    | Tok c :: Tok b :: Tok a :: Tok t :: r =>
        if matches (t_action t) ABuiltin && matches (t_action a) ADelimiter && matches (t_action b) ATag && matches (t_action c) ADelimiter
        then (rev r, [N KCommand [t] [environment_name a b c] []]) else (items, [])
    | _ => (items, [])
    end in
  let! ns := all_common items in Ok (ns ++ e).

(** ** The tree of parce *)
(** [TLily]: a latex_lilypond_environment context: its first context if that is an option context (lang/lilypond.py 360-361), the elements and tail. *)
Inductive tree := TTok (t : token) | TCx (l : lexicon) (kids : list tree) | TLily (opts : list tree) (music : list node) (tail : list token) | TUnknown (toks : list token).
(** which method of lang/latex.py 69-180 is called for a context *)
Definition method (l : lexicon) (items : list item) : res item :=
  match l with
  | LBrace => let! n := brace items in Ok (INode true n)
  | LMath => let! n := math items in Ok (INode false n)
  (* 179-181 *)
  | LComment => Ok (INode false (N KComment (tokens items) [] []))
  | LOption => let! x := option_method items in Ok (IOption (fst x) (snd x))
  | LEnvironmentOption => let! x := environment_option items in Ok (IEnvOption (fst x) (snd x))
  | LEnvironment | LEnvironmentMath => let! ns := environment items in Ok (IEnvironment ns)
  end.
(** which method of lang/latex.py 69-180 is called for a context *)
Definition lily_options (items : list item) : list opt := match items with IOption o _ :: _ => o | _ => [] end.
(** which method of lang/latex.py 69-180 is called for a context *)
Fixpoint transform (t : tree) : res item :=
  let all := fix all (l : list tree) : res (list item) :=
    match l with [] => Ok [] | t :: r => let! i := transform t in let! is := all r in Ok (i :: is) end in
  match t with
  | TTok t => Ok (Tok t)
  | TUnknown _ => Ok IUnknown
  | TLily opts music tail => let! items := all opts in Ok (ILily (lily_options items) music tail)
  | TCx l kids => let! items := all kids in method l items
  end.
(** which method of lang/latex.py 69-180 is called for a context *)
Fixpoint transforms (l : list tree) : res (list item) :=
  match l with [] => Ok [] | t :: r => let! i := transform t in let! is := transforms r in Ok (i :: is) end.
(** lang/latex.py 72-74 root *)
Definition root (kids : list tree) : res node :=
  let! items := transforms kids in let! ns := all_common items in Ok (N KDocument [] ns []).
End Transform.

(** ** Heads (quickly/dom/tex.py) *)
(** dom/tex.py 129-132 EnvironmentName.read_head: [t.text not in "{}"] asks if the text is part of that string *)
Definition part_of_braces (s : str) : bool :=
  existsb (fun x => if list_eq_dec ascii_dec s x then true else false) [[]; txt "{"; txt "}"; txt "{}"].
(** dom/tex.py 129-132, with [part_of_braces] *)
Fixpoint name_head (origin : list token) : option str :=
  match origin with [] => None | t :: r => if part_of_braces (t_text t) then name_head r else Some (t_text t) end.
(** dom/tex.py 134-135 write_head *)
Definition name_write (head : str) : str := txt "{" ++ head ++ txt "}".
(** dom/tex.py 143-147 Comment.read_head, write_head *)
Definition comment_head (origin : list token) : str := flat_map t_text (skipn 1 origin).
(** dom/tex.py 143-147, with [comment_head] *)
Definition comment_write (head : str) : str := txt "%" ++ head.
