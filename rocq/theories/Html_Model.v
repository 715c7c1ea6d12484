(** Model of reading HTML (quickly/lang/html.py 78-297, HtmlTransform). *)
From Coq Require Import String Ascii List Arith PeanoNat Bool.
From Verif Require Import Base.
Import ListNotations.
Open Scope nat_scope.

(** The actions that are distinguished. (for [matches], lang/html.py 116-296) *)
Inductive action := AText | AWhitespace | AEscape | ADelimiter | ATag | ATagDefinition | AKeyword | AAttribute | AName | ANumber | AUnit
  | AString | AStringSingle | AStringDouble | AStringEscape | AOther (n : nat).
(** for [matches], lang/html.py 116-296 *)
Definition action_eqb (a b : action) : bool :=
  match a, b with
  | AText, AText | AWhitespace, AWhitespace | AEscape, AEscape | ADelimiter, ADelimiter | ATag, ATag | ATagDefinition, ATagDefinition
  | AKeyword, AKeyword | AAttribute, AAttribute | AName, AName | ANumber, ANumber | AUnit, AUnit | AString, AString | AStringSingle, AStringSingle
  | AStringDouble, AStringDouble | AStringEscape, AStringEscape => true
  | AOther n, AOther m => Nat.eqb n m
  | _, _ => false
  end.
(** A token of parce.  [t_last]: its group is -2, it is the last one of the match it belongs to. (for [node], lang/html.py 96-106) *)
Record token := Token { t_num : nat; t_text : str; t_action : action; t_last : bool }.
(** The classes in htm.py that are made, base.Unknown, and all others (those of LilyPond). (for [node], lang/html.py 96-106) *)
Inductive cls := KDocument | KElement | KText | KEntityRef | KOpenTag | KCloseTag | KSingleTag | KTagName | KAttribute | KAttrName | KEqualSign | KColon
  | KNumber | KUnit | KDqString | KSqString | KComment | KCData | KInstruction | KUnknown | KOther (n : nat).
(** An element: its class, head_origin, children and tail_origin (lang/html.py 96-106 factory). *)
Inductive node := N (k : cls) (head : list token) (kids : list node) (tail : list token).

(** The lexicons with a transform method. (for [item], lang/lilypond.py 322-346) *)
Inductive lexicon := LTag | LAttrs | LOptions | LComment | LCData | LDq | LSq | LInstruction.
(** What a method returns: a list of nodes (tag), attributes and the closing delimiter (attrs, lilypond_book_options), or a node. (for [item], lang/lilypond.py 322-346) *)
Inductive obj := ONodes (l : list node) | OAttrs (l : list node) (tail : list token) | ONode (n : node).
(** An item: a token, the object of a context, that of html_lilypond_tag (lang/lilypond.py 322-346, see Read_Model), or an untransformed
    context (only its last token is used; a context of parce is never empty). *)
Inductive item := Tok (t : token) | Item (l : lexicon) (o : obj) | ILily (objs : list node) (tail : list token) | IUntransformed (last : token).

(** [a in b] for the actions of parce: is an action another one, or below it?  [Items.peek] of parce compares actions; [below] tells if it also accepts
    actions below the one that is asked for (String.Double is below String, Name.Tag.Definition below Name.Tag). *)
Section Transform.
Variable below : bool.
(** [item == text] and [item.action in], as used in lang/html.py 116-296 *)
Definition matches (a asked : action) : bool :=
  action_eqb a asked ||
  (below && match a, asked with
            | ATagDefinition, ATag | AStringSingle, AString | AStringDouble, AString | AStringEscape, AString => true
            | (AAttribute | ATag | AUnit | ATagDefinition), AName => true
            | _, _ => false end).

(** [item == text] and [item.action in], as used in lang/html.py 116-296 *)
Definition is_text (t : token) (s : string) : bool := if list_eq_dec ascii_dec (t_text t) (txt s) then true else false.
(** for [single_or_open], lang/html.py 174-241 *)
Definition has_slash (t : token) : bool := existsb (Ascii.eqb "/") (t_text t).
(** for [append_last], lang/html.py 244-284 *)
Definition kids_of (n : node) : list node := match n with N _ _ k _ => k end.
(** for [append_last], lang/html.py 244-284 *)
Definition append (n c : node) : node := match n with N k h kids t => N k h (kids ++ [c]) t end.
(** for [tag], lang/html.py 174-241 *)
Definition extend (n : node) (cs : list node) : node := match n with N k h kids t => N k h (kids ++ cs) t end.

(** lang/html.py 244-284 lilypond_book_options, also attrs (121-128).  [acc]: the attributes made so far, the last one first. *)
Definition append_last (acc : list node) (test : nat -> bool) (c : node) : list node :=
  match acc with a :: r => if test (length (kids_of a)) then append a c :: r else acc | [] => [] end.
(** lang/html.py 244-284, with [append_last] *)
Fixpoint options (acc : list node) (items : list item) : res (list node * list token) :=
  match items with
  | [] => Ok (rev acc, [])
  | Tok t :: r =>
      if action_eqb (t_action t) AAttribute then options (N KAttribute [] [N KAttrName [t] [] []] [] :: acc) r
      else if is_text t "=" then options (append_last acc (fun n => n =? 1) (N KEqualSign [t] [] [])) r
      else if action_eqb (t_action t) ADelimiter then Ok (rev acc, [t])
      else
        match (if is_text t """" && matches (t_action t) AString then r else []) with
        | IUntransformed u :: _ =>
            (* i += 1 (270) *)
            match r with _ :: r' => options (append_last acc (fun n => 1 <? n) (N KUnknown [t; u] [] [])) r' | [] => Ok (rev acc, []) end
        | _ =>
            if action_eqb (t_action t) ANumber then options (append_last acc (fun n => 1 <? n) (N KNumber [t] [] [])) r
            else if action_eqb (t_action t) AUnit then options (append_last acc (fun n => 2 <? n) (N KUnit [t] [] [])) r
            else if action_eqb (t_action t) AName then options (N KAttribute [] [N KAttrName [t] [] []] [] :: acc) r
            else options acc r
        end
  | Item _ (ONode n) :: r => options (append_last acc (fun n => n =? 2) n) r
  (* 281-282: other objects cannot be children (simplified: this error, at once) *)
  | (Item _ _ | ILily _ _ | IUntransformed _) :: r =>
      match acc with a :: _ => if length (kids_of a) =? 2 then Err TypeError else options acc r | [] => options acc r end
  end.

(** lang/html.py 286-296 the action handlers; other actions have none *)
Definition piece (t : token) : option node :=
  match t_action t with
  | AEscape | AStringEscape => Some (N KEntityRef [t] [] [])
  | AStringSingle | AStringDouble => Some (N KText [t] [] [])
  | _ => None
  end.
(** lang/html.py 286-296, with [piece] *)
Fixpoint pieces (items : list item) : res (list node) :=
  match items with
  | [] => Ok []
  | Tok t :: r => match piece t with Some n => let! ns := pieces r in Ok (n :: ns) | None => Err AttributeError end
  | _ :: _ => Err AttributeError
  end.
(** Take off the last item if it is a token with this text (lang/html.py 141, 148, 155). *)
Definition pop (s : string) (items : list item) : list item * list token :=
  match rev items with
  | Tok t :: r => if is_text t s then (rev r, [t]) else (items, [])
  | _ => (items, [])
  end.
(** lang/html.py 138-150 dqstring, sqstring *)
Definition read_string (k : cls) (quote : string) (items : list item) : res node :=
  match items with
  | Tok o :: _ =>
      let (items, tail) := pop quote items in
      let! kids := pieces (skipn 1 items) in
      Ok (N k [o] kids tail)
  | _ => Err IndexError
  end.
(** lang/html.py 152-171 processing_instruction; [origin] collects text tokens.  Contexts in it are strings. *)
Fixpoint instruction (origin : list token) (items : list item) : res (list node) :=
  let text := match origin with [] => [] | _ => [N KText origin [] []] end in
  match items with
  | [] => Ok text
  | Tok t :: r =>
      match piece t with
      | Some n => let! ns := instruction [] r in Ok (text ++ n :: ns)%list
      | None => instruction (origin ++ [t])%list r
      end
  | Item _ (ONode n) :: r => let! ns := instruction [] r in Ok (text ++ n :: ns)%list
  | _ => Err AttributeError
  end.
(** lang/html.py 152-171, with [instruction] *)
Definition read_instruction (items : list item) : res node :=
  match items with
  | Tok o :: _ =>
      let (items, tail) := pop "?>" items in
      let! kids := instruction [] (skipn 1 items) in
      Ok (N KInstruction [o] kids tail)
  | _ => Err IndexError
  end.

(** lang/html.py 174-241 tag.  [acc]: the nodes made so far, the last one first. *)
Definition single_or_open (tail : list token) : cls := match tail with t :: _ => if has_slash t then KSingleTag else KOpenTag | [] => KOpenTag end.
(** lang/html.py 174-241 tag *)
Definition element (k : cls) (head : token) (name : node) (attrs : list node) (tail : list token) : node := N KElement [] [N k [head] (name :: attrs) tail] [].
(** lang/html.py 190-194 an untransformed style, script or doctype follows *)
Definition unknown_follows (r : list item) : option token :=
  match r with
  | Tok x :: Item LAttrs _ :: IUntransformed u :: _ => if matches (t_action x) ATag then Some u else None
  | Tok x :: Tok y :: IUntransformed u :: _ =>
      if (matches (t_action x) ATag && matches (t_action y) ADelimiter) || (matches (t_action x) AKeyword && matches (t_action y) ATagDefinition) then Some u else None
  | _ => None
  end.
(** lang/html.py 174-241 tag *)
Fixpoint tag (fuel : nat) (acc : list node) (items : list item) : res (list node) :=
  match fuel with
  | 0 => Err OutOfFuel
  | S fuel =>
      match items with
      | [] => Ok (rev acc)
      | Tok t :: r =>
          if action_eqb (t_action t) AText || action_eqb (t_action t) AWhitespace then tag fuel (N KText [t] [] [] :: acc) r
          else if action_eqb (t_action t) AEscape then tag fuel (N KEntityRef [t] [] [] :: acc) r
          else if action_eqb (t_action t) ADelimiter then
            match unknown_follows r with
            | Some u => tag fuel (N KUnknown [t; u] [] [] :: acc) (skipn 3 r)
            | None =>
                match r with
                | x :: y :: r' =>
                    match x with
                    | Tok x =>
                        let name := N KTagName [x] [] [] in
                        if has_slash t then
                          match y with Tok y => tag fuel (N KCloseTag [t] [name] [y] :: acc) r' | _ => Err AttributeError end
                        else
                          match y with
                          | Tok y => if t_last y then tag fuel (element (single_or_open [y]) t name [] [y] :: acc) r' else tag fuel acc r'
                          | Item LAttrs (OAttrs l tail) => tag fuel (element (single_or_open tail) t name l tail :: acc) r'
                          | Item LOptions (OAttrs l tail) =>
                              match (match tail with c :: _ => if is_text c ":" then r' else [] | [] => [] end) with
                              | ILily objs tail' :: r'' => tag fuel (element KSingleTag t name (l ++ N KColon tail [] [] :: objs) tail' :: acc) r''
                              | _ => tag fuel (element (single_or_open tail) t name l tail :: acc) r'
                              end
                          | _ => tag fuel acc r'
                          end
                    | _ => Err AttributeError
                    end
                | _ => Ok (rev acc)
                end
            end
          else tag fuel acc r
      | Item LTag (ONodes l) :: r => match acc with n :: acc => tag fuel (extend n l :: acc) r | [] => Err IndexError end
      | ILily objs _ :: r => match acc with n :: acc => tag fuel (extend n objs :: acc) r | [] => Err IndexError end
      | _ :: r => tag fuel acc r
      end
  end.

(** ** The tree of parce. (which method of lang/html.py 109-296 is called for a context) *)
Inductive tree := TTok (t : token) | TCx (l : lexicon) (kids : list tree) | TLily (objs : list node) (tail : list token) | TUntransformed (toks : list token) (last : token).
(** lang/html.py 130-136 cdata, comment: all the items are the origin *)
Definition tokens (items : list item) : list token := flat_map (fun i => match i with Tok t => [t] | _ => [] end) items.
(** which method of lang/html.py 109-296 is called for a context *)
Definition transformed (i : item) : bool := match i with IUntransformed _ => false | _ => true end.
(** which method of lang/html.py 109-296 is called for a context *)
Definition method (l : lexicon) (items : list item) : res obj :=
  match l with
  | LTag => let! ns := tag (S (length items)) [] items in Ok (ONodes ns)
  | LAttrs | LOptions => let! x := options [] items in Ok (OAttrs (fst x) (snd x))
  | LComment => Ok (ONode (N KComment (tokens items) [] []))
  | LCData => Ok (ONode (N KCData (tokens items) [] []))
  (* these do not see untransformed contexts *)
  | LDq => let! n := read_string KDqString """" (filter transformed items) in Ok (ONode n)
  | LSq => let! n := read_string KSqString "'" (filter transformed items) in Ok (ONode n)
  | LInstruction => let! n := read_instruction (filter transformed items) in Ok (ONode n)
  end.
(** which method of lang/html.py 109-296 is called for a context *)
Fixpoint transform (t : tree) : res item :=
  match t with
  | TTok t => Ok (Tok t)
  | TLily objs tail => Ok (ILily objs tail)
  | TUntransformed _ u => Ok (IUntransformed u)
  | TCx l kids =>
      let! items := (fix all (l : list tree) : res (list item) :=
        match l with [] => Ok [] | t :: r => let! i := transform t in let! is := all r in Ok (i :: is) end) kids in
      let! o := method l items in Ok (Item l o)
  end.
(** which method of lang/html.py 109-296 is called for a context *)
Fixpoint transforms (l : list tree) : res (list item) :=
  match l with [] => Ok [] | t :: r => let! i := transform t in let! is := transforms r in Ok (i :: is) end.
(** lang/html.py 116-118 root *)
Definition root (kids : list tree) : res node :=
  let! items := transforms kids in let! ns := tag (S (length items)) [] items in Ok (N KDocument [] ns []).
End Transform.
