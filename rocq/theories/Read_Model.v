(** Model of the readers of blocks, markup, lists and chord modifiers in quickly/lang/lilypond.py. *)
From Coq Require Import String Ascii List Bool PeanoNat.
From Verif Require Import Base.
Import ListNotations.
Open Scope nat_scope.

(** The actions of tokens that the readers distinguish; all the others are [AOther]. (for [markuplist], lang/lilypond.py 292-296) *)
Inductive action := AText | AFunction | ASymbol | ANumber | ADot | ABrace | AOther (n : nat).
(** A token of parce: a number that tells it from the others, its text, action, and its place in the match it was a part of (None if alone). (for [markuplist], lang/lilypond.py 292-296) *)
Record token := Token { t_num : nat; t_text : str; t_action : action; t_group : option nat }.
(** The classes of the elements that are made here; [KOther] for all the others. (for [create_block], lang/lilypond.py 431-451) *)
Inductive cls := KComment | KMarkup | KMarkupWord | KMarkupCommand | KMarkupList | KQualifier | KStep | KAlteration | KSeparator | KList | KIdentifierRef |
  KBook | KBookPart | KScore | KMusicList | KSimultaneous | KChord | KChordBody | KWith | KLayoutContext | KMarkupScore | KMarkupScoreLines | KDocument | KCloseTag | KTagName |
  KCommand | KEnvironmentName | KOther (n : nat).
(** An element: its class, head_origin, children and tail_origin. (for [take], lang/lilypond.py 475-482) *)
Inductive node := N (k : cls) (head : list token) (kids : list node) (tail : list token).
(** for [take], lang/lilypond.py 475-482 *)
Definition cls_of (n : node) : cls := match n with N k _ _ _ => k end.
(** An item is a token, or the result of the transform of a context, with the name of the context. (for [take], lang/lilypond.py 475-482) *)
Inductive item := Tok (t : token) | Ctx (name : str) (o : obj)
with obj := OElem (n : node) | OItems (l : list item) | ONodes (l : list node) | OOther.

(** [item == text]: only a token compares equal to a string. (for [first_is], lang/lilypond.py 431-451) *)
Definition item_is (s : string) (i : item) : bool := match i with Tok t => if list_eq_dec ascii_dec (t_text t) (txt s) then true else false | _ => false end.
(** [items[-1] == text]. (for [musiclist], lang/lilypond.py 131-136) *)
Definition last_is (s : string) (items : list item) : res bool := match rev items with [] => Err IndexError | i :: _ => Ok (item_is s i) end.
(** the tokens of [items[:n]], that become an origin.  Simplified: an item that is no token is left out; no origin is made of one. (for [create_markup], lang/lilypond.py 453-464) *)
Definition tokens (items : list item) : list token := flat_map (fun i => match i with Tok t => [t] | _ => [] end) items.
(** [(items.pop(),) if items[-1] == text else ()]. (for [markuplist], lang/lilypond.py 292-296) *)
Definition pop_tail (s : string) (items : list item) : res (list token * list item) :=
  let! b := last_is s items in Ok (if b then (tokens (skipn (length items - 1) items), removelast items) else ([], items)).

Section Reader.
(** get_markup_argument_count 487-494, a table in parce *)
Variable count : str -> nat.

(** lang/lilypond.py 475-482: the arguments, read with a generator of its own from the same items; [next] is one step of that generator *)
Fixpoint take (next : list item -> option node * list item) (f n : nat) (items : list item) : list node * list item :=
  match n, f with
  | 0, _ | _, 0 => ([], items)
  | S n', S f =>
      match next items with
      | (None, r) => ([], r)
      | (Some a, r) => let (l, r) := take next f (match cls_of a with KComment => n | _ => n' end) r in (a :: l, r)
      end
  end.
(** lang/lilypond.py 466-485 read_markup_arguments, one step of the generator: the next node, and the items that are left. *)
Fixpoint read_arg (fuel : nat) (items : list item) : option node * list item :=
  match fuel with
  | 0 => (None, items)
  | S fuel =>
      match items with
      | [] => (None, [])
      | Tok t :: r =>
          match t_action t with
          | AText => (Some (N KMarkupWord [t] [] []), r)
          | AFunction =>
              let (args, r) := take (read_arg fuel) fuel (count (tl (t_text t))) r in
              (Some (N KMarkupCommand [t] args []), r)
          | _ => read_arg fuel r
          end
      | Ctx _ (OElem n) :: r => (Some n, r)
      | _ :: r => read_arg fuel r
      end
  end.
(** Every step takes an item, so that the number of items is enough fuel. (lang/lilypond.py 466-485 read_markup_arguments) *)
Definition next_arg (items : list item) : option node * list item := read_arg (S (length items)) items.
(** all that read_markup_arguments yields. (lang/lilypond.py 466-485 read_markup_arguments) *)
Fixpoint all_args (fuel : nat) (items : list item) : list node :=
  match fuel with
  | 0 => []
  | S fuel => match next_arg items with (None, _) => [] | (Some a, r) => a :: all_args fuel r end
  end.
(** lang/lilypond.py 466-485 read_markup_arguments *)
Definition read_markup_arguments (items : list item) : list node := all_args (length items) items.

(** lang/lilypond.py 282-290 markup *)
Definition markup (items : list item) : list item :=
  flat_map (fun i => match i with Ctx name (OItems l) => if list_eq_dec ascii_dec name (txt "markup") then l else [i] | _ => [i] end) items.
(** lang/lilypond.py 453-464 create_markup: what is yielded, and the items that are left.  461: if [m] is empty there is no origin.
    The reader takes from [m] and then from the items; what it leaves of [m] is not seen any more. *)
Definition create_markup (m items : list item) : list node * list item :=
  match next_arg (tl m ++ items) with
  | (Some a, r) => ([N KMarkup (tokens (firstn 1 m)) [a] []], if length items <? length r then items else r)
  | (None, _) => ([], [])
  end.
(** lang/lilypond.py 292-296 markuplist *)
Definition markuplist (items : list item) : res node :=
  let head := tokens (firstn 1 items) in
  let! (tail, items) := pop_tail "}" items in
  Ok (N KMarkupList head (read_markup_arguments (skipn 1 items)) tail).

(** 377-392 common; [act] is the dispatcher on actions 386, see 566-656 *)
Variable act : token -> option node.
(** lang/lilypond.py 377-392 common *)
Fixpoint common (fuel : nat) (items : list item) : list node :=
  match fuel with
  | 0 => []
  | S fuel =>
      match items with
      | [] => []
      | Tok t :: r => (match act t with Some n => [n] | None => [] end) ++ common fuel r
      | Ctx _ (OElem n) :: r => n :: common fuel r
      | Ctx name (OItems m) :: r =>
          if list_eq_dec ascii_dec name (txt "markup") then let (l, r) := create_markup m r in l ++ common fuel r else common fuel r
      | _ :: r => common fuel r
      end
  end.
(** lang/lilypond.py 377-392 common *)
Definition read_common (items : list item) : list node := common (length items) items.

(** create_music 527-529 (see Music_Model.v), build_tree 448 (see Build_Model.v) and handle_assignments 394-429 (see Vars_Model.v) *)
Variable create_music : list item -> res (list node).
Variable build_tree : list node -> list node.
Variable handle_assignments : list node -> list node.

(** lang/lilypond.py 431-451 create_block *)
Definition create_block (k : cls) (items : list item) (music assignments : bool) : res node :=
  let! (tail, items) := pop_tail "}" items in
  let head := tokens (firstn 2 items) in
  let! l := if music then create_music (skipn 2 items) else Ok (build_tree (read_common (skipn 2 items))) in
  Ok (N k head (if assignments then handle_assignments l else l) tail).
(** lang/lilypond.py 431-451, with [create_block] *)
Definition first_is (s : string) (items : list item) : res bool := match items with [] => Err IndexError | i :: _ => Ok (item_is s i) end.
(** lang/lilypond.py 99-102 *)
Definition book (items : list item) : res node :=
  let! b := first_is "\bookpart" items in create_block (if b then KBookPart else KBook) items true false.
(** lang/lilypond.py 104-108 *)
Definition score (items : list item) : res node :=
  let! (tail, items) := pop_tail "}" items in create_block KScore items true false.
(** lang/lilypond.py 110-124: header and paper, layout and midi; [k] the class *)
Definition header (k : cls) (items : list item) : res node := create_block k items false true.
(** lang/lilypond.py 110-124, with [header] *)
Definition layout (k : cls) (items : list item) : res node := create_block k items true true.
(** lang/lilypond.py 126-129 *)
Definition layout_context (items : list item) : res node :=
  let! b := first_is "\with" items in create_block (if b then KWith else KLayoutContext) items true true.
(** lang/lilypond.py 131-136; lyriclist 188-193 does the same and then changes the children *)
Definition musiclist (items : list item) : res node :=
  let head := tokens (firstn 1 items) in
  let! b1 := last_is "}" items in
  let! b2 := last_is ">>" items in
  let (tail, items) := if b1 || b2 then (tokens (skipn (length items - 1) items), removelast items) else ([], items) in
  let! b := first_is "{" items in
  let! l := create_music (skipn 1 items) in
  Ok (N (if b then KMusicList else KSimultaneous) head l tail).
(** lang/lilypond.py 138-143 *)
Definition chord (items : list item) : res node :=
  let head := tokens (firstn 1 items) in
  let! (tail, items) := pop_tail ">" items in
  let! l := create_music (skipn 1 items) in
  Ok (N KChord [] [N KChordBody head l tail] []).
(** lang/lilypond.py 298-301 *)
Definition markupscore (items : list item) : res node :=
  let! b := first_is "\score-lines" items in create_block (if b then KMarkupScoreLines else KMarkupScore) items true false.
(** lang/lilypond.py 303-307 schemelily; [k] the class scm.LilyPond *)
Definition schemelily (k : cls) (items : list item) : res node :=
  let head := tokens (firstn 1 items) in
  let! (tail, items) := pop_tail "#}" items in
  let! l := create_music (skipn 1 items) in
  Ok (N k head l tail).

(** lang/lilypond.py 215-234 chord_modifier.  227: [next(items)] raises StopIteration, modelled as RuntimeError, at the end; an item that is no token has no text. *)
Fixpoint chord_modifier (items : list item) : res (list node) :=
  match items with
  | [] => Ok []
  | Tok t :: r =>
      match t_action t with
      | ASymbol => let! l := chord_modifier r in Ok (N KQualifier [t] [] [] :: l)
      | ANumber =>
          match t_group t with
          | Some 0 =>
              match r with
              | [] => Err RuntimeError
              | Tok u :: r => let! l := chord_modifier r in Ok (N KStep [t] [N KAlteration [u] [] []] [] :: l)
              | _ :: _ => Err AttributeError
              end
          | _ => let! l := chord_modifier r in Ok (N KStep [t] [] [] :: l)
          end
      | ADot => let! l := chord_modifier r in Ok (N KSeparator [t] [] [] :: l)
      | _ => chord_modifier r
      end
  | Ctx _ (OElem n) :: r => let! l := chord_modifier r in Ok (n :: l)
  | _ :: r => Err TypeError (* 233: no element in the list; it fails when the list is added to a node *)
  end.
(** lang/lilypond.py 160-174 duration; a context duration_scaling has an element *)
Definition duration (items : list item) : list token * option node :=
  (flat_map (fun i => if item_is "." i then tokens [i] else []) items,
   fold_left (fun s i => match i with Ctx name (OElem n) => if list_eq_dec ascii_dec name (txt "duration_scaling") then Some n else s | _ => s end) items None).

(** 261-267 _list_nodes; [ident] is the dispatcher 563-577.  Simplified: an object that is no element is left out *)
Variable ident : token -> node.
(** lang/lilypond.py 261-267 _list_nodes *)
Definition list_nodes (items : list item) : list node :=
  flat_map (fun i => match i with Tok t => [ident t] | Ctx _ (OElem n) => [n] | _ => [] end) items.
(** lang/lilypond.py 269-272 list *)
Definition read_list (items : list item) : node := match list_nodes items with [n] => n | l => N KList [] l [] end.
(** lang/lilypond.py 276-280 identifier_ref *)
Definition identifier_ref (items : list item) : node := N KIdentifierRef (tokens (firstn 1 items)) (list_nodes (skipn 1 items)) [].

(** 322-346 html_lilypond_tag.  [is_tag]: the last three items are a delimiter, a tag name and a delimiter (339, Items.peek of parce).
    348: when none of the cases applies [close_tag] is not bound. *)
Variable is_tag : list item -> bool.
(** lang/lilypond.py 322-346 *)
Definition html_lilypond_tag (items : list item) : res (list node * list token) :=
  let n := length items in
  let! x := match items with
            | [] => Ok None
            | _ => let! b := last_is "/>" items in
                   if b then Ok (Some (tokens (skipn (n - 1) items), None, removelast items))
                   else if is_tag items then
                     Ok (Some ([], Some (N KCloseTag (tokens (firstn 1 (skipn (n - 3) items))) [N KTagName (tokens (firstn 1 (skipn (n - 2) items))) [] []] (tokens (skipn (n - 1) items))), firstn (n - 3) items))
                   else Ok None
            end in
  let! l := create_music (match x with Some (_, _, items) => items | None => items end) in
  match x with
  | Some (tail, close, _) => Ok (N KDocument [] (handle_assignments l) [] :: (match close with Some c => [c] | None => [] end), tail)
  | None => Err UnboundLocalError
  end.
(** 349-374 latex_lilypond_environment; the options 360-361 are taken off before: [items] is what follows them.
    [is_end]: the last four items are the \end command (364). *)
Variable is_end : list item -> bool.
(** lang/lilypond.py 349-374 *)
Definition latex_lilypond_environment (items : list item) : res (list node * list token) :=
  let n := length items in
  let! (e, tail, items) :=
    if is_end items then Ok (Some (N KCommand (tokens (firstn 1 (skipn (n - 4) items))) [N KEnvironmentName (tokens (skipn (n - 3) items)) [] []] []), [], firstn (n - 4) items)
    else match rev items with
         | [] => Err IndexError
         | i :: _ => Ok (None, (if item_is "}" i && match i with Tok t => match t_action t with ABrace => true | _ => false end | _ => false end then tokens [i] else []),
                         if item_is "}" i && match i with Tok t => match t_action t with ABrace => true | _ => false end | _ => false end then removelast items else items)
         end in
  let! l := create_music items in
  Ok (N KDocument [] (handle_assignments l) [] :: (match e with Some c => [c] | None => [] end), tail).
End Reader.
