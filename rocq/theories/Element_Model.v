(** Model of the text output and write-back of quickly/dom/element.py and of the
    whitespace functions of quickly/dom/util.py. *)
From Coq Require Import String Ascii List Arith PeanoNat Bool.
From Verif Require Import Base.
Import ListNotations.

(** str.count of a single character, used in util.py:33. *)
Fixpoint count (c : ascii) (s : str) : nat :=
  match s with [] => 0 | x :: r => (if Ascii.eqb x c then 1 else 0) + count c r end.

(** the characters in whitespace, dom/util.py 25-52 *)
Definition nl : ascii := ascii_of_nat 10.
(** the characters in whitespace, dom/util.py 25-52 *)
Definition sp : ascii := ascii_of_nat 32.

(** util.py:25-33 whitespace_key *)
Definition whitespace_key (text : str) : nat * nat := (count nl text, count sp text).

(** Comparison of two-tuples of integers, used by [max] in util.py:49. *)
Definition key_lt (a b : nat * nat) : bool :=
  (fst a <? fst b) || ((fst a =? fst b) && (snd a <? snd b)).

(** util.py:36-49 collapse_whitespace: Python's [max] returns the first of the
    maximal elements; [default=''] for an empty argument. *)
Definition collapse_whitespace (whitespaces : list str) : str :=
  match whitespaces with
  | [] => []
  | w :: r => fold_left (fun best x => if key_lt (whitespace_key best) (whitespace_key x) then x else best) r w
  end.

(** Truth value of a string. (for [combine_loop], util.py:66-72) *)
Definition truthy (s : str) : bool := match s with [] => false | _ => true end.

(** util.py:66-72 the loop of combine_text; [result] and [whitespace] are the
    two lists.  The texts have already been computed (see [write]). *)
Fixpoint combine_loop (fragments : list (str * str * str)) (result whitespace : list str) : list str * list str :=
  match fragments with
  | [] => (result, whitespace)
  | (before, text, after) :: r =>
      let whitespace := whitespace ++ [before] in
      if truthy text
      then combine_loop r (result ++ [collapse_whitespace whitespace; text]) [after]
      else combine_loop r result (whitespace ++ [after])
  end.

(** util.py:52-73 combine_text *)
Definition combine_text (fragments : list (str * str * str)) : str * str * str :=
  let (result, whitespace) := combine_loop fragments [] [] in
  (concat (firstn 1 result), concat (skipn 1 result), collapse_whitespace whitespace).

(** A parce token; only the position matters here (parce is not in the repository). (for [attrs], dom/element.py 75-76) *)
Record token := Tok { t_pos : nat; t_end : nat }.

(** element.py:66 Point.  [pos] and [end] are both None or both integers.
    [p_text] is what calling [text()] gives (it raises for base.Unknown, base.py:186). *)
Record point := Point {
  p_span : option (nat * nat);
  p_text : res str;
  p_modified : bool;
  p_before : str;
  p_after : str }.

(** The base classes Element (dom/element.py 150), HeadElement (796, also TextElement 862) and
    BlockElement (831). *)
Inductive kind := Plain | Head | Block.

(** The attributes of an element that its output depends on: the results of
    [write_head()] and [write_tail()] (a result of None is treated as the empty text),
    the origins, the modified flags (dom/element.py 75-76) and the values of the five spacing
    properties (167-171).  [a_id] stands for everything else (type, attributes),
    for use by [concat_space] overrides. *)
Record attrs := Attrs {
  a_kind : kind;
  a_id : nat;
  a_head : res str;
  a_tail : str;
  a_head_origin : option (list token);
  a_tail_origin : option (list token);
  a_head_modified : bool;
  a_tail_modified : bool;
  a_before : str;
  a_after_head : str;
  a_between : str;
  a_before_tail : str;
  a_after : str }.

(** dom/element.py 150-176 *)
Inductive elem := E (a : attrs) (kids : list elem).
(** dom/element.py 150-176 *)
Definition attrs_of (e : elem) : attrs := match e with E a _ => a end.
(** dom/element.py 150-176 *)
Definition kids_of (e : elem) : list elem := match e with E _ k => k end.

(** [origin[0].pos], [origin[-1].end]; IndexError for an empty tuple. (for [head_point], element.py:547-552) *)
Definition origin_span (o : list token) : res (nat * nat) :=
  match o with
  | [] => Err IndexError
  | t :: _ => Ok (t_pos t, t_end (last o t))
  end.

(** element.py:547-552 and 817-828 head_point *)
Definition head_point (a : attrs) (kids : list elem) : res (option point) :=
  match a_kind a with
  | Plain => Ok None
  | _ =>
      let! span := match a_head_origin a with
                   | None => Ok None
                   | Some o => let! s := origin_span o in Ok (Some s)
                   end in
      let space_after := if negb (Nat.eqb (length kids) 0) || truthy (a_tail a) then a_after_head a else a_after a in
      Ok (Some (Point span (a_head a) (a_head_modified a) (a_before a) space_after))
  end.

(** element.py:554-559 and 846-859 tail_point *)
Definition tail_point (a : attrs) : option point :=
  match a_kind a with
  | Block =>
      let span := match a_tail_origin a with
                  | None => None
                  | Some o => match origin_span o with Ok s => Some s | Err _ => None end
                  end in
      Some (Point span (Ok (a_tail a)) (a_tail_modified a) (a_before_tail a) (a_after a))
  | _ => None
  end.

(** element.py:571-579 collapse_last *)
Fixpoint collapse_last (points : list point) (last : str) : list point :=
  match points with
  | [] => []
  | [p] => [Point (p_span p) (p_text p) (p_modified p) (p_before p) (collapse_whitespace [p_after p; last])]
  | p :: r => p :: collapse_last r last
  end.

(** for [points], element.py:561-593 *)
Definition opt_list {A} (o : option A) : list A := match o with Some x => [x] | None => [] end.

Section Output.
(** element.py:595-605 concat_space: by default [space_between]; base.py:44
    overrides it depending on the types of the nodes.  Any function is covered. *)
Variable concat_space : attrs -> elem -> elem -> str.

(** element.py:561-593 points.  The generator is modelled by the list it yields;
    an exception while generating is an exception of the whole list. *)
Fixpoint points (e : elem) : res (list point) :=
  match e with
  | E a kids =>
      let! hp := head_point a kids in
      let tp := tail_point a in
      let! body :=
        (fix children (l : list elem) : res (list point) :=
           match l with
           | [] => Ok []
           | n :: r =>
               let! ps := points n in
               match r with
               | [] => Ok (match tp with None => collapse_last ps (a_after a) | Some _ => ps end)
               | m :: _ => let! rest := children r in Ok (collapse_last ps (concat_space a n m) ++ rest)
               end
           end) kids in
      Ok (opt_list hp ++ body ++ opt_list tp)
  end.

(** element.py:614-615: the (space_before, text(), space_after) tuples *)
Fixpoint fragments (ps : list point) : res (list (str * str * str)) :=
  match ps with
  | [] => Ok []
  | p :: r => let! t := p_text p in let! fs := fragments r in Ok ((p_before p, t, p_after p) :: fs)
  end.

(** element.py:607-615 write *)
Definition write (e : elem) : res str :=
  let! ps := points e in
  let! fs := fragments ps in
  let '(_, text, _) := combine_text fs in
  Ok text.

End Output.

(** element.py:595-605 the default concat_space *)
Definition concat_default (a : attrs) (n m : elem) : str := a_between a.

(** A text change (pos, end, text). (for [edits_loop], element.py:630-660) *)
Record change := Change { c_pos : nat; c_end : nat; c_text : str }.

(** element.py:643-647: the for loop over the shared token iterator.  Returns
    the remaining tokens, [pos] and [del_end]. *)
Fixpoint skip_tokens (tokens : list token) (point_pos pos del_end : nat) : list token * nat * nat :=
  match tokens with
  | [] => ([], pos, del_end)
  | t :: r => if point_pos <=? t_pos t then (r, t_pos t, del_end) else skip_tokens r point_pos pos (t_end t)
  end.

(** element.py:630-660: the loop of edits() and the final deletion. *)
Fixpoint edits_loop (ps : list point) (tokens : list token) (pos end_ : nat) (insert_after : str) : res (list change) :=
  match ps with
  | [] => Ok (if pos <? end_ then [Change pos end_ []] else [])
  | p :: r =>
      let space := collapse_whitespace [insert_after; p_before p] in
      match p_span p with
      | None =>
          let! text := p_text p in
          if truthy text
          then let! rest := edits_loop r tokens pos end_ (p_after p) in
               Ok (Change pos pos (space ++ text) :: rest)
          else edits_loop r tokens pos end_ insert_after
      | Some (ppos, pend) =>
          let '(tokens, before) :=
            if pos <? ppos then
              let '(tokens, pos', del_end) := skip_tokens tokens ppos pos pos in
              (tokens,
               if pos <? del_end
               then [Change pos (if truthy space && (del_end <? pos') then pos' else del_end) space]
               else [])
            else (tokens, if truthy space then [Change ppos ppos space] else []) in
          let! modified := if p_modified p then let! text := p_text p in Ok [Change ppos pend text] else Ok [] in
          let! rest := edits_loop r tokens pend end_ (p_after p) in
          Ok (before ++ modified ++ rest)
      end
  end.

(** element.py:617-660 edits; [context_pos], [context_end] and [tokens] come
    from the parce context. *)
Definition edits (concat_space : attrs -> elem -> elem -> str) (e : elem)
    (context_pos context_end : nat) (tokens : list token) (start end_ : option nat) : res (list change) :=
  let pos := match start with None => context_pos | Some s => s end in
  let end_ := match end_ with None => context_end | Some s => s end in
  let! ps := points concat_space e in
  edits_loop ps tokens pos end_ [].

(** ** Spacing properties (element.py:79-127)
    [obj._space] is None when the attribute does not exist, else the dictionary
    as an association list.  [default] gives the class default of each of the
    five properties (142-144); names are numbers. *)
Definition space_dict := option (list (nat * str)).

(** for [space_set], element.py:101-119 *)
Definition str_eqb (a b : str) : bool := if list_eq_dec ascii_dec a b then true else false.

(** for [space_get], element.py:94-99 *)
Fixpoint dict_get (d : list (nat * str)) (n : nat) : option str :=
  match d with [] => None | (k, v) :: r => if Nat.eqb k n then Some v else dict_get r n end.
(** for [space_set], element.py:101-119 *)
Fixpoint dict_del (d : list (nat * str)) (n : nat) : list (nat * str) :=
  match d with [] => [] | (k, v) :: r => if Nat.eqb k n then r else (k, v) :: dict_del r n end.
(** for [space_set], element.py:101-119 *)
Fixpoint dict_set (d : list (nat * str)) (n : nat) (w : str) : list (nat * str) :=
  match d with [] => [(n, w)] | (k, v) :: r => if Nat.eqb k n then (k, w) :: r else (k, v) :: dict_set r n w end.

(** element.py:94-99 __get__ *)
Definition space_get (default : nat -> str) (o : space_dict) (n : nat) : str :=
  match o with
  | Some d => match dict_get d n with Some v => v | None => default n end
  | None => default n
  end.

(** element.py:101-119 __set__ *)
Definition space_set (default : nat -> str) (o : space_dict) (n : nat) (value : str) : space_dict :=
  let is_default := str_eqb value (default n) in
  match o with
  | None => if is_default then None else Some (dict_set [] n value)
  | Some d =>
      if is_default then
        match dict_get d n with
        | None => Some d
        | Some _ => match dict_del d n with [] => None | d' => Some d' end
        end
      else Some (dict_set d n value)
  end.

(** element.py:121-127 __delete__ *)
Definition space_del (o : space_dict) (n : nat) : space_dict :=
  match o with
  | None => None
  | Some d =>
      match dict_get d n with
      | None => Some d
      | Some _ => match dict_del d n with [] => None | d' => Some d' end
      end
  end.
