(** Model of quickly/dom/markup.py: the functions that create markup.

    Not modelled: score() and score_lines(), that contain music (MarkupScore,
    dom/lily.py 2456-2463); the documentation strings given to the functions. *)
From Coq Require Import String Ascii List Arith ZArith Bool.
From Verif Require Import Base Element_Model Scheme_Model.
From Verif Require Heads_Model.
Import ListNotations.
Local Open Scope string_scope. Local Open Scope list_scope. Open Scope nat_scope.

(** The attributes of a new element with its spacing properties (dom/lily.py 662-683, 2413-2453). *)
Definition spaced_attrs (k : kind) (head tail before after_head between before_tail after : str) : attrs :=
  Attrs k 0 (Ok head) tail None None false false before after_head between before_tail after.
(** dom/lily.py 2424-2426 MarkupWord *)
Definition e_word (s : str) : elem := E (spaced_attrs Head s [] (txt " ") [] [] [] (txt " ")) [].
(** dom/lily.py 662-663 String, dom/base.py 50-59 *)
Definition e_string (s : str) : elem := e_text (Heads_Model.string_write s).
(** dom/lily.py 666-683 Scheme; the head is the hash sign *)
Definition e_scheme (e : elem) : elem := E (spaced_attrs Head (txt "#") [] (txt " ") [] [] [] (txt " ")) [e].
(** dom/lily.py 2429-2433 MarkupList *)
Definition e_markuplist (kids : list elem) : elem := E (spaced_attrs Block (txt "{") (txt "}") [] (txt " ") (txt " ") (txt " ") []) kids.
(** dom/lily.py 2440-2446 MarkupCommand, with the backslash of dom/base.py 101-103; markup.py 49 _c *)
Definition e_command (name : str) (kids : list elem) : elem := E (spaced_attrs Head (txt "\" ++ name) [] [] (txt " ") (txt " ") (txt " ") []) kids.
(** dom/lily.py 2413-2421 Markup *)
Definition e_markup (name : str) (kids : list elem) : elem := E (spaced_attrs Head (txt "\" ++ name) [] [] (txt " ") (txt " ") [] (txt " ")) kids.

(** dom/markup.py 77-90: what can be given as an argument: an element, a string, or another value (dom/scm.py 228-241). *)
Inductive arg := AElem (e : elem) | AStr (s : str) | AVal (v : value).

(** dom/markup.py 50-54 _s, _a, _q, _sym, _pair: [a_value v] is _a(v) *)
Definition s_text (s : str) : elem := e_scheme (e_text s).
(** dom/markup.py 50, with scm.String *)
Definition s_string (s : str) : elem := e_scheme (e_text (Heads_Model.string_write s)).
(** dom/markup.py 51 _a *)
Definition a_value (v : value) : res elem := let! e := create v in Ok (e_scheme e).
(** dom/markup.py 53 _sym *)
Definition sym (s : str) : elem := e_scheme (E (plain_attrs Head (txt "'") [] []) [e_text s]).
(** dom/markup.py 54 _pair, with scm.p (dom/scm.py 264-266) *)
Definition pair_arg (x y : value) : res elem := let! e := pair x y [] in Ok (e_scheme (E (plain_attrs Head (txt "'") [] []) [e])).

Section Markup.
(** dom/markup.py 58-63 is_markup: the regular expression is in parce *)
Variable is_markup : str -> bool.

(** dom/markup.py 77-90 _auto_arg *)
Definition auto_arg (a : arg) : res elem :=
  match a with
  | AElem e => Ok e
  | AStr s => Ok (if is_markup s then e_word s else e_string s)
  | AVal v => a_value v
  end.
(** dom/markup.py 74, 294-301: map(_auto_arg, args) *)
Fixpoint auto_args (l : list arg) : res (list elem) :=
  match l with
  | [] => Ok []
  | a :: r => let! e := auto_arg a in let! es := auto_args r in Ok (e :: es)
  end.
(** dom/markup.py 66-74 _create_list *)
Definition create_list (l : list arg) : res elem :=
  match l with
  | [a] => auto_arg a
  | _ => let! es := auto_args l in Ok (e_markuplist es)
  end.
(** dom/markup.py 93-95 markup *)
Definition markup (l : list arg) : res elem := let! e := create_list l in Ok (e_markup (txt "markup") [e]).
(** dom/markup.py 98-100 markuplist *)
Definition markuplist (l : list arg) : res elem := let! es := auto_args l in Ok (e_markup (txt "markuplist") [e_markuplist es]).

(** A command with arguments that can be created or not (dom/markup.py 49). *)
Definition command (name : str) (args : list (res elem)) : res elem :=
  let! es := (fix go l := match l with [] => Ok [] | x :: r => let! e := x in let! es := go r in Ok (e :: es) end) args in
  Ok (e_command name es).

(** dom/markup.py 294-301, 304-316: the function that is made for the command [name] with
    [n] arguments; no function is made for 5.  With too few or too many arguments Python raises a TypeError. *)
Definition factory (n : nat) (name : str) (args : list arg) : res elem :=
  match n with
  | 0 => match args with [] => Ok (e_command name []) | _ => Err TypeError end
  | S k => if length args <? k then Err TypeError
           else let! es := auto_args (firstn k args) in
                let! e := create_list (skipn k args) in Ok (e_command name (es ++ [e]))
  end.

(** dom/markup.py 105-106 *)
Definition char_ (n : Z) : res elem := Ok (e_command (txt "char") [s_text (Heads_Model.number_write_int Heads_Model.Hex n)]).
(** dom/markup.py 109-110 *)
Definition tied_lyric (s : str) : res elem := Ok (e_command (txt "tied-lyric") [s_string s]).
(** dom/markup.py 113-114: the name c_ is not defined *)
Definition fret_diagram (s : str) : res elem := Err NameError.
(** dom/markup.py 117-118: the name c_ is not defined *)
Definition fret_diagram_terse (s : str) : res elem := Err NameError.
(** dom/markup.py 121-122: the name c_ is not defined *)
Definition fret_diagram_verbose (e : elem) : res elem := Err NameError.
(** dom/markup.py 125-126 *)
Definition fromproperty (name : str) : res elem := Ok (e_command (txt "fromproperty") [sym name]).
(** dom/markup.py 129-130 *)
Definition harp_pedal (s : str) : res elem := Ok (e_command (txt "harp-pedal") [e_string s]).
(** dom/markup.py 133-134 *)
Definition justify_field (name : str) : res elem := Ok (e_command (txt "justify-field") [sym name]).
(** dom/markup.py 137-138 *)
Definition justify_string (s : str) : res elem := Ok (e_command (txt "justify-string") [s_string s]).
(** dom/markup.py 141-142 *)
Definition lookup (s : str) : res elem := Ok (e_command (txt "lookup") [s_string s]).
(** dom/markup.py 145-146 *)
Definition musicglyph (s : str) : res elem := Ok (e_command (txt "musicglyph") [s_string s]).
(** dom/markup.py 149-152, for a string or an element *)
Definition postscript (s : str + elem) : res elem :=
  Ok (e_command (txt "postscript") [match s with inl s => s_string s | inr e => e end]).
(** dom/markup.py 163-164, 209-210: a duration, given as string or element *)
Definition duration_arg (d : str + elem) : elem := match d with inl s => e_markuplist [e_word s] | inr e => e end.
(** dom/markup.py 155-165 *)
Definition rest (d : str + elem) : res elem := Ok (e_command (txt "rest") [duration_arg d]).
(** dom/markup.py 168-174, dom/lily.py 757-766, 779-781, 2456-2458 *)
Definition score (elements : list elem) : elem := E (spaced_attrs Block (txt "\score {") (txt "}") [nl] (txt " ") (txt " ") (txt " ") [nl]) elements.
(** dom/markup.py 177-183, dom/lily.py 757-766, 2456-2463 *)
Definition score_lines (elements : list elem) : elem := E (spaced_attrs Block (txt "\score-lines {") (txt "}") [nl] (txt " ") (txt " ") (txt " ") [nl]) elements.
(** dom/markup.py 186-187 *)
Definition verbatim_file (s : str) : res elem := Ok (e_command (txt "verbatim-file") [s_string s]).
(** dom/markup.py 190-191 *)
Definition wordwrap_field (name : str) : res elem := Ok (e_command (txt "wordwrap-field") [sym name]).
(** dom/markup.py 194-195 *)
Definition wordwrap_string (s : str) : res elem := Ok (e_command (txt "wordwrap-string") [s_string s]).
(** dom/markup.py 198-211; [dir] is the text of the number *)
Definition note (d : str + elem) (dir : str) : res elem := Ok (e_command (txt "note") [duration_arg d; s_text dir]).
(** dom/markup.py 214-222 *)
Definition override (prop : str) (v : value) (args : list arg) : res elem :=
  let! v := create v in
  command (txt "override") [pair_arg (VElement (e_text prop)) (VElement v); create_list args].
(** dom/markup.py 225-233 *)
Definition override_lines (prop : str) (v : value) (args : list arg) : res elem :=
  let! v := create v in
  command (txt "override-lines") [pair_arg (VElement (e_text prop)) (VElement v); create_list args].
(** dom/markup.py 236-237 *)
Definition translate (x y : value) (args : list arg) : res elem := command (txt "translate") [pair_arg x y; create_list args].
(** dom/markup.py 240-241 *)
Definition translate_scaled (x y : value) (args : list arg) : res elem := command (txt "translate-scaled") [pair_arg x y; create_list args].
(** dom/markup.py 244-245 *)
Definition with_link (label : str) (args : list arg) : res elem := command (txt "with-color") [Ok (sym label); create_list args].
(** dom/markup.py 248-249 *)
Definition with_url (url : str) (args : list arg) : res elem := command (txt "with-url") [Ok (s_string url); create_list args].
(** dom/markup.py 252-253: the name label is not defined *)
Definition woodwind_diagram (instrument : str) (e : elem) : res elem := Err NameError.
(** dom/markup.py 256-257 *)
Definition draw_squiggle_line (sqlength x y eqend : value) : res elem := command (txt "draw-squiggle-line") [a_value sqlength; pair_arg x y; a_value eqend].
(** dom/markup.py 260-261 *)
Definition epsfile (axis size filename : value) : res elem := command (txt "epsfile") [a_value axis; a_value size; a_value filename].
(** dom/markup.py 264-265 *)
Definition filled_box (x1 y1 x2 y2 blot : value) : res elem := command (txt "filled-box") [pair_arg x1 x2; pair_arg y1 y2; a_value blot].
(** dom/markup.py 268-269; the texts of two numbers, and a value *)
Definition note_by_number (log dotcount : str) (dir : value) : res elem := command (txt "note-by-number") [Ok (s_text log); Ok (s_text dotcount); a_value dir].
(** dom/markup.py 272-273 *)
Definition pad_to_box (x1 y1 x2 y2 : value) (args : list arg) : res elem := command (txt "pad-to-box") [pair_arg x1 x2; pair_arg y1 y2; create_list args].
(** dom/markup.py 276-277 *)
Definition page_ref (label : str) (gauge : arg) (args : list arg) : res elem := command (txt "page-ref") [Ok (sym label); auto_arg gauge; create_list args].
(** dom/markup.py 280-281 *)
Definition with_dimensions (x1 y1 x2 y2 : value) (args : list arg) : res elem := command (txt "with-dimensions") [pair_arg x1 x2; pair_arg y1 y2; create_list args].
(** dom/markup.py 284-287 *)
Definition fill_with_pattern (space direction : value) (pattern left right : arg) : res elem :=
  command (txt "fill-with-pattern") [a_value space; a_value direction; auto_arg pattern; auto_arg left; auto_arg right].
End Markup.

(** ** The functions that are made when the module is loaded *)
Section Main.
(** dom/markup.py 308: keyword.iskeyword *)
Variable iskeyword : str -> bool.
(** dom/markup.py 307-309 *)
Definition function_name (cmd : str) : str :=
  let name := map (fun c => if Ascii.eqb c "-" then "_"%char else c) cmd in
  if iskeyword name then name ++ txt "_" else name.
(** dom/markup.py 312, 319: an item of globals(): what was there already, or a function that is made, for a number of arguments and a command *)
Inductive global := Defined | Made (n : nat) (cmd : str).
(** dom/markup.py 312: globals()[name] *)
Fixpoint get_global (name : str) (g : list (str * global)) : option global :=
  match g with [] => None | (k, v) :: r => if str_eqb k name then Some v else get_global name r end.
(** dom/markup.py 306-319: the body of the loop for one command; there are factories for 0-4 arguments (294-301) *)
Definition add_function (n : nat) (g : list (str * global)) (cmd : str) : list (str * global) :=
  let name := function_name cmd in
  match get_global name g with
  | Some _ => g
  | None => if n <? 5 then g ++ [(name, Made n cmd)] else g
  end.
(** dom/markup.py 304-305: the loops; the table of commands with 0, 1, 2, ... arguments is in parce *)
Fixpoint main_loop (n : nat) (table : list (list str)) (g : list (str * global)) : list (str * global) :=
  match table with [] => g | cmds :: r => main_loop (S n) r (fold_left (add_function n) cmds g) end.
(** dom/markup.py 292-321 _main; enumerate(factories) ends after 6 items *)
Definition main (table : list (list str)) (g : list (str * global)) : list (str * global) := main_loop 0 (firstn 6 table) g.
End Main.
