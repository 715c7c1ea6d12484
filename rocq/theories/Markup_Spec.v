(** Specification of markup: how LilyPond reads it, and what the calls of the functions in quickly.dom.markup are to mean. *)
From Coq Require Import String Ascii List Arith ZArith QArith Bool.
From Verif Require Import Base Element_Model Scheme_Model Markup_Model.
From Verif Require Heads_Spec.
Import ListNotations.
Local Open Scope string_scope. Local Open Scope list_scope. Open Scope nat_scope.

(** ** Markup *)
(** Data in Scheme: numbers, other words, strings, quoted data, and lists; a pair is a list with a dot. *)
Inductive datum := DNum (q : Q) | DWord (s : str) | DStr (s : str) | DQuote (d : datum) | DList (l : list datum).
(** Markup is text, a Scheme expression, a group, or a command with its arguments. *)
Inductive mt := Text (s : str) | Scm (d : datum) | Group (l : list mt) | Cmd (name : str) (l : list mt).

(** ** Reading *)
Definition one_of (l : string) (c : ascii) : bool := existsb (Ascii.eqb c) (txt l).
Definition blank (c : ascii) : bool := one_of " " c || existsb (Nat.eqb (nat_of_ascii c)) [9; 10; 11; 12; 13].
Definition letter (c : ascii) : bool := let n := nat_of_ascii c in ((65 <=? n) && (n <=? 90)) || ((97 <=? n) && (n <=? 122)).
Definition name_char (c : ascii) : bool := letter c || one_of "-_" c.
Definition word_char (c : ascii) : bool := negb (blank c || one_of "{}\#%""" c).
Definition atom_char (c : ascii) : bool := negb (blank c || one_of "()';`,""" c).
Fixpoint span (f : ascii -> bool) (s : str) : str * str :=
  match s with [] => ([], []) | c :: r => if f c then let (a, b) := span f r in (c :: a, b) else ([], s) end.
Fixpoint skip_blank (s : str) : str := match s with [] => [] | c :: r => if blank c then skip_blank r else s end.
(** A string after its opening quote. *)
Fixpoint literal (s : str) : option (str * str) :=
  match s with
  | [] => None
  | """"%char :: r => Some ([], r)
  | "\"%char :: c :: r =>
      match literal r with
      | Some (a, b) => Some ((if Ascii.eqb c "n" then ascii_of_nat 10 else if Ascii.eqb c "t" then ascii_of_nat 9 else c) :: a, b)
      | None => None
      end
  | c :: r => match literal r with Some (a, b) => Some (c :: a, b) | None => None end
  end.
Definition atom (s : str) : datum := match Heads_Spec.scheme_number s with Some q => DNum q | None => DWord s end.
(** A datum at the start of the text, and the items of a list after its parenthesis; the number limits the depth. *)
Fixpoint read_datum (f : nat) (s : str) : option (datum * str) :=
  match f with
  | 0 => None
  | S f =>
      match s with
      | """"%char :: r => match literal r with Some (t, r) => Some (DStr t, r) | None => None end
      | "'"%char :: r => match read_datum f r with Some (d, r) => Some (DQuote d, r) | None => None end
      | "("%char :: r => match read_items f r with Some (l, r) => Some (DList l, r) | None => None end
      | _ => match span atom_char s with ([], _) => None | (t, r) => Some (atom t, r) end
      end
  end
with read_items (f : nat) (s : str) : option (list datum * str) :=
  match f with
  | 0 => None
  | S f =>
      match skip_blank s with
      | ")"%char :: r => Some ([], r)
      | s => match read_datum f s with
             | Some (d, r) => match read_items f r with Some (l, r) => Some (d :: l, r) | None => None end
             | None => None
             end
      end
  end.
Section Reader.
(** The number of arguments of every command. *)
Variable arity : str -> option nat.
Fixpoint read_markup (f : nat) (s : str) : option (mt * str) :=
  match f with
  | 0 => None
  | S f =>
      match skip_blank s with
      | """"%char :: r => match literal r with Some (t, r) => Some (Text t, r) | None => None end
      | "#"%char :: r => match read_datum f r with Some (d, r) => Some (Scm d, r) | None => None end
      | "{"%char :: r => match read_group f r with Some (l, r) => Some (Group l, r) | None => None end
      | "\"%char :: r =>
          let (name, r) := span name_char r in
          match arity name with
          | Some n => match read_args f n r with Some (l, r) => Some (Cmd name l, r) | None => None end
          | None => None
          end
      | s => match span word_char s with ([], _) => None | (t, r) => Some (Text t, r) end
      end
  end
with read_group (f : nat) (s : str) : option (list mt * str) :=
  match f with
  | 0 => None
  | S f =>
      match skip_blank s with
      | "}"%char :: r => Some ([], r)
      | s => match read_markup f s with
             | Some (m, r) => match read_group f r with Some (l, r) => Some (m :: l, r) | None => None end
             | None => None
             end
      end
  end
with read_args (f n : nat) (s : str) : option (list mt * str) :=
  match f with
  | 0 => None
  | S f =>
      match n with
      | 0 => Some ([], s)
      | S n => match read_markup f s with
               | Some (m, r) => match read_args f n r with Some (l, r) => Some (m :: l, r) | None => None end
               | None => None
               end
      end
  end.
(** The whole text is the markup [m], given enough depth. *)
Definition reads (s : str) (m : mt) : Prop := exists depth, forall f, depth <= f -> read_markup f s = Some (m, []).
End Reader.

(** LilyPond's commands that have a function of their own in quickly.dom.markup (LilyPond's Notation Reference, A.11 Text markup commands). *)
Definition special : list (string * nat) :=
  [("markup", 1); ("markuplist", 1);
   ("char", 1); ("tied-lyric", 1); ("fret-diagram", 1); ("fret-diagram-terse", 1); ("fret-diagram-verbose", 1); ("fromproperty", 1); ("harp-pedal", 1);
   ("justify-field", 1); ("justify-string", 1); ("lookup", 1); ("musicglyph", 1); ("postscript", 1); ("rest", 1); ("verbatim-file", 1); ("wordwrap-field", 1);
   ("wordwrap-string", 1); ("note", 2); ("override", 2); ("override-lines", 2); ("translate", 2); ("translate-scaled", 2); ("with-link", 2); ("with-url", 2);
   ("woodwind-diagram", 2); ("draw-squiggle-line", 3); ("epsfile", 3); ("filled-box", 3); ("note-by-number", 3); ("pad-to-box", 3); ("page-ref", 3);
   ("with-dimensions", 3); ("fill-with-pattern", 5)].

(** ** Calls *)
(** An expression in Python: a string, a value, or a call of a function, of which the arguments are texts, values and other expressions. *)
Inductive fn0 :=
| FChar (n : Z) | FTiedLyric (s : str) | FFromproperty (s : str) | FHarpPedal (s : str) | FJustifyField (s : str) | FJustifyString (s : str)
| FLookup (s : str) | FMusicglyph (s : str) | FPostscript (s : str) | FRest (s : str) | FVerbatimFile (s : str) | FWordwrapField (s : str)
| FWordwrapString (s : str) | FNote (s : str) (dir : str) | FSquiggle (len x y eqend : value) | FEpsfile (axis size name : value)
| FFilledBox (x1 y1 x2 y2 blot : value) | FNoteByNumber (log dots : str) (dir : value).
Inductive fn_text :=
| FOverride (p : str) (v : value) | FOverrideLines (p : str) (v : value) | FTranslate (x y : value) | FTranslateScaled (x y : value)
| FWithUrl (s : str) | FPadToBox (x1 y1 x2 y2 : value) | FWithDimensions (x1 y1 x2 y2 : value).
(** These want an element, such as another call. *)
Inductive fn_elem := FPostscriptOf | FRestOf | FNoteOf (dir : str).
Inductive expr :=
| XStr (s : str) | XVal (v : value)
| XGeneric (n : nat) (name : str) (args : list expr)
| XCall (f : fn0) | XOf (f : fn_elem) (x : expr) | XText (f : fn_text) (args : list expr)
| XPageRef (label : str) (gauge : expr) (args : list expr)
| XFill (space dir : value) (pattern left right : expr).
(** Evaluating the expression. *)
Definition eval_fn (f : fn0) : res elem :=
  match f with
  | FChar n => char_ n | FTiedLyric s => tied_lyric s | FFromproperty s => fromproperty s | FHarpPedal s => harp_pedal s
  | FJustifyField s => justify_field s | FJustifyString s => justify_string s | FLookup s => lookup s | FMusicglyph s => musicglyph s
  | FPostscript s => postscript (inl s) | FRest s => rest (inl s) | FVerbatimFile s => verbatim_file s | FWordwrapField s => wordwrap_field s
  | FWordwrapString s => wordwrap_string s | FNote s d => note (inl s) d | FSquiggle l x y q => draw_squiggle_line l x y q
  | FEpsfile a s n => epsfile a s n | FFilledBox x1 y1 x2 y2 b => filled_box x1 y1 x2 y2 b | FNoteByNumber l d v => note_by_number l d v
  end.
Definition eval_of (f : fn_elem) (e : elem) : res elem :=
  match f with FPostscriptOf => postscript (inr e) | FRestOf => rest (inr e) | FNoteOf d => note (inr e) d end.
Section Evaluation.
Variable is_markup : str -> bool.
Definition eval_text (f : fn_text) : list arg -> res elem :=
  match f with
  | FOverride p v => override is_markup p v | FOverrideLines p v => override_lines is_markup p v | FTranslate x y => translate is_markup x y
  | FTranslateScaled x y => translate_scaled is_markup x y | FWithUrl s => with_url is_markup s
  | FPadToBox x1 y1 x2 y2 => pad_to_box is_markup x1 y1 x2 y2 | FWithDimensions x1 y1 x2 y2 => with_dimensions is_markup x1 y1 x2 y2
  end.
Fixpoint eval (x : expr) : res arg :=
  let evals := (fix evals (l : list expr) : res (list arg) :=
    match l with [] => Ok [] | x :: r => let! a := eval x in let! b := evals r in Ok (a :: b) end) in
  match x with
  | XStr s => Ok (AStr s)
  | XVal v => Ok (AVal v)
  | XGeneric n name l => let! l := evals l in let! e := factory is_markup n name l in Ok (AElem e)
  | XCall f => let! e := eval_fn f in Ok (AElem e)
  | XOf f x => let! a := eval x in match a with AElem e => let! e := eval_of f e in Ok (AElem e) | _ => Err TypeError end
  | XText f l => let! l := evals l in let! e := eval_text f l in Ok (AElem e)
  | XPageRef s g l => let! g := eval g in let! l := evals l in let! e := page_ref is_markup s g l in Ok (AElem e)
  | XFill s d p l r => let! p := eval p in let! l := eval l in let! r := eval r in let! e := fill_with_pattern is_markup s d p l r in Ok (AElem e)
  end.
Fixpoint evals (l : list expr) : res (list arg) :=
  match l with [] => Ok [] | x :: r => let! a := eval x in let! b := evals r in Ok (a :: b) end.
End Evaluation.

(** ** What is meant *)
Definition sane (t : str) : Prop := t <> [] /\ forallb atom_char t = true.
Inductive denotes : value -> datum -> Prop :=
| denotes_bool (b : bool) : denotes (VBool b) (DWord (txt (if b then "#t" else "#f")))
| denotes_number t : sane t -> denotes (VNumber t) (atom t)
| denotes_str s : denotes (VStr s) (DStr s)
| denotes_list l ds : Forall2 denotes l ds -> denotes (VList l) (DList ds)
| denotes_tuple l v ds d : l <> [] -> Forall2 denotes l ds -> denotes v d -> denotes (VTuple (l ++ [v])) (DList (ds ++ [DWord (txt "."); d])).
(** Several arguments are a group, one is not. *)
Definition group (l : list mt) : mt := match l with [m] => m | _ => Group l end.
Definition symbol (s : str) : mt := Scm (DQuote (atom s)).
Definition pair_of (x y : datum) : mt := Scm (DQuote (DList [x; DWord (txt "."); y])).
Inductive fn_means : fn0 -> string -> list mt -> Prop :=
| m_char n : fn_means (FChar n) "char" [Scm (DNum (inject_Z n))]
| m_tied s : fn_means (FTiedLyric s) "tied-lyric" [Scm (DStr s)]
| m_fromproperty s : sane s -> fn_means (FFromproperty s) "fromproperty" [symbol s]
| m_harp s : fn_means (FHarpPedal s) "harp-pedal" [Text s]
| m_justify_field s : sane s -> fn_means (FJustifyField s) "justify-field" [symbol s]
| m_justify_string s : fn_means (FJustifyString s) "justify-string" [Scm (DStr s)]
| m_lookup s : fn_means (FLookup s) "lookup" [Scm (DStr s)]
| m_musicglyph s : fn_means (FMusicglyph s) "musicglyph" [Scm (DStr s)]
| m_postscript s : fn_means (FPostscript s) "postscript" [Scm (DStr s)]
| m_rest s : s <> [] -> forallb word_char s = true -> fn_means (FRest s) "rest" [Group [Text s]]
| m_verbatim s : fn_means (FVerbatimFile s) "verbatim-file" [Scm (DStr s)]
| m_wordwrap_field s : sane s -> fn_means (FWordwrapField s) "wordwrap-field" [symbol s]
| m_wordwrap_string s : fn_means (FWordwrapString s) "wordwrap-string" [Scm (DStr s)]
| m_note s d : s <> [] -> forallb word_char s = true -> sane d -> fn_means (FNote s d) "note" [Group [Text s]; Scm (atom d)]
| m_squiggle l x y q l' x' y' q' : denotes l l' -> denotes x x' -> denotes y y' -> denotes q q' ->
    fn_means (FSquiggle l x y q) "draw-squiggle-line" [Scm l'; pair_of x' y'; Scm q']
| m_epsfile a s n a' s' n' : denotes a a' -> denotes s s' -> denotes n n' -> fn_means (FEpsfile a s n) "epsfile" [Scm a'; Scm s'; Scm n']
| m_filled_box x1 y1 x2 y2 b x1' y1' x2' y2' b' : denotes x1 x1' -> denotes y1 y1' -> denotes x2 x2' -> denotes y2 y2' -> denotes b b' ->
    fn_means (FFilledBox x1 y1 x2 y2 b) "filled-box" [pair_of x1' x2'; pair_of y1' y2'; Scm b']
| m_note_by_number l d v v' : sane l -> sane d -> denotes v v' -> fn_means (FNoteByNumber l d v) "note-by-number" [Scm (atom l); Scm (atom d); Scm v'].
(** The arguments before the text. *)
Inductive text_means : fn_text -> string -> list mt -> Prop :=
| m_override p v v' : sane p -> denotes v v' -> text_means (FOverride p v) "override" [pair_of (atom p) v']
| m_override_lines p v v' : sane p -> denotes v v' -> text_means (FOverrideLines p v) "override-lines" [pair_of (atom p) v']
| m_translate x y x' y' : denotes x x' -> denotes y y' -> text_means (FTranslate x y) "translate" [pair_of x' y']
| m_translate_scaled x y x' y' : denotes x x' -> denotes y y' -> text_means (FTranslateScaled x y) "translate-scaled" [pair_of x' y']
| m_with_url s : text_means (FWithUrl s) "with-url" [Scm (DStr s)]
| m_pad x1 y1 x2 y2 x1' y1' x2' y2' : denotes x1 x1' -> denotes y1 y1' -> denotes x2 x2' -> denotes y2 y2' ->
    text_means (FPadToBox x1 y1 x2 y2) "pad-to-box" [pair_of x1' x2'; pair_of y1' y2']
| m_dimensions x1 y1 x2 y2 x1' y1' x2' y2' : denotes x1 x1' -> denotes y1 y1' -> denotes x2 x2' -> denotes y2 y2' ->
    text_means (FWithDimensions x1 y1 x2 y2) "with-dimensions" [pair_of x1' x2'; pair_of y1' y2'].
Inductive of_means : fn_elem -> string -> mt -> list mt -> Prop :=
| m_postscript_of m : of_means FPostscriptOf "postscript" m [m]
| m_rest_of m : of_means FRestOf "rest" m [m]
| m_note_of d m : sane d -> of_means (FNoteOf d) "note" m [m; Scm (atom d)].
Definition is_call (x : expr) : Prop := match x with XStr _ | XVal _ => False | _ => True end.
Section Meaning.
Variable arity : str -> option nat.
Inductive means : expr -> mt -> Prop :=
| means_str s : means (XStr s) (Text s)
| means_val v d : denotes v d -> means (XVal v) (Scm d)
| means_none name : forallb name_char name = true -> arity name = Some 0 -> means (XGeneric 0 name []) (Cmd name [])
| means_generic n name l ts ms ns : forallb name_char name = true -> arity name = Some (S n) -> length l = n ->
    Forall2 means l ms -> Forall2 means ts ns -> means (XGeneric (S n) name (l ++ ts)) (Cmd name (ms ++ [group ns]))
| means_call f name ms : fn_means f name ms -> means (XCall f) (Cmd (txt name) ms)
| means_of f x name m ms : is_call x -> means x m -> of_means f name m ms -> means (XOf f x) (Cmd (txt name) ms)
| means_text f l name ms ns : text_means f name ms -> Forall2 means l ns -> means (XText f l) (Cmd (txt name) (ms ++ [group ns]))
| means_page_ref s g l m ns : sane s -> means g m -> Forall2 means l ns -> means (XPageRef s g l) (Cmd (txt "page-ref") [symbol s; m; group ns])
| means_fill s d p l r s' d' p' l' r' : denotes s s' -> denotes d d' -> means p p' -> means l l' -> means r r' ->
    means (XFill s d p l r) (Cmd (txt "fill-with-pattern") [Scm s'; Scm d'; p'; l'; r']).
End Meaning.

(** ** The functions of the module *)
(** The commands of the table in order, with their number of arguments. *)
Fixpoint numbered (n : nat) (table : list (list str)) : list (nat * str) :=
  match table with [] => [] | cmds :: r => map (fun c => (n, c)) cmds ++ numbered (S n) r end.
(** The name of a function for a command: hyphens become underscores; an underscore is added to a keyword of Python. *)
Definition named (iskeyword : str -> bool) (cmd name : str) : Prop :=
  exists t, Forall2 (fun c d => (c = "-"%char /\ d = "_"%char) \/ (c <> "-"%char /\ d = c)) cmd t /\
  ((iskeyword t = true /\ name = t ++ txt "_") \/ (iskeyword t = false /\ name = t)).
