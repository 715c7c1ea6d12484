(** Specification of LaTeX as it is read: the grammar of the token trees and the elements they mean. *)
From Coq Require Import String Ascii List Arith Bool.
From Verif Require Import Base Latex_Model.
Import ListNotations.

Definition reads (t : token) (s : string) : Prop := t_text t = txt s.
(** No token directly in these trees has the text. *)
Definition without (s : string) (ts : list tree) : Prop := forall t, In (TTok t) ts -> ~ reads t s.
Definition delimiter (t : token) : Prop := t_action t = ADelimiter.
(** The three tokens of the name of an environment. *)
Definition names (a b c : token) : Prop := delimiter a /\ t_action b = ATag /\ delimiter c.
Definition name_of (a b c : token) : node := N KEnvironmentName [a; b; c] [] [].
(** Math: the class, and the texts of the tokens around it. *)
Definition math_of (k : cls) (o c : string) : Prop :=
  In (k, o, c) [(KMathInlineParen, "\(", "\)"); (KMathInlineDollar, "$", "$"); (KMathDisplayBracket, "\[", "\]"); (KMathDisplayDollar, "$$", "$$")]%string.

(** What starts a text, and what can not continue one. *)
Definition text_token (t : token) : Prop := t_action t <> ABuiltin /\ t_action t <> ACommand.
Definition text_ends (r : list tree) : Prop := match r with TTok t :: _ => ~ text_token t | (TCx (LBrace | LMath | LComment) _) :: _ => True | [] => True | _ => False end.
(** What can follow a command without options, without braces. *)
Definition no_option (r : list tree) : Prop := forall t k r', r <> TTok t :: TCx LOption k :: r'.
Definition no_brace (r : list tree) : Prop := forall k r', r <> TCx LBrace k :: r'.
(** What can follow the word \lilypond when that is all, and what follows options of it without music. *)
Definition no_lily (r : list tree) : Prop := forall o m t r', r <> TLily o m t :: r'.
Definition no_braced (r : list tree) : Prop := forall b o m t r', r <> TTok b :: TLily o m t :: r'.
(** What can follow an environment without contents (or without a name and contents). *)
Definition token_or_end (r : list tree) : Prop := match r with [] => True | TTok _ :: _ => True | _ => False end.
Definition no_name (r : list tree) : Prop := (forall a b c r', r = TTok a :: TTok b :: TTok c :: r' -> t_action b <> ATag) /\ (forall a k r', r <> TTok a :: TCx LEnvironmentOption k :: r').
(** The last token of the context of options is not a brace. *)
Definition last_brace (ts : list tree) : Prop := exists a b, ts = a ++ [TTok b] /\ t_action b = ABrace.
Definition opens (ts : list tree) : Prop := exists t r, ts = TTok t :: r /\ t_action t = ABracket /\ reads t "[".
(** The end of the contents of an environment. *)
Definition ends (e : list tree) (n : list node) : Prop :=
  (e = [] /\ n = []) \/ exists t a b c, t_action t = ABuiltin /\ reads t "\end" /\ names a b c /\ e = map TTok [t; a; b; c] /\ n = [N KCommand [t] [name_of a b c] []].
Definition no_end (ts : list tree) : Prop := forall p t a b c, ts = p ++ map TTok [t; a; b; c] -> t_action t <> ABuiltin.

(** The grammar has two versions: [whole = true] is that of documents of which nothing is left out. *)
Section Grammar.
Variable whole : bool.
(** A text: adjacent tokens; contexts that are not known are left out. *)
Inductive text_of : list tree -> list token -> Prop :=
| text_nil : text_of [] []
| text_more t r ts : text_token t -> text_of r ts -> text_of (TTok t :: r) (t :: ts)
| text_unknown us r ts : whole = false -> text_of r ts -> text_of (TUnknown us :: r) ts.

Inductive contents : list tree -> list node -> Prop :=
| contents_nil : contents [] []
| contents_unknown us r ns : whole = false -> contents r ns -> contents (TUnknown us :: r) ns
| contents_text t ts us r ns : text_of ts us -> text_token t -> text_ends r -> contents r ns -> contents (TTok t :: ts ++ r) (N KText (t :: us) [] [] :: ns)
| contents_block t n r ns : block t n -> contents r ns -> contents (t :: r) (n :: ns)
| contents_command t a args r ns : t_action t = ACommand -> arguments a args r -> contents r ns -> contents (TTok t :: a ++ r) (N KCommand [t] args [] :: ns)
| contents_lilypond t a args r ns : t_action t = ABuiltin -> reads t "\lilypond" -> lily_arguments a args r -> contents r ns -> contents (TTok t :: a ++ r) (N KCommand [t] args [] :: ns)
| contents_environment t a args b opts inner r ns : t_action t = ABuiltin -> ~ reads t "\lilypond" -> begins a args (b ++ r) -> body b opts inner r -> contents r ns ->
    contents (TTok t :: a ++ b ++ r) (N KEnvironment [] (N KCommand [t] (args ++ opts) [] :: inner) [] :: ns)
(** braces, math and comments, closed or not *)
with block : tree -> node -> Prop :=
| block_brace o kids ns c : contents kids ns -> reads c "}" -> block (TCx LBrace (TTok o :: kids ++ [TTok c])) (N KBrace [o] ns [c])
| block_brace_open o kids ns : contents kids ns -> (forall p c, TTok o :: kids = p ++ [TTok c] -> ~ reads c "}") -> block (TCx LBrace (TTok o :: kids)) (N KBrace [o] ns [])
| block_math k s e o kids ns c : math_of k s e -> reads o s -> contents kids ns -> reads c e -> block (TCx LMath (TTok o :: kids ++ [TTok c])) (N k [o] ns [c])
| block_math_open k s e o kids ns : math_of k s e -> reads o s -> contents kids ns -> (forall p c, kids = p ++ [TTok c] -> ~ reads c e) -> block (TCx LMath (TTok o :: kids)) (N k [o] ns [])
| block_comment ts : block (TCx LComment (map TTok ts)) (N KComment ts [] [])
(** options and a braced piece of text after a command *)
with arguments : list tree -> list node -> list tree -> Prop :=
| arguments_none r : no_option r -> no_brace r -> arguments [] [] r
| arguments_brace b n r : brace_block b n -> arguments [b] [n] r
| arguments_options o kids ns r : t_action o = ABracket -> options_after o kids ns -> no_brace r -> arguments [TTok o; TCx LOption kids] ns r
| arguments_both o kids ns b n r : t_action o = ABracket -> options_after o kids ns -> brace_block b n -> arguments [TTok o; TCx LOption kids; b] (ns ++ [n]) r
with brace_block : tree -> node -> Prop :=
| brace_block_is kids n : block (TCx LBrace kids) n -> brace_block (TCx LBrace kids) n
(** what follows the word \lilypond *)
with lily_arguments : list tree -> list node -> list tree -> Prop :=
| lily_none r : no_option r -> no_braced r -> lily_arguments [] [] r
| lily_short b music tail r : t_action b = ABrace -> lily_arguments [TTok b; TLily [] music tail] [N KBrace [b] music tail] r
| lily_with_options o kids ns r : delimiter o -> options_after o kids ns -> no_lily r -> lily_arguments [TTok o; TCx LOption kids] ns r
| lily_both o kids ns b music tail r : delimiter o -> options_after o kids ns -> t_action b = ABrace ->
    lily_arguments [TTok o; TCx LOption (kids ++ [TTok b]); TLily [] music tail] (ns ++ [N KBrace [b] music tail]) r
(** the options and the name after \begin *)
with begins : list tree -> list node -> list tree -> Prop :=
| begins_none r : no_name r -> begins [] [] r
| begins_name a b c r : names a b c -> begins (map TTok [a; b; c]) [name_of a b c] r
| begins_options o kids ns r : t_action o = ABracket -> options_after o kids ns -> (forall p a b c, kids = p ++ map TTok [a; b; c] -> t_action b <> ATag) ->
    begins [TTok o; TCx LEnvironmentOption kids] ns r
| begins_both o kids ns a b c r : t_action o = ABracket -> options_after o kids ns -> names a b c ->
    begins [TTok o; TCx LEnvironmentOption (kids ++ map TTok [a; b; c])] (ns ++ [name_of a b c]) r
(** the contents of an environment; LilyPond music has its own options *)
with body : list tree -> list node -> list node -> list tree -> Prop :=
| body_none r : token_or_end r -> body [] [] [] r
| body_contents l kids e ns n r : l = LEnvironment \/ l = LEnvironmentMath -> contents kids ns -> ends e n -> (e = [] -> no_end kids) -> body [TCx l (kids ++ e)] [] (ns ++ n) r
| body_music music tail r : (whole = true -> tail = []) -> body [TLily [] music tail] [] music r
| body_music_options o kids ns music tail r : (whole = true -> tail = []) -> t_action o = ABracket -> reads o "[" -> option_list [o] kids ns -> ~ last_brace kids ->
    body [TLily [TCx LOption (TTok o :: kids)] music tail] ns music r
| body_unknown us r : whole = false -> body [TUnknown us] [] [] r
| body_dropped t n r : whole = false -> block t n -> body [t] [] [] r
(** the options in a context, when the first bracket is before it *)
with options_after : token -> list tree -> list node -> Prop :=
| options_after_closed o kids ns : option_list [o] kids ns -> (exists c, In (TTok c) kids /\ reads c "]") -> ~ opens kids -> ~ last_brace kids -> options_after o kids ns
| options_after_open o kids ns : whole = false -> contents kids ns -> without "]" kids -> ~ opens kids -> ~ last_brace kids -> options_after o kids [N KOption [] ns []]
(** options from the contents of the first one; [head] is its bracket *)
with option_list : list token -> list tree -> list node -> Prop :=
| option_open head kids ns : contents kids ns -> without "]" kids -> option_list head kids [N KOption head ns []]
| option_last head kids ns c x : contents kids ns -> without "]" kids -> reads c "]" -> without "[" (map TTok x) -> (whole = true -> x = []) ->
    option_list head (kids ++ TTok c :: map TTok x) [N KOption head ns [c]]
| option_more head kids ns c x o r ms : contents kids ns -> without "]" kids -> reads c "]" -> without "[" (map TTok x) -> (whole = true -> x = []) -> reads o "[" -> option_list [o] r ms ->
    option_list head (kids ++ TTok c :: map TTok x ++ TTok o :: r) (N KOption head ns [c] :: ms).
End Grammar.

(** The tokens in order. *)
Fixpoint node_tokens (n : node) : list token := match n with N _ h kids t => h ++ flat_map node_tokens kids ++ t end.
Fixpoint tree_tokens (t : tree) : list token :=
  match t with TTok t => [t] | TCx _ kids => flat_map tree_tokens kids | TLily o music tail => flat_map tree_tokens o ++ flat_map node_tokens music ++ tail | TUnknown us => us end.
Inductive sublist {A} : list A -> list A -> Prop :=
| sub_nil : sublist [] []
| sub_keep x a b : sublist a b -> sublist (x :: a) (x :: b)
| sub_skip x a b : sublist a b -> sublist a (x :: b).

(** Trees that have the tokens their contexts start with; the rest may be anything. *)
Inductive readable : tree -> Prop :=
| readable_token t : readable (TTok t)
| readable_unknown us : readable (TUnknown us)
| readable_brace o kids : ~ reads o "}" -> Forall readable kids -> readable (TCx LBrace (TTok o :: kids))
| readable_math k s e o kids : math_of k s e -> reads o s -> Forall readable kids -> readable (TCx LMath (TTok o :: kids))
| readable_context l kids : l <> LBrace -> l <> LMath -> Forall readable kids -> readable (TCx l kids)
| readable_music music tail : readable (TLily [] music tail)
| readable_music_options o kids music tail : t_action o = ABracket -> reads o "[" -> Forall readable kids -> readable (TLily [TCx LOption (TTok o :: kids)] music tail).
