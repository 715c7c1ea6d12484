# Formal model of frescobaldi/quickly in Rocq (Coq 8.16.1)

This directory holds a machine-checked model of the parts of `quickly` that
carry its semantics, together with proofs of the properties listed in
`properties.jsonl`.  `MANIFEST.json` maps properties to theorems.

## Layout

`rocq/theories/`, logical name `Verif`:

* `X_Model.v`  – Gallina transcription of Python code, one definition per
  function, each with a comment citing the file and lines it models;
* `X_Proofs.v` – lemmas;
* `X_Props.v`  – the property theorems only.  Each is closed by
  `exact lemma.`, has `Print Assumptions` beneath, and has `Example`s beside it
  that show its hypotheses are met by a concrete non-trivial case.

## Conventions of the model

* Python `int` is `Z` (or `nat` where the code can only produce non-negative
  values: indices, lengths, counts).  `divmod(a, b)` with `b > 0` is
  `(Z.div a b, Z.modulo a b)`, which is floor division in both.
* Python `float` and `Fraction` values (alterations, durations) are exact
  rationals `Q`, compared with `Qeq`/`Qle`.  Binary floats are exact on the
  quarter and half tones that occur in pitches and on dyadic durations inside
  53 bits; rounding outside that is **not** modelled.
* Exceptions are values: `res A := Ok a | Err e` with one constructor per
  Python exception class that is observable.
* Strings are lists of characters (`ascii`) or Coq `string`s.
* Loops are structural recursion, folds, or fuel; when fuel is used running
  out of it is an explicit result, and theorems state it does not occur.
* External data (the pitch name tables and lexers of `parce`) is universally
  quantified.

## Plan per property

| id | modelled as | proof |
|----|-------------|-------|
| C01–C03 | numbering.py on `Z`/lists of characters; English words as token lists | digit-wise case analysis lifted to all n; induction on positional notation; evaluator for number words as separate spec |
| C04–C09 | duration.py with exact rationals; `frexp` specified and computed on `Q` | uniqueness of `frexp`, powers of two arithmetic; C09 expected to be refuted ("3" is accepted) |
| C10–C13 | Pitch record (octave, note : Z, alter : Q) | finite case analysis on the 12 keys lifted by `divmod`; linear arithmetic with division |
| C14–C19 | PitchProcessor over an arbitrary association list as table | minimality of stable sort head; list induction; norsk/english branches expected to be refuted |
| C20–C24 | Transposer with fuelled respelling loops, fuel shown sufficient | invariants of the loops; refutations for `__add__`/`__sub__` |
| C25–C28 | relative/fixed transposition as folds over note events | induction over the event list with an invariant relating both readings |
| C29–C30 | Rel2abs/Abs2rel as folds | induction; chord branch of Abs2rel expected to be refuted |
| C31–C34 | key.py over arbitrary/major scale | rotation lemmas, linear arithmetic, finite check lifted by periodicity |
| C35 | Properties as association list/dict | extensional reasoning |
| C36 | heap of nodes (id → parent, children) with all mutators | invariant by induction over operation histories |
| C37–C42 | rose trees with nodes addressed by trails | structural induction; explicit-stack iterators refined to recursive spec |
| C43–C47 | Range with its `_Level` stack as a state machine | simulation with filtered pre-order |
| C48–C49 | points/combine_text | induction over trees / fragments |
| C50 | optional dictionary | invariant over histories |
| C51–C52 | edits over points and tokens; application of edits to text | invariant of the scan |
| C53–C55 | add, build_tree, MappingElement | list and stack induction |
| C56 | positioned trees | induction under an ordering hypothesis |
| C57–C58 | Indenter as state machine | simulation with write; balance invariant |
| C59 | scopes as chains of URLs with abstract `urljoin` | induction over chains, pigeonhole |
| C60–C64 | sequences of durables | fold invariants |
| C65–C67 | music trees with transforms | structural induction; C67 expected to be refuted for nodes that carry a transform and diverge |
| C68–C147 | see properties.jsonl; appended while modelling | as for their neighbours |

## Trusted base

* Coq 8.16.1 kernel (`coqc`), and `vm_compute` for finite computations and examples.
* The faithfulness of the transcription from Python, which is by hand. Every definition cites the lines it models.
* The semantics of the Python built-ins as used: `divmod`, `bisect`,
  slicing, `sorted`/`max` stability, `dict` order, `math.frexp`, list iteration while the list is changed.
* What parce and urllib do is not assumed: their functions and the tables of words are quantified (section variables, which are
  arguments of the theorems) where they matter.

### Assumptions

`Print Assumptions` is printed beneath the property theorems. For every theorem that MANIFEST.json names the answer is
"Closed under the global context": no axiom is used, of the standard library or other. (The build lists seven constants
`Coq.ssr.ssrunder.Under_rel.*` as axioms of the standard library. They are the fields of a module type in a file that is loaded with
the standard library's tactics; no theorem depends on them.)

### What is modelled

| file in /repo/quickly | modelled | in |
|---|---|---|
| datatypes.py | Properties | Datatypes |
| numbering.py | all | Numbering |
| duration.py | all; floats without and with their limited range | Duration, Float |
| pitch.py | Pitch, PitchProcessor, the languages | Pitch, Pitchable |
| key.py | KeySignature, accidentals, alterations | Key |
| transpose.py | all transposers and the edits | Transpose, Transposedoc |
| relative.py | both conversions; Abs2rel.edit_range on whole documents and ranges; settings | Relative, Abs2rel, Settings |
| rhythm.py | all edits | Rhythm |
| time.py | Time (lengths, positions, cursors) | Time |
| node.py | Common, Node, Range | Node, Range, Rangenav, Rangelist |
| dom/element.py | writing, edits, positions and finding, add and build_tree, mappings, copy, origins, dump, writing back | Element, Find, Build, Copy, Origin, Writeback, Doctext, Rhythmdoc, Reldoc, Absdoc |
| dom/indent.py | Indenter | Indent |
| dom/edit.py | Edit.edit_cursor, the state of an Edit object | Cursor, Edit |
| dom/util.py | whitespace, add_newlines, pop_comments, lilypond_version, replace_unknown | Element, Util, Version, Unknown |
| dom/scope.py | Scope | Scope |
| dom/base.py, scm.py, htm.py, tex.py | heads, Scheme values, the HTML element factory, the factories with and without origin | Heads, Scheme, Htm, Origin |
| dom/lily.py | heads, durations, pitch attributes, variables, references, lookup, spanners, time lengths, version and includes, key signatures, arguments, signatures, grob commands | Grob, Heads, Durattr, Getter, Attrs, Vars, Lookup, Spanner, Time, Version, Keysig, Arg, Signature, Convert, Dispatch, Scale |
| dom/markup.py | the functions that make markup, and which functions are made | Markup |
| lang/scheme.py, html.py, latex.py | the transforms, on parce's items | Scheme, Html, Latex |
| dom/tex.py | Environment.with_name, written | Texenv |
| lang/lilypond.py | the transform: readers and MusicBuilder, on parce's items; the dispatch of tokens | Read, Music, Vars, Dispatch, Words |

### What is not modelled

The `parce` lexers and the way parce calls the transforms; threads and asynchronous transformations; weak references and garbage
collection; `repr`/`pwd`/`ls` debugging output; the tables of markup commands and how LilyPond reads music in markup (score(), score_lines()); the
convenience attributes of dom/lily.py not named above.

## Findings

Statements that are false of the code, each with a `…_refuted` or `…_finding`
theorem where the model reaches it.

* **duration.py** – 53 dots do not survive `log_dotcount` (`frexp` has 53 bits);
  `is_writable(0)` is true; `is_writable` is true of values that are not floats and
  round to a writable one; `from_string` accepts `"3"`, `"0"`, `"-4"`.
* **pitch.py** – `_norsk` (615) inverts `prefer_classic`; `distill_preferences` for
  English (519) looks at the note instead of the alteration; an unknown
  `\language` raises `KeyError`; English with `prefer_x` but no name with an x
  falls through to the last name.
* **transpose.py** – `__add__`/`__sub__` build objects without `scale`, so that
  `transpose` raises `AttributeError`; `__sub__` takes the wrong sign when steps
  borrow an octave; octave checks are wrong with a start pitch and a transposer
  with octaves; `\fixed` is wrong when its reference crosses an octave;
  notes after a selection inside `\relative` change pitch.
* **relative.py** – the node after `\octaveCheck` is skipped (removal during
  iteration, 123); a nested `\relative` after a note is converted twice (73–74);
  `\relative` outside the range is converted; later expressions are converted in
  the language of the first; `Abs2rel` never converts chord notes, and rewrites
  the pitches of octave checks and of nested `\relative`.
* **key.py** – `__repr__` (229) raises `TypeError`; the octave rule is wrong for
  alterations of three whole tones or more; rotation is wrong for 13 semitones or more;
  a mode name ignores a custom scale.
* **datatypes.py** – a property called `self` makes `+` raise `TypeError`.
* **node.py** – removed nodes keep their parent: `trail()` then raises
  `ValueError`; `node.replace_with(node)` makes the node its own parent; a failing
  `node[i] = n` has already changed `n.parent`.
* **node.py, Range** – with the end before the start, `nodes()` still yields the start
  node and its descendants; `node in range` is not "all its descendants": a node
  on the end trail is in the range although children are not, and a node before
  the start node is not, although `in_range()` says so; `range & node` is
  always true when the end trail is empty (842); deleting or slicing away the
  current node skips the next one (941); deleting the end child moves the end
  to the next child (923), or past the last one so that iterating raises
  `IndexError`; inserting at 0 without a start boundary hides the new nodes (916);
  `del range[-1]` deletes nothing and moves the boundary (956). `range[-1] = node` does not move a boundary
  inside the old node, because the negative index is compared with the boundary index (945-949, `C47_negative_finding`).
- element.py / base.py, writing: `base.Newline` and `base.BlankLine` are plain elements for which points() yields nothing, so they write
  nothing and the whitespace they want is lost (C48_newline_finding); `space_before` of an element without a head is ignored
  (C48_before_finding). `copy()` looks for `_spacing` while the attribute is called `_space`, so spacing set on a node is lost in its copy.
- element.py, edits(): if new text wants a newline after it (a line comment) and the source already has a space there, no newline is written,
  so the rest of the line becomes part of the comment (C51_newline_finding). `start` does not protect the text before it
  (C51_start_finding). Texts that touch in the source but want whitespace between them get it inserted, also if nothing was modified:
  `{c}` becomes `{ c }` (C52_touching_finding).
- element.py, edits(): the whitespace after a removed text is replaced by the wanted whitespace, so line breaks and indentation are lost:
  removing the durations in a line that ends with one joins it with the next line (C131_line_finding).
- element.py, add(): with more than one child order, a place found in a later order need not respect the first
  (C53_two_orders_finding). No class in the repository has more than one.
- element.py, find_descendant_right(): raises TypeError for a node that has a tail origin but no head origin (C56_headless_finding).
- indent.py: if a line closes a level opened on an earlier line and also opens a new one, the next line is not aligned with the child it
  should align with: the offset in the line is added to the indent of the outer level instead of the indent of the line
  (C58_alignment_finding). `output_tail` deletes `_indent_stack[self._dedenters]`, one item, instead of the slice; this would leave levels
  open for indenting nodes that have no tail, of which there are none (C58_tailless_finding).
- scope.py: `urls` compares URLs, but `get_document` loads the path of the URL and the loaded document gets that path as its URL. If
  the root document has a `file:` URL, a file including itself is never recognised and is included without end
  (C59_file_url_finding). If documents carry the URL they were asked for by, include chains are finite (C59_chain, C59_finite).
- rhythm.py: the notes inside a chord are durables too, so explicit() and paste() give them durations: `<c e>4` becomes `<c4 e4>4`
  (C60_chord_finding, C63_chord_finding). remove() and implicit() look at the right sibling only: with a comment in between
  (`c4 %{ %} 8`) or after a command without tail (`\grace c4 8`) the next duration is read as the duration of the note
  (C62_comment_finding, C62_command_finding). copy_explicit() forgets that a `\skip` does not set the duration for what follows
  (C63_skip_finding).
- lily.py, scaling setter: removes nodes from the list it iterates over, so of two DurationScaling children one remains
  (C70_two_scalings_finding).
- time.py: a reference that cannot be resolved raises TypeError, although remote_length() is documented to return 0 then
  (C65_unresolved_finding); a chord of drum notes has length 0 (C65_drum_chord_finding); `\afterGrace \music { c16 }` has the length of
  the grace notes, because a reference is not Music (C65_after_grace_finding). duration() applies the transform of the node in which the
  paths diverge twice (C67_transform_finding). cursor_position() raises TypeError at the end of a document
  (C67_cursor_end_finding).
- lily.py, duration_getter(): with a duration inside a chord (as explicit() writes) the answer for the chord depends on what was asked
  before (C72_chord_finding).
- lily.py, Reference.get_value(): the `wait` argument is accepted but not passed on (423).
- lily.py, variables: a tuple of one name is not found again, so setting it twice makes two assignments (C75_singleton_finding);
  `(True, "mm")` loses its unit (C76_unit_finding); of two assignments get_variable() gives the first, although the last is the one
  that counts, and unset_variable() removes only the first (C77_twice_finding); with a comment after the equal sign the value is the
  comment (C77_comment_finding). lang/lilypond.py: an assignment right after a string or symbol is not recognised
  (C78_name_finding).
- base.py, String: a backslash before other characters (`\n`) is doubled when the string is written (C79_backslash_finding; this
  assumes that parce gives only `\\` and `\"` the action String.Escape). scm.py, MultilineComment: looks for and writes `#!` where
  Scheme has `!#` (C81_scheme_comment_finding). htm.py, CData: written without the exclamation mark (C82_cdata_finding).
- C85: Spanner.find_parallel is not symmetric across `\new`: a start outside finds a stop inside a nested `\new`, which does not find
  the start (`C85_nested_finding`).
- C86: lily.py, Pitchable: setting the octave to 0 keeps an existing Octave child, against the documentation (`C86_octave_zero_finding`);
  of two Accidental children only the first is removed by setting None (`C86_two_finding`).
- C87: lang/lilypond.py, MusicBuilder. `self._comments[0:] = pop_comments(music)` (line 749) replaces all the comments that were collected:
  a comment after a chord, rest or skip without duration is lost (`C87_comment_finding`).  A chord modifier after an articulation raises
  TypeError (`C87_modifier_finding`).  With a modifier, comments after articulations move to before them (`C87_moved_finding`).  A `\tag`
  before an isolated duration ends up after it, or the duration is given to the note before the tag (`C87_isolated_finding`).  Articulations,
  directions, numbers and symbols with nothing to belong to are lost (`C87_unbound_finding`).
- C88: a comment between a lyric syllable and its duration makes the duration a syllable of its own (`C88_comment_finding`).
- C89: an accidental before the first figure is lost; after a comment it becomes a child of the comment (`C89_finding`).
- C90: lang/lilypond.py, create_markup(): a comment before the argument of `\markup` is taken as its argument; what follows it in the
  context is lost (`C90_comment_finding`, `C90_lost_finding`).
- C91: lang/lilypond.py, score() takes off the closing brace before create_block() does it again, so a Score has no tail_origin
  (`C91_score_finding`); edits() of an unchanged document then rewrites the brace.
- C93: html_lilypond_tag() raises UnboundLocalError when the tag is not closed (`C93_html_finding`); latex_lilypond_environment() raises
  IndexError when nothing follows the options (`C93_latex_finding`).
- C42: element.py, copy() and copy_with_origin() read the attribute `_spacing`, but the dictionary is `_space` (and its keys would not be
  the names of the properties): values given to spacing properties are lost in every copy, which then writes other text
  (`C42_spacing_finding`, `C42_spacing_witness`).
- C95: py_dump() of a node with a next sibling ends with a comma, so that the printed expression is a tuple.
- C96: lang/scheme.py, common(): a quote at the end of a list is lost (`C96_lost_finding`); a quote before a comment becomes the parent of
  the comment, and the datum after the comment is not quoted (`C96_comment_finding`).
- C97: scm.py, create_element_from_value(): a tuple of one item gives `(. x)`, which is not Scheme (`C97_tuple_finding`).
- C98: htm.py, Element.to_plaintext(): the entity_resolver is not passed on to nested elements (`C98_resolver_finding`).
- C99: lang/html.py, tag(): comments, CDATA sections and processing instructions are transformed, but not added to the document
  (`C99_dropped_finding`); the documentation does not list them among what is ignored. dqstring(), sqstring(): a string of which only the
  opening quote is there gets that token as its closing quote, too (`C99_string_finding`).
- C100: lang/latex.py. option(): an option that is not closed (the text ends in it) has no `[` in its origin, so that token is in no element
  (`C100_bracket_finding`), and writing or editing a document that contains it raises IndexError (`C121_empty_finding`). environment(): when the contents end with `\begin{x}`, that is taken for the
  `\end` command (`C100_end_finding`). common(): a context after `\begin{x}` that is not that of an environment is left out
  (`C100_dropped_finding`).
- C101: dom/edit.py, edit_cursor(). When exactly one node is selected (a note, or a whole `{ ... }`), it becomes the ancestor of the range and
  nothing is edited (`C101_single_finding`). With a selection after the begin of the last node, everything from the start of the
  document is edited (`C101_after_finding`), with one before the end of the first node everything up to the end (`C101_ahead_finding`).
  When only white space between two nodes is selected, the start of the range is after its end, and nodes() yields the node after the
  selection (`C101_space_finding`). A cursor whose end is None (in parce: a selection up to the end of the text)
  makes `find_descendant_left` compare a position with None: TypeError (`C101_open_finding`). That parce allows this end is taken from its documentation.
- C102: dom/lily.py, scaling setter: the DurationScaling children are removed while they are iterated over, so that with three of them the
  last, or with two and a value of None the second, survives (`C102_scalings_finding`). The example in the documentation of
  Duration.from_string says that duration() of `1*1/3` is 1/3; it is the tuple (1, 1/3).
- C103: dom/lily.py, Include.language: without a String child the file name is None and `filename.endswith` raises an AttributeError
  (`C103_include_finding`).
- C104: dom/lily.py, Key.key_signature: `scope, n = n.get_value_with_scope(...)` swaps the tuple (value, scope), so a mode that is a variable
  never is found; without such a variable it raises a TypeError (`C104_variable_finding`). All lists in a Scheme expression are visited and the
  last one counts, so that LilyPond's own lists of pairs are read as their last pair (`C104_pairs_finding`).
- C105: dom/lily.py, add_argument of `\partial`, `\tempo`, `\ottava` etc.: only the first child of an Unpitched is kept, and of the duration, if it has
  an origin, only the first token: dots, scalings and articulations are dropped (`C105_duration_finding`, `C105_number_finding`,
  `C105_origin_finding`).
- C106: dom/edit.py. If an edit raises an exception, document() goes on returning the document (`C106_raise_finding`). An edit that starts
  another one with the same object has no document() afterwards (`C106_nested_finding`). Edits of nodes or ranges leave changes() at the number
  of an earlier edit (`C106_stale_finding`).
- C107: dom/util.py, replace_unknown(): a tree that itself is an Unknown is not replaced, writing it raises an error (`C107_unknown_finding`).
- C108: dom/lily.py, GrobDirection, GrobStyle and Toggle: the setters accept every value, writing then raises a KeyError
  (`C108_unchecked_finding`).
- C109: duration.py. Values up to 2^-1075 become 0.0 in `math.frexp`: log_dotcount() returns (1, -1), to_string() `2` and is_writable() True
  (`C109_underflow_finding`). From 2^1024 - 2^970 on all three raise OverflowError (`C109_overflow_finding`).
- C110: relative.py, Abs2rel.edit_range(): lists in `\fixed` are made relative and lose the octave of `\fixed` (`C110_fixed_finding`);
  `\chordmode` is converted although `\relative` has no effect on it (`C110_chordmode_finding`); a `\language` command before the music is
  not followed (`C110_language_finding`); one in the list before its first note makes the start pitch be written
  in the new language before the command (`C110_start_language_finding`). The range is not checked to be inside `\relative`: selected lists there get a second `\relative`
  (`C110_inside_finding`). A list given as the node itself is not converted (`C110_itself_finding`), nor one with only chords
  (`C110_chords_finding`).
- C111: dom/markup.py: with_link() makes `\with-color` instead of `\with-link` (`C111_with_link_finding`); fret_diagram(),
  fret_diagram_terse(), fret_diagram_verbose() and woodwind_diagram() use undefined names and raise NameError whatever they are given
  (`C111_name_error_finding`). A duration with a space, given as string to rest() or note(), becomes more than one word
  (`C111_duration_finding`).
- C112: dom/lily.py, signatures(). Commands that are music in LilyPond but no Music here are not given to the command before them: `\tag`,
  `\keepWithTag`, `\applyMusic`, `\octaveCheck`, `\break`, `\voiceOne`, `\stemUp` and others (`C112_not_music_finding`; so `\once \stemUp` and
  `\new Staff \keepWithTag ...` stay two elements). Arguments that LilyPond takes are missing: `\pushToTag` and `\appendToTag` with two musics,
  `\after`, `\volta 2 { }`, `\new "Staff"`, `\key \default`, `\time #'(3 2) 5/8`, `\partCombine` with a range, `\omit` with music and others
  (`C112_missed_finding`). A comment after a command that could have had more arguments (`\repeat` without `\alternative`, a generic music
  function) becomes its child (`C112_comment_finding`). `\relative` with only a note with `\rest` takes the music after it
  (`C112_relative_finding`).
- C113: dom/lily.py, add_argument. The conversion of arguments does not look at which argument it is: if the music of `\tuplet` is a duration
  without a note it becomes a Duration, and the music of `\scaleDurations` and `\shiftDurations` becomes an Int (`C113_bare_finding`).
- C114: lang/lilypond.py, MusicBuilder. `_builtin_mapping` lacks ApplyContext, ApplyMusic and ApplyOutput, so that `\applyMusic` and the others are
  read as generic music functions (without their arguments) although there are classes for them, and the head of PartCombine is the old
  `\partcombine`, so that `\partCombine` is generic too (`C114_missing_finding`). A keyword without a class or method is dropped
  (`C114_keyword_finding`).
- C115: dom/lily.py, transform(). `\scaleDurations #'(2 . 3)`, a pair as LilyPond's manual has it, and numbers from expressions or variables do
  not scale, without any notice (`C115_pair_finding`). `\times 2/0`, `\tuplet 0/2` and the like raise ZeroDivisionError when a length around them
  is asked for (`C115_zero_finding`).
- C116: rhythm.py and time.py together (no model of its own: Play_Spec fills the durations that duration_getter() finds in the document of the
  Rhythm model into the tree of the Time model). Transforming all durations does not change notes at the start that have no duration and count
  as quarter notes (`C116_default_finding`). A note in a chord takes its duration from before the chord, not from the chord, so explicit()
  changes what length() says of it (`C116_chord_finding`).
- C117: node.py, Range.ancestors() yields the current node itself first when it was just entered (`C117_ancestors_finding`); forward() and
  backward() yield its descendants then, although documented to start with the sibling (part of `C117_walk`).
- C119: lang/lilypond.py, in blocks read with `common()` a keyword outside the context definitions, such as `\include`, gives no element
  (`C119_dropped_finding`), so the text is lost when the document is written.
- C120: node.py, Range.pwd compares only the ancestors of the current node with the ancestor of the range, so when the range stands at its
  ancestor it prints the path from the root of the document (`C120_pwd_finding`).
- C121: element.py, head_point() catches no IndexError, unlike tail_point(): an element that was made from no token can be written when read
  without the origin, but not when read with it (`C121_empty_finding`).
- C122: element.py, edit() counts changes that change nothing, such as a modified node that has the same text (`C122_count_finding`).
- C123: duration.py, transforms that only remove and add dots are not inverse: removing a dot from a note without dots does nothing, so adding
  it again leaves a dot (`C123_dots_finding`). The theorems on scalings exclude durations with more than one scaling, which the reader never makes
  (C70_two_scalings_finding).
- C125: transpose.py 171, the music in \transpose inside \relative is handed to the loop for relative pitches, although LilyPond (and
  relative.py 79-83) leaves \transpose out of \relative; octaves come out wrong (`C125_transpose_in_relative_refuted`). transpose.py 167
  takes the first two children of \transpose without skipping comments: with a comment there the second pitch is transposed as a note, so
  that the interval of \transpose changes when the transposer has an octave (`C125_comment_refuted`).
- C137: transpose.py 138, relative.py 60 and 184: the language before the edited part is only looked for if the ancestor of the range is not the root.
  With a selection that spans toplevel expressions `Rel2abs` ignores a `\language` before the selection (`C137_selection_finding`). A processor
  that is given to an edit keeps the language of one document when it is used for the next (`C137_reuse_finding`). An unknown language name
  raises `KeyError` (`C137_unknown_finding`).
- C138: dom/indent.py 251: the position of a head is stored whenever its index in its own parent is one of the align indices of the innermost new level, also if
  that parent is not the indenting node. In `{ c4 d8` the durations are child 0 of their notes, so the next line is aligned with the `8` and not with the `c`;
  `('a` aligns with `a`, after the quote (`C138_nested_finding`).
- C139: dom/indent.py 67-69: a blank line is written with the spaces of its indent, so it is not empty (`C139_blank_finding`).
- C140: dom/edit.py 108-131: the tree is kept by the document and there is no rollback: what an edit changed in the tree before it raised, or what a readonly edit
  changed, is written to the text by the next edit (`C140_leftover_finding`). `_document` is also not reset when an edit raises. Assumed of parce: `get_transform()`
  gives the same tree until the text changes.
