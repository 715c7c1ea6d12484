(** Model of how the tokens of music become elements: the dispatch of MusicBuilder in quickly/lang/lilypond.py (671-734, 828-1125), element.head_mapping, and
    the heads of the element classes of quickly/dom/lily.py. *)
From Coq Require Import String Ascii List ZArith Bool.
From Verif Require Import Base Build_Model Grob_Model Heads_Model Signature_Model.
Import ListNotations.
Local Open Scope string_scope.
Local Open Scope list_scope.

(** A head value: a text, a number, a truth value or a tuple of two. (dom/element.py 478-482 head) *)
Inductive hv := HStr (s : str) | HInt (z : Z) | HBool (b : bool) | HPair (a b : hv).
(** equality of head values, for the inverted mapping in dom/element.py 942 *)
Fixpoint hv_eqb (a b : hv) : bool :=
  match a, b with
  | HStr s, HStr t => str_eq s t
  | HInt x, HInt y => Z.eqb x y
  | HBool x, HBool y => Bool.eqb x y
  | HPair x y, HPair z w => hv_eqb x z && hv_eqb y w
  | _, _ => false
  end.

(** What kind of head a class has: a fixed one (HeadElement, dom/element.py 795-815), a mapping (MappingElement, 932-964), the text itself (TextElement, 847-929),
    the text without the backslash (BackslashCommand, dom/base.py 84-103), or one that the class reads and writes itself (numbers and durations, see
    Heads_Model); blocks and the elements without a token have the latter kind too. *)
Inductive head_kind := Fixed_head (s : str) | Table (mapping : list (str * hv)) | Text_head | Backslash_head | Own_head.
(** dom/lily.py 697-699 Spanner.__init_subclass__ *)
Definition spanner (start stop : string) : head_kind :=
  Table (dict_put str_eq (dict_put str_eq [] (txt start) (HStr (txt "start"))) (txt stop) (HStr (txt "stop"))).
(** dom/element.py 978-980 ToggleElement.__init_subclass__ *)
Definition toggle (on off : string) : head_kind := Table (map (fun kv => (fst kv, HBool (snd kv))) (toggle_mapping str_eq (txt on) (txt off))).

(** dom/lily.py 603-3160: the head, mapping, spanner_start, spanner_stop, toggle_on and toggle_off attributes of the classes, which may be inherited *)
Definition head_of (c : cls) : head_kind :=
  match c with
  | KPitchable => Text_head (* 215 *)
  | KSymbol => Text_head (* 658 *)
  | KScheme => Text_head (* 666 *)
  | KEqualSign => Fixed_head (txt "=") (* 941 *)
  | KSeparator => Text_head (* 947 *)
  | KIdentifierRef => Backslash_head (* 1066 *)
  | KMusicFunction => Backslash_head (* 1146 *)
  | KContext => Fixed_head (txt "\context") (* 1165 *)
  | KNew => Fixed_head (txt "\new") (* 1177 *)
  | KChange => Fixed_head (txt "\change") (* 1182 *)
  | KAddQuote => Fixed_head (txt "\addQuote") (* 1191 *)
  | KQuoteDuring => Fixed_head (txt "\quoteDuring") (* 1200 *)
  | KApplyContext => Fixed_head (txt "\applyContext") (* 1209 *)
  | KApplyMusic => Fixed_head (txt "\applyMusic") (* 1218 *)
  | KApplyOutput => Fixed_head (txt "\applyOutput") (* 1227 *)
  | KRelative => Fixed_head (txt "\relative") (* 1236 *)
  | KAbsolute => Fixed_head (txt "\absolute") (* 1252 *)
  | KFixed => Fixed_head (txt "\fixed") (* 1261 *)
  | KTranspose => Fixed_head (txt "\transpose") (* 1276 *)
  | KRepeat => Fixed_head (txt "\repeat") (* 1291 *)
  | KAlternative => Fixed_head (txt "\alternative") (* 1301 *)
  | KUnfoldRepeats => Fixed_head (txt "\unfoldRepeats") (* 1310 *)
  | KUnfolded => Fixed_head (txt "\unfolded") (* 1319 *)
  | KVolta => Fixed_head (txt "\volta") (* 1328 *)
  | KTransposition => Fixed_head (txt "\transposition") (* 1337 *)
  | KOttava => Fixed_head (txt "\ottava") (* 1352 *)
  | KSequential => Fixed_head (txt "\sequential") (* 1386 *)
  | KSimultaneous => Fixed_head (txt "\simultaneous") (* 1395 *)
  | KLyricMode => Backslash_head (* 1416 *)
  | KChordMode => Backslash_head (* 1426 *)
  | KDrumMode => Backslash_head (* 1430 *)
  | KNoteMode => Fixed_head (txt "\notemode") (* 1434 *)
  | KFigureMode => Backslash_head (* 1439 *)
  | KNote => Text_head (* 1479 *)
  | KPitch => Text_head (* 1499 *)
  | KRest => Fixed_head (txt "r") (* 1532 *)
  | KMultiMeasureRest => Fixed_head (txt "R") (* 1537 *)
  | KPitchedRest => Text_head (* 1542 *)
  | KSpace => Fixed_head (txt "s") (* 1554 *)
  | KSkip => Fixed_head (txt "\skip") (* 1562 *)
  | KAfter => Fixed_head (txt "\after") (* 1603 *)
  | KQ => Fixed_head (txt "q") (* 1608 *)
  | KDrum => Text_head (* 1625 *)
  | KAccidental => Table [(txt "?", HStr (txt "cautionary")); (txt "!", HStr (txt "forced"))] (* 1631 *)
  | KOctaveCheck => Fixed_head (txt "\octaveCheck") (* 1677 *)
  | KLyricText => Text_head (* 1831 *)
  | KLyricExtender => Fixed_head (txt "__") (* 1837 *)
  | KLyricHyphen => Fixed_head (txt "--") (* 1844 *)
  | KLyricSkip => Fixed_head (txt "_") (* 1851 *)
  | KAddSteps => Fixed_head (txt ":") (* 1862 *)
  | KRemoveSteps => Fixed_head (txt "^") (* 1867 *)
  | KQualifier => Text_head (* 1872 *)
  | KInversion => Fixed_head (txt "/") (* 1876 *)
  | KAddInversion => Fixed_head (txt "/+") (* 1881 *)
  | KAlteration => Text_head (* 1890 *)
  | KDirection => Table [(txt "_", HInt (-1)); (txt "-", HInt (0)); (txt "^", HInt (1))] (* 1898 *)
  | KArticulation => Text_head (* 1911 *)
  | KModifier => Backslash_head (* 1915 *)
  | KRestModifier => Fixed_head (txt "\rest") (* 1925 *)
  | KFingering => Text_head (* 1935 *)
  | KDynamic => Backslash_head (* 1939 *)
  | KSlur => spanner "(" ")" (* 1943 *)
  | KPhrasingSlur => spanner "\(" "\)" (* 1949 *)
  | KTie => Fixed_head (txt "~") (* 1955 *)
  | KLaissezVibrer => Fixed_head (txt "\laissezVibrer") (* 1960 *)
  | KRepeatTie => Fixed_head (txt "\repeatTie") (* 1965 *)
  | KBeam => spanner "[" "]" (* 1970 *)
  | KLigature => spanner "\[" "\]" (* 1976 *)
  | KTextSpanner => spanner "\startTextSpan" "\stopTextSpan" (* 1982 *)
  | KTrillSpanner => spanner "\startTrillSpan" "\stopTrillSpan" (* 1988 *)
  | KMelisma => spanner "\melisma" "\melismaEnd" (* 1994 *)
  | KArpeggio => Fixed_head (txt "\arpeggio") (* 2000 *)
  | KGlissando => Fixed_head (txt "\glissando") (* 2005 *)
  | KBar => Fixed_head (txt "\bar") (* 2010 *)
  | KBreathe => Fixed_head (txt "\breathe") (* 2019 *)
  | KBreak => toggle "\break" "\noBreak" (* 2024 *)
  | KPageBreak => toggle "\pageBreak" "\noPageBreak" (* 2030 *)
  | KPageTurn => Table [(txt "\pageTurn", HStr (txt "yes")); (txt "\noPageTurn", HStr (txt "no")); (txt "\allowPageTurn", HStr (txt "allow"))] (* 2036 *)
  | KInStaffSegno => Fixed_head (txt "\inStaffSegno") (* 2045 *)
  | KPipeSymbol => Fixed_head (txt "|") (* 2050 *)
  | KVoiceSeparator => Fixed_head (txt "\\") (* 2055 *)
  | KLabel => Fixed_head (txt "\label") (* 2060 *)
  | KMark => Fixed_head (txt "\mark") (* 2068 *)
  | KDefault => Fixed_head (txt "\default") (* 2077 *)
  | KTempo => Fixed_head (txt "\tempo") (* 2082 *)
  | KSpannerId => Fixed_head (txt "\=") (* 2101 *)
  | KPesOrFlexa => Fixed_head (txt "\~") (* 2112 *)
  | KTweak => Fixed_head (txt "\tweak") (* 2117 *)
  | KTremolo => Fixed_head (txt ":") (* 2129 *)
  | KMode => Backslash_head (* 2134 *)
  | KKey => Fixed_head (txt "\key") (* 2138 *)
  | KClef => Fixed_head (txt "\clef") (* 2183 *)
  | KTime => Fixed_head (txt "\time") (* 2196 *)
  | KPartial => Fixed_head (txt "\partial") (* 2210 *)
  | KTimes => Fixed_head (txt "\times") (* 2224 *)
  | KTuplet => Fixed_head (txt "\tuplet") (* 2244 *)
  | KScaleDurations => Fixed_head (txt "\scaleDurations") (* 2267 *)
  | KShiftDurations => Fixed_head (txt "\shiftDurations") (* 2285 *)
  | KGrace => Fixed_head (txt "\grace") (* 2305 *)
  | KAcciaccatura => Fixed_head (txt "\acciaccatura") (* 2322 *)
  | KAppoggiatura => Fixed_head (txt "\appoggiatura") (* 2331 *)
  | KSlashedGrace => Fixed_head (txt "\slashedGrace") (* 2340 *)
  | KAfterGrace => Fixed_head (txt "\afterGrace") (* 2349 *)
  | KPartCombine => Fixed_head (txt "\partcombine") (* 2381 *)
  | KMarkup => Backslash_head (* 2413 *)
  | KMarkupWord => Text_head (* 2424 *)
  | KMarkupCommand => Backslash_head (* 2440 *)
  | KFigureSkip => Fixed_head (txt "_") (* 2497 *)
  | KFigureAlteration => Table [(txt "\+", HStr (txt "augmented")); (txt "/", HStr (txt "diminished")); (txt "\\", HStr (txt "raised")); (txt "\!", HStr (txt "end-of-line"))] (* 2518 *)
  | KTag => Fixed_head (txt "\tag") (* 2533 *)
  | KKeepWithTag => Fixed_head (txt "\keepWithTag") (* 2541 *)
  | KRemoveWithTag => Fixed_head (txt "\removeWithTag") (* 2549 *)
  | KTagGroup => Fixed_head (txt "\tagGroup") (* 2557 *)
  | KPushToTag => Fixed_head (txt "\pushToTag") (* 2565 *)
  | KAppendToTag => Fixed_head (txt "\appendToTag") (* 2573 *)
  | KEtc => Fixed_head (txt "\etc") (* 2581 *)
  | KAccepts => Fixed_head (txt "\accepts") (* 2586 *)
  | KDenies => Fixed_head (txt "\denies") (* 2595 *)
  | KName => Fixed_head (txt "\name") (* 2604 *)
  | KAlias => Fixed_head (txt "\alias") (* 2613 *)
  | KConsists => Fixed_head (txt "\consists") (* 2622 *)
  | KRemove => Fixed_head (txt "\remove") (* 2631 *)
  | KDefaultChild => Fixed_head (txt "\defaultchild") (* 2640 *)
  | KOmit => Fixed_head (txt "\omit") (* 2649 *)
  | KHide => Fixed_head (txt "\hide") (* 2658 *)
  | KUndo => Fixed_head (txt "\undo") (* 2667 *)
  | KOnce => Fixed_head (txt "\once") (* 2676 *)
  | KTemporary => Fixed_head (txt "\temporary") (* 2685 *)
  | KOverride => Fixed_head (txt "\override") (* 2694 *)
  | KRevert => Fixed_head (txt "\revert") (* 2707 *)
  | KSet => Fixed_head (txt "\set") (* 2720 *)
  | KUnset => Fixed_head (txt "\unset") (* 2729 *)
  | KVersion => Fixed_head (txt "\version") (* 2738 *)
  | KLanguage => Fixed_head (txt "\language") (* 2763 *)
  | KInclude => Fixed_head (txt "\include") (* 2793 *)
  | KVoiceN => Table [(txt "\voiceOne", HInt (1)); (txt "\voiceTwo", HInt (2)); (txt "\voiceThree", HInt (3)); (txt "\voiceFour", HInt (4)); (txt "\voiceFive", HInt (5)); (txt "\voiceSix", HInt (6))] (* 2842 *)
  | KGrobDirection => Table (map (fun kv => (fst kv, HPair (HStr (fst (snd kv))) (HInt (snd (snd kv))))) directions) (* 2854 *)
  | KGrobStyle => Table (map (fun kv => (fst kv, HPair (HStr (fst (snd kv))) (HStr (snd (snd kv))))) styles) (* 2944 *)
  | KGrobDashPattern => Table [(txt "\phrasingSlurDashPattern", HStr (txt "PhrasingSlur")); (txt "\slurDashPattern", HStr (txt "Slur")); (txt "\tieDashPattern", HStr (txt "Tie"))] (* 3020 *)
  | KToggle => Table (map (fun kv => (fst kv, HPair (HStr (fst (snd kv))) (HBool (snd (snd kv))))) toggles) (* 3032 *)
  | KShape => Fixed_head (txt "\shape") (* 3112 *)
  | KVShape => Fixed_head (txt "\vshape") (* 3126 *)
  | KStringTuning => Fixed_head (txt "\stringTuning") (* 3135 *)
  | KUnit => Table [(txt "\mm", HStr (txt "mm")); (txt "\cm", HStr (txt "cm")); (txt "\in", HStr (txt "in")); (txt "\pt", HStr (txt "pt"))] (* 3144 *)
  | _ => Own_head
  end.

(** for [head_mapping], dom/element.py 1059-1063: the texts of a class *)
Definition class_heads (c : cls) : cls * heads str :=
  (c, match head_of c with Fixed_head s => Fixed s | Table m => Mapped (map fst m) | _ => Neither end).
(** dom/element.py 1050-1064, for the classes of dom/lily.py *)
Definition mapping_for (l : list cls) : list (str * cls) := head_mapping str_eq (map class_heads l).

(** lang/lilypond.py 884-886 *)
Definition rest_mapping : list (str * cls) :=
  mapping_for
    [KMultiMeasureRest; KRest; KSpace].
(** lang/lilypond.py 920-923 *)
Definition articulations_mapping : list (str * cls) :=
  mapping_for
    [KArpeggio; KGlissando; KLaissezVibrer; KMelisma; KRepeatTie; KTextSpanner; KTrillSpanner].
(** lang/lilypond.py 976-977 *)
Definition chord_modifier_mapping : list (str * cls) :=
  mapping_for
    [KAddSteps; KRemoveSteps; KInversion; KAddInversion].
(** lang/lilypond.py 1059-1072 *)
Definition builtin_mapping : list (str * cls) :=
  mapping_for
    [KAbsolute; KAcciaccatura; KAddQuote; KAfterGrace; KAlternative; KAppendToTag; KAppoggiatura; KBar; KBreak; KBreathe; KClef; KDefault; KFixed;
     KGrace; KGrobDashPattern; KGrobDirection; KGrobStyle; KInStaffSegno; KKeepWithTag; KKey; KLabel; KMark; KOctaveCheck; KOttava; KPageBreak;
     KPageTurn; KPartCombine; KPartial; KPushToTag; KQuoteDuring; KRelative; KRemoveWithTag; KRepeat; KScaleDurations; KShape; KShiftDurations;
     KSlashedGrace; KStringTuning; KTagGroup; KTempo; KTime; KTimes; KToggle; KTranspose; KTransposition; KTuplet; KUnfolded; KUnfoldRepeats; KUnit;
     KVoiceN; KVolta; KVShape].
(** lang/lilypond.py 1081-1088 *)
Definition keyword_mapping : list (str * cls) :=
  mapping_for
    [KAccepts; KAlias; KChange; KConsists; KContext; KDefaultChild; KDenies; KEtc; KHide; KInclude; KLanguage; KName; KNew; KNoteMode; KOmit; KOnce;
     KOverride; KRemove; KRevert; KSequential; KSet; KSimultaneous; KTemporary; KUndo; KUnset; KVersion].

(** lang/lilypond.py 932-939 *)
Definition spanner_mapping : list (list string * cls) :=
  [(["Name"; "Symbol"; "Spanner"; "Slur"], KSlur); (["Name"; "Symbol"; "Spanner"; "Slur"; "Phrasing"], KPhrasingSlur);
   (["Name"; "Symbol"; "Spanner"; "Tie"], KTie); (["Name"; "Symbol"; "Spanner"; "Beam"], KBeam);
   (["Name"; "Symbol"; "Spanner"; "Ligature"], KLigature); (["Name"; "Symbol"; "Spanner"; "PesOrFlexa"], KPesOrFlexa)].
(** lang/lilypond.py 1101-1125, the texts with a method of their own *)
Definition keyword_methods : list (str * cls) :=
  [(txt "\lyricmode", KLyricMode); (txt "\lyrics", KLyricMode); (txt "\lyricsto", KLyricMode); (txt "\addlyrics", KLyricMode);
   (txt "\chordmode", KChordMode); (txt "\chords", KChordMode); (txt "\figuremode", KFigureMode); (txt "\figures", KFigureMode);
   (txt "\drummode", KDrumMode); (txt "\drums", KDrumMode)].
(** lang/lilypond.py 829-875, the texts with a method of their own, and the class of the element that is made *)
Definition token_methods : list (str * cls) :=
  [(txt "\skip", KSkip); (txt "\after", KAfter); (txt "\rest", KRestModifier); (txt "\tweak", KTweak); (txt "\noBeam", KModifier); (txt "\tag", KTag);
   (txt "\shape", KShape); (txt "\vshape", KVShape)].

(** An action of parce is the path of its names, Name.Builtin is ["Name"; "Builtin"].  (lang/lilypond.py 710, [token.action]) *)
Definition action := list string.
(** equality of actions (lang/lilypond.py 711, 944, 947) *)
Definition action_eqb (a b : action) : bool := if list_eq_dec string_dec a b then true else false.
(** iteration over an action gives the action, then its parent, and so on (parce; lang/lilypond.py 710) *)
Fixpoint iteration (fuel : nat) (a : action) : list action :=
  match fuel, a with S fuel, _ :: _ => a :: iteration fuel (removelast a) | _, _ => [] end.

(** The class of the element that the method makes, from the text and the action; None if it makes none.  (lang/lilypond.py 877-1099) *)
Definition method := str -> action -> res (option cls).
(** for the methods in lang/lilypond.py 877-1099 that always make the same element *)
Definition always (c : cls) : method := fun _ _ => Ok (Some c).
(** for the methods in lang/lilypond.py 889-893 and 979-982 that look up the text in a dictionary *)
Definition looked_up (d : list (str * cls)) : method :=
  fun text _ => match dict_find str_eq d text with Some c => Ok (Some c) | None => Err KeyError end.
(** for the methods in lang/lilypond.py 925-929 and 1074-1079 that use get() with a default *)
Definition looked_up_or (d : list (str * cls)) (default : cls) : method :=
  fun text _ => Ok (Some (match dict_find str_eq d text with Some c => c | None => default end)).

(** lang/lilypond.py 877-882: a Q or a Note. Simplified: if a tweak waits for its name it is a Symbol, see Music_Model *)
Definition pitch_action : method := fun text _ => Ok (Some (if str_eq text (txt "q") then KQ else KNote)).
(** lang/lilypond.py 941-947 *)
Definition spanner_action : method :=
  fun _ a => if action_eqb a ["Name"; "Symbol"; "Spanner"; "Id"] then Ok (Some KSpannerId)
             else match dict_find action_eqb spanner_mapping a with Some c => Ok (Some c) | None => Err KeyError end.
(** lang/lilypond.py 1090-1099; nothing is yielded if there is no method for the keyword (parce's Dispatcher gives None) *)
Definition keyword_action : method :=
  fun text _ => match dict_find str_eq keyword_mapping text with
                | Some c => Ok (Some c)
                | None => Ok (dict_find str_eq keyword_methods text)
                end.

(** The actions that have a method.  (lang/lilypond.py 877-1099)  Simplified: that the methods of numbers, symbols and the equal sign drop the
    element in some states is in Music_Model; for a LyricText of several tokens (1033-1039) only the first is given here. *)
Definition action_methods : list (action * method) :=
  [(["Text"; "Music"; "Pitch"], pitch_action);
   (["Name"; "Pitch"], pitch_action);
   (["Text"; "Music"; "Rest"], looked_up rest_mapping);
   (["Text"; "Music"; "Pitch"; "Drum"], always KDrum);
   (["Number"; "Duration"], always KDuration);
   (["Delimiter"; "Direction"], always KDirection);
   (["Name"; "Builtin"; "Dynamic"], always KDynamic);
   (["Name"; "Script"; "Articulation"], looked_up_or articulations_mapping KArticulation);
   (["Name"; "Symbol"; "Spanner"], spanner_action);
   (["Name"; "Type"], always KMode);
   (["Delimiter"; "Tremolo"], always KTremolo);
   (["Delimiter"; "Separator"; "PipeSymbol"], always KPipeSymbol);
   (["Delimiter"; "Separator"; "VoiceSeparator"], always KVoiceSeparator);
   (["Delimiter"; "Separator"; "Chord"], looked_up chord_modifier_mapping);
   (["Number"], always KInt);
   (["Number"; "Float"], always KFloat);
   (["Number"; "Fraction"], always KFraction);
   (["Name"; "Symbol"], always KSymbol);
   (["Operator"; "Assignment"], always KEqualSign);
   (["Text"; "Lyric"; "LyricText"], always KLyricText);
   (["Delimiter"; "Lyric"; "LyricExtender"], always KLyricExtender);
   (["Delimiter"; "Lyric"; "LyricHyphen"], always KLyricHyphen);
   (["Delimiter"; "Lyric"; "LyricSkip"], always KLyricSkip);
   (["Name"; "Builtin"], looked_up_or builtin_mapping KMusicFunction);
   (["Keyword"], keyword_action)].

(** lang/lilypond.py 710-717: the first action of the iteration that has a method *)
Fixpoint find_method (l : list action) : option method :=
  match l with [] => None | a :: r => match dict_find action_eqb action_methods a with Some m => Some m | None => find_method r end end.
(** lang/lilypond.py 705-718: the method for the text, or else for the action; unknown tokens are skipped *)
Definition token_class (text : str) (a : action) : res (option cls) :=
  match dict_find str_eq token_methods text with
  | Some c => Ok (Some c)
  | None => match find_method (iteration (length a) a) with Some m => m text a | None => Ok None end
  end.

Section Heads.
(** read_head and write_head of the classes with an [Own_head]. *)
Variable own_read : cls -> str -> res hv.
Variable own_write : cls -> hv -> res str.

(** An element: its class and the head value; None if the head is fixed. (dom/element.py 795-815, 847-929) *)
Inductive elem := E (c : cls) (head : option hv).
(** [self.factory(cls, (token,))], lang/lilypond.py 832-1099, dom/element.py 801-815, 911-917: the head is read by [read_head] of the class: dom/element.py 496-502,
    890-892, 957-960, dom/base.py 95-99 *)
Definition make (c : cls) (text : str) : res elem :=
  match head_of c with
  | Fixed_head _ => Ok (E c None)
  | Table m => let! v := read_head str hv str_eq m text in Ok (E c (Some v))
  | Text_head => Ok (E c (Some (HStr text)))
  | Backslash_head => Ok (E c (Some (HStr (backslash_read [Tok false text]))))
  | Own_head => let! v := own_read c text in Ok (E c (Some v))
  end.
(** write_head: dom/element.py 513-520, 962-964, dom/base.py 101-103 *)
Definition written (e : elem) : res str :=
  match e with
  | E c h =>
      match head_of c, h with
      | Fixed_head s, _ => Ok s
      | Table m, Some v => write_head str hv hv_eqb m v
      | Text_head, Some (HStr s) => Ok s
      | Backslash_head, Some (HStr s) => Ok (backslash_write s)
      | Own_head, Some v => own_write c v
      | _, _ => Err TypeError
      end
  end.

(** lang/lilypond.py 702-718 and the methods 828-1125, of one token: the element made for it *)
Definition read_token (text : str) (a : action) : res (option elem) :=
  let! c := token_class text a in
  match c with
  | Some c => let! e := make c text in Ok (Some e)
  | None => Ok None
  end.
End Heads.
