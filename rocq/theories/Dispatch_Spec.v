(** Specification: what the tokens of LilyPond music are. *)
From Coq Require Import String Ascii List ZArith Bool.
From Verif Require Import Base Signature_Model Grob_Spec.
Import ListNotations.
Local Open Scope string_scope.
Local Open Scope list_scope.

Definition is_command (text : str) : Prop := exists name, text = txt "\" ++ name.

(** ** The commands, by the class of the element they are
    The name of a class. *)
Definition name (c : cls) : string :=
  match c with
  | KAbsolute => "Absolute" | KAcciaccatura => "Acciaccatura" | KAddQuote => "AddQuote" | KAfterGrace => "AfterGrace" | KAlternative => "Alternative"
  | KAppendToTag => "AppendToTag" | KApplyContext => "ApplyContext" | KApplyMusic => "ApplyMusic" | KApplyOutput => "ApplyOutput"
  | KAppoggiatura => "Appoggiatura" | KBar => "Bar" | KBreathe => "Breathe" | KClef => "Clef" | KDefault => "Default" | KFixed => "Fixed" | KGrace => "Grace"
  | KInStaffSegno => "InStaffSegno" | KKeepWithTag => "KeepWithTag" | KKey => "Key" | KLabel => "Label" | KMark => "Mark" | KOctaveCheck => "OctaveCheck"
  | KOttava => "Ottava" | KPartCombine => "PartCombine" | KPartial => "Partial" | KPushToTag => "PushToTag" | KQuoteDuring => "QuoteDuring"
  | KRelative => "Relative" | KRemoveWithTag => "RemoveWithTag" | KRepeat => "Repeat" | KScaleDurations => "ScaleDurations"
  | KShiftDurations => "ShiftDurations" | KSlashedGrace => "SlashedGrace" | KStringTuning => "StringTuning" | KTagGroup => "TagGroup" | KTempo => "Tempo"
  | KTime => "Time" | KTimes => "Times" | KTranspose => "Transpose" | KTransposition => "Transposition" | KTuplet => "Tuplet" | KUnfolded => "Unfolded"
  | KUnfoldRepeats => "UnfoldRepeats" | KVolta => "Volta"
  | KAccepts => "Accepts" | KAlias => "Alias" | KChange => "Change" | KConsists => "Consists" | KContext => "Context" | KDefaultChild => "DefaultChild"
  | KDenies => "Denies" | KEtc => "Etc" | KHide => "Hide" | KInclude => "Include" | KLanguage => "Language" | KName => "Name" | KNew => "New"
  | KNoteMode => "NoteMode" | KOmit => "Omit" | KOnce => "Once" | KOverride => "Override" | KRemove => "Remove" | KRevert => "Revert"
  | KSequential => "Sequential" | KSet => "Set" | KSimultaneous => "Simultaneous" | KTemporary => "Temporary" | KUndo => "Undo" | KUnset => "Unset"
  | KVersion => "Version"
  | KSkip => "Skip" | KAfter => "After" | KTweak => "Tweak" | KTag => "Tag" | KShape => "Shape" | KVShape => "Vshape"
  | KArpeggio => "Arpeggio" | KGlissando => "Glissando" | KLaissezVibrer => "LaissezVibrer" | KRepeatTie => "RepeatTie"
  | _ => ""
  end.

(** The commands that are elements of a class: most classes are named after their command. *)
Definition commands (c : cls) : list str :=
  match c with
  | KDefaultChild => [txt "\defaultchild"]
  | KNoteMode => [txt "\notemode"]
  | KPartCombine => map txt ["\partCombine"; "\partcombine"]
  | KBreak => map txt ["\break"; "\noBreak"]
  | KPageBreak => map txt ["\pageBreak"; "\noPageBreak"]
  | KPageTurn => map txt ["\pageTurn"; "\noPageTurn"; "\allowPageTurn"]
  | KUnit => map txt ["\mm"; "\cm"; "\in"; "\pt"]
  | KVoiceN => map txt ["\voiceOne"; "\voiceTwo"; "\voiceThree"; "\voiceFour"; "\voiceFive"; "\voiceSix"]
  | KGrobDirection =>
      flat_map (fun g => map (fun d => txt "\" ++ small (txt g) ++ txt d) ["Up"; "Neutral"; "Down"]) directed ++
      map (fun d => txt "\" ++ small arrow ++ txt d) ["Up"; "Down"]
  | KGrobStyle => flat_map (fun g => map (fun d => txt "\" ++ small (txt g) ++ txt d) ["Solid"; "Dashed"; "Dotted"; "HalfSolid"; "HalfDashed"]) styled
  | KGrobDashPattern => map (fun g => txt "\" ++ small (txt g) ++ txt "DashPattern") styled
  | KToggle => flat_map (fun p => map (fun d => txt "\" ++ txt p ++ txt d) ["On"; "Off"]) toggled
  | KTextSpanner => map txt ["\startTextSpan"; "\stopTextSpan"]
  | KTrillSpanner => map txt ["\startTrillSpan"; "\stopTrillSpan"]
  | KMelisma => map txt ["\melisma"; "\melismaEnd"]
  | KLyricMode => map txt ["\lyricmode"; "\lyrics"; "\lyricsto"; "\addlyrics"]
  | KChordMode => map txt ["\chordmode"; "\chords"]
  | KDrumMode => map txt ["\drummode"; "\drums"]
  | KFigureMode => map txt ["\figuremode"; "\figures"]
  | _ => match txt (name c) with [] => [] | n => [txt "\" ++ small n] end
  end.

(** The classes of the commands that parce gives as Name.Builtin, as Keyword and as Name.Script.Articulation, and those with any action. *)
Definition functions : list cls :=
  [KAbsolute; KAcciaccatura; KAddQuote; KAfterGrace; KAlternative; KAppendToTag; KApplyContext; KApplyMusic; KApplyOutput; KAppoggiatura; KBar; KBreak; KBreathe;
   KClef; KDefault; KFixed; KGrace; KGrobDashPattern; KGrobDirection; KGrobStyle; KInStaffSegno; KKeepWithTag; KKey; KLabel; KMark; KOctaveCheck; KOttava; KPageBreak;
   KPageTurn; KPartCombine; KPartial; KPushToTag; KQuoteDuring; KRelative; KRemoveWithTag; KRepeat; KScaleDurations; KShiftDurations; KSlashedGrace;
   KStringTuning; KTagGroup; KTempo; KTime; KTimes; KToggle; KTranspose; KTransposition; KTuplet; KUnfolded; KUnfoldRepeats; KUnit; KVoiceN; KVolta].
Definition keywords : list cls :=
  [KAccepts; KAlias; KChange; KConsists; KContext; KDefaultChild; KDenies; KEtc; KHide; KInclude; KLanguage; KName; KNew; KNoteMode; KOmit; KOnce; KOverride;
   KRemove; KRevert; KSequential; KSet; KSimultaneous; KTemporary; KUndo; KUnset; KVersion; KLyricMode; KChordMode; KDrumMode; KFigureMode].
Definition spanning : list cls := [KArpeggio; KGlissando; KLaissezVibrer; KMelisma; KRepeatTie; KTextSpanner; KTrillSpanner].
Definition everywhere : list cls := [KSkip; KAfter; KTweak; KTag; KShape; KVShape].

(** The commands that are not made an element of their class. *)
Definition missing : list (str * cls) :=
  [(txt "\applyContext", KApplyContext); (txt "\applyMusic", KApplyMusic); (txt "\applyOutput", KApplyOutput); (txt "\partCombine", KPartCombine)].

(** \rest and \noBeam stand after a note. A known command is one of these or the command of a class. *)
Definition modifiers : list str := [txt "\rest"; txt "\noBeam"].
Definition known (l : list cls) (text : str) : Prop := In text modifiers \/ exists c, In c (l ++ everywhere) /\ In text (commands c).

(** ** The tokens *)
Inductive lexed : str -> list string -> Prop :=
| lexed_pitch text : lexed text ["Text"; "Music"; "Pitch"]
| lexed_pitch_name text : lexed text ["Name"; "Pitch"]
| lexed_drum text : lexed text ["Text"; "Music"; "Pitch"; "Drum"]
| lexed_rest text : In text (map txt ["r"; "R"; "s"]) -> lexed text ["Text"; "Music"; "Rest"]
| lexed_direction text : In text (map txt ["_"; "-"; "^"]) -> lexed text ["Delimiter"; "Direction"]
| lexed_dynamic text : is_command text -> lexed text ["Name"; "Builtin"; "Dynamic"]
| lexed_articulation text sub : lexed text (["Name"; "Script"; "Articulation"] ++ sub)
| lexed_slur text : In text (map txt ["("; ")"]) -> lexed text ["Name"; "Symbol"; "Spanner"; "Slur"]
| lexed_phrasing_slur text : In text (map txt ["\("; "\)"]) -> lexed text ["Name"; "Symbol"; "Spanner"; "Slur"; "Phrasing"]
| lexed_tie : lexed (txt "~") ["Name"; "Symbol"; "Spanner"; "Tie"]
| lexed_beam text : In text (map txt ["["; "]"]) -> lexed text ["Name"; "Symbol"; "Spanner"; "Beam"]
| lexed_ligature text : In text (map txt ["\["; "\]"]) -> lexed text ["Name"; "Symbol"; "Spanner"; "Ligature"]
| lexed_pes : lexed (txt "\~") ["Name"; "Symbol"; "Spanner"; "PesOrFlexa"]
| lexed_id : lexed (txt "\=") ["Name"; "Symbol"; "Spanner"; "Id"]
| lexed_mode text : is_command text -> lexed text ["Name"; "Type"]
| lexed_tremolo : lexed (txt ":") ["Delimiter"; "Tremolo"]
| lexed_pipe : lexed (txt "|") ["Delimiter"; "Separator"; "PipeSymbol"]
| lexed_voice : lexed (txt "\\") ["Delimiter"; "Separator"; "VoiceSeparator"]
| lexed_chord text : In text (map txt [":"; "^"; "/"; "/+"]) -> lexed text ["Delimiter"; "Separator"; "Chord"]
| lexed_symbol text sub : (forall r, sub <> "Spanner" :: r) -> lexed text (["Name"; "Symbol"] ++ sub)
| lexed_equal : lexed (txt "=") ["Operator"; "Assignment"]
| lexed_lyric text sub : lexed text (["Text"; "Lyric"; "LyricText"] ++ sub)
| lexed_extender : lexed (txt "__") ["Delimiter"; "Lyric"; "LyricExtender"]
| lexed_hyphen : lexed (txt "--") ["Delimiter"; "Lyric"; "LyricHyphen"]
| lexed_lyric_skip : lexed (txt "_") ["Delimiter"; "Lyric"; "LyricSkip"]
| lexed_function text sub : is_command text -> (forall r, sub <> "Dynamic" :: r) -> lexed text (["Name"; "Builtin"] ++ sub)
| lexed_keyword text c sub : In c keywords -> In text (commands c) -> lexed text ("Keyword" :: sub)
| lexed_own text a c : In c everywhere -> In text (commands c) -> lexed text a
| lexed_rest_modifier a : lexed (txt "\rest") a
| lexed_no_beam a : lexed (txt "\noBeam") a.

(** ** What the symbols and commands with several forms mean, as documented *)
Inductive meaning := Number (z : Z) | Word (s : string) | Yes | No.
Definition meanings : list (cls * string * meaning) :=
  [(KDirection, "^", Number 1%Z); (KDirection, "-", Number 0%Z); (KDirection, "_", Number (-1)%Z);
   (KVoiceN, "\voiceOne", Number 1%Z); (KVoiceN, "\voiceTwo", Number 2%Z); (KVoiceN, "\voiceThree", Number 3%Z); (KVoiceN, "\voiceFour", Number 4%Z);
   (KVoiceN, "\voiceFive", Number 5%Z); (KVoiceN, "\voiceSix", Number 6%Z);
   (KAccidental, "!", Word "forced"); (KAccidental, "?", Word "cautionary");
   (KBreak, "\break", Yes); (KBreak, "\noBreak", No); (KPageBreak, "\pageBreak", Yes); (KPageBreak, "\noPageBreak", No);
   (KPageTurn, "\pageTurn", Word "yes"); (KPageTurn, "\noPageTurn", Word "no"); (KPageTurn, "\allowPageTurn", Word "allow");
   (KFigureAlteration, "\+", Word "augmented"); (KFigureAlteration, "/", Word "diminished"); (KFigureAlteration, "\\", Word "raised");
   (KFigureAlteration, "\!", Word "end-of-line");
   (KUnit, "\mm", Word "mm"); (KUnit, "\cm", Word "cm"); (KUnit, "\in", Word "in"); (KUnit, "\pt", Word "pt");
   (KGrobDashPattern, "\phrasingSlurDashPattern", Word "PhrasingSlur"); (KGrobDashPattern, "\slurDashPattern", Word "Slur");
   (KGrobDashPattern, "\tieDashPattern", Word "Tie")] ++
  flat_map (fun p => match p with (c, a, b) => [(c, a, Word "start"); (c, b, Word "stop")] end)
    [(KSlur, "(", ")"); (KPhrasingSlur, "\(", "\)"); (KBeam, "[", "]"); (KLigature, "\[", "\]"); (KTextSpanner, "\startTextSpan", "\stopTextSpan");
     (KTrillSpanner, "\startTrillSpan", "\stopTrillSpan"); (KMelisma, "\melisma", "\melismaEnd")].
