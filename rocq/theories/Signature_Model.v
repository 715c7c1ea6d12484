(** Model of the signatures of the elements in quickly/dom/lily.py, which build_tree uses to give commands their arguments. *)
From Coq Require Import List Arith PeanoNat Bool.
From Verif Require Import Base Build_Model.
Import ListNotations.

(** dom/lily.py 35-3162: the classes, with the names of the source.  [KLyricsto] is a LyricMode with the head "lyricsto" (1420) and [KDefineBarLine] a
    MusicFunction with the head "defineBarLine" (1161): the signatures of these classes depend on the head.  The helper classes [_Variable] (450) and Lookup (3165)
    are no elements. *)
Inductive cls :=
  | KMusic | KHandleDuration | KDurable | KPitchable | KReference | KConvertUnpitchedToDuration | KConvertUnpitchedToInt | KHandleAssignments
  | KDocument | KNumber | KInt | KFraction | KFloat | KSymbol | KString | KScheme | KSpanner | KBlock | KBook | KBookPart | KScore | KHeader | KPaper
  | KLayout | KMidi | KWith | KLayoutContext | KEqualSign | KSeparator | KList | KAssignment | KIdentifier | KIdentifierRef | KMusicFunction
  | KContext | KNew | KChange | KAddQuote | KQuoteDuring | KApplyContext | KApplyMusic | KApplyOutput | KRelative | KAbsolute | KFixed | KTranspose
  | KRepeat | KAlternative | KUnfoldRepeats | KUnfolded | KVolta | KTransposition | KOttava | KMusicList | KSimultaneousMusicList | KSequential
  | KSimultaneous | KInputMode | KLyricMode | KChordMode | KDrumMode | KNoteMode | KFigureMode | KChord | KChordBody | KNote | KPitch | KUnpitched
  | KRestType | KRest | KMultiMeasureRest | KPitchedRest | KSpace | KSkip | KAfter | KQ | KDrum | KAccidental | KOctave | KOctCheck | KOctaveCheck
  | KDuration | KDurationScaling | KLyricItem | KLyricText | KLyricExtender | KLyricHyphen | KLyricSkip | KChordModifiers | KAddSteps | KRemoveSteps
  | KQualifier | KInversion | KAddInversion | KStep | KAlteration | KArticulations | KDirection | KArticulation | KModifier | KRestModifier
  | KFingering | KDynamic | KSlur | KPhrasingSlur | KTie | KLaissezVibrer | KRepeatTie | KBeam | KLigature | KTextSpanner | KTrillSpanner | KMelisma
  | KArpeggio | KGlissando | KBar | KBreathe | KBreak | KPageBreak | KPageTurn | KInStaffSegno | KPipeSymbol | KVoiceSeparator | KLabel | KMark
  | KDefault | KTempo | KSpannerId | KPesOrFlexa | KTweak | KTremolo | KMode | KKey | KClef | KTime | KPartial | KTimes | KTuplet | KScaleDurations
  | KShiftDurations | KGrace | KAcciaccatura | KAppoggiatura | KSlashedGrace | KAfterGrace | KPartCombine | KMultilineComment | KSinglelineComment
  | KMarkup | KMarkupWord | KMarkupList | KMarkupCommand | KMarkupScore | KMarkupScoreLines | KFigure | KFigureBody | KFigureBracket | KFigureStep
  | KFigureSkip | KFigureAccidental | KFigureAlteration | KTag | KKeepWithTag | KRemoveWithTag | KTagGroup | KPushToTag | KAppendToTag | KEtc
  | KAccepts | KDenies | KName | KAlias | KConsists | KRemove | KDefaultChild | KOmit | KHide | KUndo | KOnce | KTemporary | KOverride | KRevert
  | KSet | KUnset | KVersion | KLanguage | KInclude | KVoiceN | KGrobDirection | KGrobStyle | KGrobDashPattern | KToggle | KShape | KVShape
  | KStringTuning | KUnit | KLyricsto | KDefineBarLine.

(** dom/lily.py 35-3162: all of them, in the order of the source; the number of a class is its place *)
Definition all_classes : list cls :=
  [KMusic; KHandleDuration; KDurable; KPitchable; KReference; KConvertUnpitchedToDuration; KConvertUnpitchedToInt; KHandleAssignments; KDocument;
   KNumber; KInt; KFraction; KFloat; KSymbol; KString; KScheme; KSpanner; KBlock; KBook; KBookPart; KScore; KHeader; KPaper; KLayout; KMidi; KWith;
   KLayoutContext; KEqualSign; KSeparator; KList; KAssignment; KIdentifier; KIdentifierRef; KMusicFunction; KContext; KNew; KChange; KAddQuote;
   KQuoteDuring; KApplyContext; KApplyMusic; KApplyOutput; KRelative; KAbsolute; KFixed; KTranspose; KRepeat; KAlternative; KUnfoldRepeats;
   KUnfolded; KVolta; KTransposition; KOttava; KMusicList; KSimultaneousMusicList; KSequential; KSimultaneous; KInputMode; KLyricMode; KChordMode;
   KDrumMode; KNoteMode; KFigureMode; KChord; KChordBody; KNote; KPitch; KUnpitched; KRestType; KRest; KMultiMeasureRest; KPitchedRest; KSpace;
   KSkip; KAfter; KQ; KDrum; KAccidental; KOctave; KOctCheck; KOctaveCheck; KDuration; KDurationScaling; KLyricItem; KLyricText; KLyricExtender;
   KLyricHyphen; KLyricSkip; KChordModifiers; KAddSteps; KRemoveSteps; KQualifier; KInversion; KAddInversion; KStep; KAlteration; KArticulations;
   KDirection; KArticulation; KModifier; KRestModifier; KFingering; KDynamic; KSlur; KPhrasingSlur; KTie; KLaissezVibrer; KRepeatTie; KBeam;
   KLigature; KTextSpanner; KTrillSpanner; KMelisma; KArpeggio; KGlissando; KBar; KBreathe; KBreak; KPageBreak; KPageTurn; KInStaffSegno;
   KPipeSymbol; KVoiceSeparator; KLabel; KMark; KDefault; KTempo; KSpannerId; KPesOrFlexa; KTweak; KTremolo; KMode; KKey; KClef; KTime; KPartial;
   KTimes; KTuplet; KScaleDurations; KShiftDurations; KGrace; KAcciaccatura; KAppoggiatura; KSlashedGrace; KAfterGrace; KPartCombine;
   KMultilineComment; KSinglelineComment; KMarkup; KMarkupWord; KMarkupList; KMarkupCommand; KMarkupScore; KMarkupScoreLines; KFigure; KFigureBody;
   KFigureBracket; KFigureStep; KFigureSkip; KFigureAccidental; KFigureAlteration; KTag; KKeepWithTag; KRemoveWithTag; KTagGroup; KPushToTag;
   KAppendToTag; KEtc; KAccepts; KDenies; KName; KAlias; KConsists; KRemove; KDefaultChild; KOmit; KHide; KUndo; KOnce; KTemporary; KOverride;
   KRevert; KSet; KUnset; KVersion; KLanguage; KInclude; KVoiceN; KGrobDirection; KGrobStyle; KGrobDashPattern; KToggle; KShape; KVShape;
   KStringTuning; KUnit; KLyricsto; KDefineBarLine].

(** dom/lily.py 35-3162: the place of a class among [all_classes] *)
Definition number (c : cls) : nat :=
  match c with
  | KMusic => 0 | KHandleDuration => 1 | KDurable => 2 | KPitchable => 3 | KReference => 4 | KConvertUnpitchedToDuration => 5
  | KConvertUnpitchedToInt => 6 | KHandleAssignments => 7 | KDocument => 8 | KNumber => 9 | KInt => 10 | KFraction => 11 | KFloat => 12
  | KSymbol => 13 | KString => 14 | KScheme => 15 | KSpanner => 16 | KBlock => 17 | KBook => 18 | KBookPart => 19 | KScore => 20 | KHeader => 21
  | KPaper => 22 | KLayout => 23 | KMidi => 24 | KWith => 25 | KLayoutContext => 26 | KEqualSign => 27 | KSeparator => 28 | KList => 29
  | KAssignment => 30 | KIdentifier => 31 | KIdentifierRef => 32 | KMusicFunction => 33 | KContext => 34 | KNew => 35 | KChange => 36
  | KAddQuote => 37 | KQuoteDuring => 38 | KApplyContext => 39 | KApplyMusic => 40 | KApplyOutput => 41 | KRelative => 42 | KAbsolute => 43
  | KFixed => 44 | KTranspose => 45 | KRepeat => 46 | KAlternative => 47 | KUnfoldRepeats => 48 | KUnfolded => 49 | KVolta => 50
  | KTransposition => 51 | KOttava => 52 | KMusicList => 53 | KSimultaneousMusicList => 54 | KSequential => 55 | KSimultaneous => 56
  | KInputMode => 57 | KLyricMode => 58 | KChordMode => 59 | KDrumMode => 60 | KNoteMode => 61 | KFigureMode => 62 | KChord => 63 | KChordBody => 64
  | KNote => 65 | KPitch => 66 | KUnpitched => 67 | KRestType => 68 | KRest => 69 | KMultiMeasureRest => 70 | KPitchedRest => 71 | KSpace => 72
  | KSkip => 73 | KAfter => 74 | KQ => 75 | KDrum => 76 | KAccidental => 77 | KOctave => 78 | KOctCheck => 79 | KOctaveCheck => 80 | KDuration => 81
  | KDurationScaling => 82 | KLyricItem => 83 | KLyricText => 84 | KLyricExtender => 85 | KLyricHyphen => 86 | KLyricSkip => 87
  | KChordModifiers => 88 | KAddSteps => 89 | KRemoveSteps => 90 | KQualifier => 91 | KInversion => 92 | KAddInversion => 93 | KStep => 94
  | KAlteration => 95 | KArticulations => 96 | KDirection => 97 | KArticulation => 98 | KModifier => 99 | KRestModifier => 100 | KFingering => 101
  | KDynamic => 102 | KSlur => 103 | KPhrasingSlur => 104 | KTie => 105 | KLaissezVibrer => 106 | KRepeatTie => 107 | KBeam => 108 | KLigature => 109
  | KTextSpanner => 110 | KTrillSpanner => 111 | KMelisma => 112 | KArpeggio => 113 | KGlissando => 114 | KBar => 115 | KBreathe => 116
  | KBreak => 117 | KPageBreak => 118 | KPageTurn => 119 | KInStaffSegno => 120 | KPipeSymbol => 121 | KVoiceSeparator => 122 | KLabel => 123
  | KMark => 124 | KDefault => 125 | KTempo => 126 | KSpannerId => 127 | KPesOrFlexa => 128 | KTweak => 129 | KTremolo => 130 | KMode => 131
  | KKey => 132 | KClef => 133 | KTime => 134 | KPartial => 135 | KTimes => 136 | KTuplet => 137 | KScaleDurations => 138 | KShiftDurations => 139
  | KGrace => 140 | KAcciaccatura => 141 | KAppoggiatura => 142 | KSlashedGrace => 143 | KAfterGrace => 144 | KPartCombine => 145
  | KMultilineComment => 146 | KSinglelineComment => 147 | KMarkup => 148 | KMarkupWord => 149 | KMarkupList => 150 | KMarkupCommand => 151
  | KMarkupScore => 152 | KMarkupScoreLines => 153 | KFigure => 154 | KFigureBody => 155 | KFigureBracket => 156 | KFigureStep => 157
  | KFigureSkip => 158 | KFigureAccidental => 159 | KFigureAlteration => 160 | KTag => 161 | KKeepWithTag => 162 | KRemoveWithTag => 163
  | KTagGroup => 164 | KPushToTag => 165 | KAppendToTag => 166 | KEtc => 167 | KAccepts => 168 | KDenies => 169 | KName => 170 | KAlias => 171
  | KConsists => 172 | KRemove => 173 | KDefaultChild => 174 | KOmit => 175 | KHide => 176 | KUndo => 177 | KOnce => 178 | KTemporary => 179
  | KOverride => 180 | KRevert => 181 | KSet => 182 | KUnset => 183 | KVersion => 184 | KLanguage => 185 | KInclude => 186 | KVoiceN => 187
  | KGrobDirection => 188 | KGrobStyle => 189 | KGrobDashPattern => 190 | KToggle => 191 | KShape => 192 | KVShape => 193 | KStringTuning => 194
  | KUnit => 195 | KLyricsto => 196 | KDefineBarLine => 197
  end.

(** dom/lily.py 35-3162, with [number]: the class of a number; other numbers are classes of other modules *)
Definition class_of (y : nat) : option cls := nth_error all_classes y.

(** The base classes, of those in the table (the class statements in dom/lily.py, at the lines 35-3144).  The bases in base.py and element.py are left out: no
    signature mentions them. *)
Definition bases (c : cls) : list cls :=
  match c with
  | KDurable => [KHandleDuration; KMusic] (* 194 *)
  | KPitchable => [KMusic] (* 215 *)
  | KDocument => [KHandleAssignments] (* 575 *)
  | KInt => [KNumber] (* 603 *)
  | KFraction => [KNumber] (* 618 *)
  | KFloat => [KNumber] (* 644 *)
  | KBlock => [KHandleAssignments] (* 757 *)
  | KBook => [KBlock] (* 769 *)
  | KBookPart => [KBlock] (* 774 *)
  | KScore => [KBlock] (* 779 *)
  | KHeader => [KBlock] (* 784 *)
  | KPaper => [KBlock] (* 851 *)
  | KLayout => [KBlock] (* 907 *)
  | KMidi => [KBlock] (* 925 *)
  | KWith => [KBlock] (* 930 *)
  | KLayoutContext => [KBlock] (* 936 *)
  | KIdentifier => [KList] (* 1019 *)
  | KIdentifierRef => [KReference] (* 1066 *)
  | KMusicFunction => [KMusic] (* 1146 *)
  | KContext => [KMusic] (* 1165 *)
  | KNew => [KContext] (* 1177 *)
  | KChange => [KMusic] (* 1182 *)
  | KQuoteDuring => [KMusic] (* 1200 *)
  | KRelative => [KMusic] (* 1236 *)
  | KAbsolute => [KMusic] (* 1252 *)
  | KFixed => [KMusic] (* 1261 *)
  | KTranspose => [KMusic] (* 1276 *)
  | KRepeat => [KMusic] (* 1291 *)
  | KAlternative => [KMusic] (* 1301 *)
  | KUnfoldRepeats => [KMusic] (* 1310 *)
  | KUnfolded => [KMusic] (* 1319 *)
  | KVolta => [KMusic] (* 1328 *)
  | KTransposition => [KMusic] (* 1337 *)
  | KOttava => [KConvertUnpitchedToInt; KMusic] (* 1352 *)
  | KMusicList => [KMusic] (* 1361 *)
  | KSimultaneousMusicList => [KMusicList] (* 1376 *)
  | KSequential => [KMusic] (* 1386 *)
  | KSimultaneous => [KMusic] (* 1395 *)
  | KInputMode => [KMusic] (* 1404 *)
  | KLyricMode => [KInputMode] (* 1416 *)
  | KChordMode => [KInputMode] (* 1426 *)
  | KDrumMode => [KInputMode] (* 1430 *)
  | KNoteMode => [KInputMode] (* 1434 *)
  | KFigureMode => [KInputMode] (* 1439 *)
  | KChord => [KDurable] (* 1443 *)
  | KNote => [KPitchable; KDurable] (* 1479 *)
  | KPitch => [KPitchable] (* 1499 *)
  | KUnpitched => [KDurable] (* 1518 *)
  | KRestType => [KDurable] (* 1526 *)
  | KRest => [KRestType] (* 1532 *)
  | KMultiMeasureRest => [KRest] (* 1537 *)
  | KPitchedRest => [KPitchable; KRestType] (* 1542 *)
  | KSpace => [KDurable] (* 1554 *)
  | KSkip => [KDurable] (* 1562 *)
  | KAfter => [KHandleDuration; KMusic] (* 1603 *)
  | KQ => [KDurable] (* 1608 *)
  | KDrum => [KDurable] (* 1625 *)
  | KLyricItem => [KDurable] (* 1815 *)
  | KLyricText => [KDurable] (* 1831 *)
  | KLyricSkip => [KDurable] (* 1851 *)
  | KStep => [KInt] (* 1886 *)
  | KSlur => [KSpanner] (* 1943 *)
  | KPhrasingSlur => [KSpanner] (* 1949 *)
  | KLaissezVibrer => [KTie] (* 1960 *)
  | KRepeatTie => [KTie] (* 1965 *)
  | KBeam => [KSpanner] (* 1970 *)
  | KLigature => [KSpanner] (* 1976 *)
  | KTextSpanner => [KSpanner] (* 1982 *)
  | KTrillSpanner => [KSpanner] (* 1988 *)
  | KMelisma => [KSpanner] (* 1994 *)
  | KArpeggio => [KMusic] (* 2000 *)
  | KGlissando => [KMusic] (* 2005 *)
  | KBar => [KMusic] (* 2010 *)
  | KBreathe => [KMusic] (* 2019 *)
  | KInStaffSegno => [KMusic] (* 2045 *)
  | KLabel => [KMusic] (* 2060 *)
  | KMark => [KMusic] (* 2068 *)
  | KTempo => [KConvertUnpitchedToDuration; KHandleDuration; KMusic] (* 2082 *)
  | KKey => [KMusic] (* 2138 *)
  | KClef => [KMusic] (* 2183 *)
  | KTime => [KMusic] (* 2196 *)
  | KPartial => [KConvertUnpitchedToDuration; KHandleDuration; KMusic] (* 2210 *)
  | KTimes => [KMusic] (* 2224 *)
  | KTuplet => [KConvertUnpitchedToDuration; KHandleDuration; KMusic] (* 2244 *)
  | KScaleDurations => [KConvertUnpitchedToInt; KMusic] (* 2267 *)
  | KShiftDurations => [KConvertUnpitchedToInt; KMusic] (* 2285 *)
  | KGrace => [KMusic] (* 2305 *)
  | KAcciaccatura => [KGrace] (* 2322 *)
  | KAppoggiatura => [KGrace] (* 2331 *)
  | KSlashedGrace => [KGrace] (* 2340 *)
  | KAfterGrace => [KMusic] (* 2349 *)
  | KPartCombine => [KMusic] (* 2381 *)
  | KMarkupCommand => [KReference] (* 2440 *)
  | KMarkupScore => [KScore] (* 2456 *)
  | KMarkupScoreLines => [KMarkupScore] (* 2461 *)
  | KFigure => [KMusic] (* 2466 *)
  | KFigureStep => [KInt] (* 2493 *)
  | KOmit => [KMusic] (* 2649 *)
  | KHide => [KMusic] (* 2658 *)
  | KUndo => [KMusic] (* 2667 *)
  | KOnce => [KMusic] (* 2676 *)
  | KTemporary => [KMusic] (* 2685 *)
  | KOverride => [KConvertUnpitchedToInt; KMusic] (* 2694 *)
  | KRevert => [KMusic] (* 2707 *)
  | KSet => [KConvertUnpitchedToInt; KMusic] (* 2720 *)
  | KUnset => [KMusic] (* 2729 *)
  | KVersion => [KMusic] (* 2738 *)
  | KGrobDashPattern => [KConvertUnpitchedToInt] (* 3020 *)
  | KVShape => [KShape] (* 3126 *)
  | KLyricsto => [KLyricMode] (* 1416 *)
  | KDefineBarLine => [KMusicFunction] (* 1146 *)
  | _ => []
  end.

(** [issubclass(c, d)]: the same class, or one of the bases is a subclass (used through isinstance by dom/element.py 1016 and 1036).  The fuel is the greatest depth of the table. *)
Fixpoint subclass (fuel : nat) (c d : cls) : bool :=
  Nat.eqb (number c) (number d) ||
  match fuel with 0 => false | S fuel => existsb (fun b => subclass fuel b d) (bases c) end.

(** [isinstance(node, tuple)] for a node of class c (dom/element.py 1016) *)
Definition isinstance (tuple : list cls) (c : cls) : bool := existsb (subclass 5 c) tuple.

(** dom/lily.py 3497 *)
Definition t_MUSIC : list cls := [KMusic; KIdentifierRef; KEtc].
(** dom/lily.py 3498 *)
Definition t_VALUE : list cls := [KList; KString; KScheme; KNumber; KMarkup; KIdentifierRef; KEtc; KUnpitched].
(** dom/lily.py 3499 *)
Definition t_SYMBOL : list cls := [KList; KSymbol; KString].
(** dom/lily.py 3500 *)
Definition t_TEXT : list cls := [KList; KSymbol; KString; KMarkup; KIdentifierRef; KEtc].
(** dom/lily.py 3501 *)
Definition t_NUMBER : list cls := [KScheme; KNumber; KUnpitched].
(** dom/lily.py 3502 *)
Definition t_INT : list cls := [KInt; KIdentifierRef; KScheme].

(** The signatures() methods of dom/lily.py 614-3141: every yielded tuple, each item as the tuple of classes it means.  None: the inherited default (dom/element.py 687-697), an empty tuple,
    which is falsy; a generator function that yields nothing is truthy: [Some []]. *)
Definition own_signatures (c : cls) : option (list (list (list cls))) :=
  match c with
  | KInt => Some [[[KUnit]]] (* 614-615 *)
  | KFloat => Some [[[KUnit]]] (* 654-655 *)
  | KMusicFunction => Some [] (* 1160-1162 *)
  | KDefineBarLine => Some [[[KString]; [KScheme]]] (* 1160-1162 *)
  | KContext => Some [[[KSymbol]; t_MUSIC]; [[KSymbol]; [KWith]; t_MUSIC]; [[KSymbol]; [KEqualSign]; [KString; KSymbol]; t_MUSIC]; [[KSymbol]; [KEqualSign]; [KString; KSymbol]; [KWith]; t_MUSIC]] (* 1170-1174 *)
  | KChange => Some [[[KSymbol]; [KEqualSign]; [KString; KSymbol]]] (* 1187-1188 *)
  | KAddQuote => Some [[[KIdentifier; KString; KSymbol]; t_MUSIC]] (* 1196-1197 *)
  | KQuoteDuring => Some [[[KList; KString; KSymbol]; t_MUSIC]] (* 1205-1206 *)
  | KApplyContext => Some [[[KScheme]]] (* 1214-1215 *)
  | KApplyMusic => Some [[[KScheme]; t_MUSIC]] (* 1223-1224 *)
  | KApplyOutput => Some [[t_SYMBOL; [KScheme]]] (* 1232-1233 *)
  | KRelative => Some [[[KPitchable]; t_MUSIC]; [t_MUSIC]] (* 1241-1243 *)
  | KAbsolute => Some [[t_MUSIC]] (* 1257-1258 *)
  | KFixed => Some [[[KPitchable]; t_MUSIC]] (* 1266-1267 *)
  | KTranspose => Some [[[KPitchable]; [KPitchable]; t_MUSIC]] (* 1281-1282 *)
  | KRepeat => Some [[[KSymbol]; t_INT; t_MUSIC]; [[KSymbol]; t_INT; t_MUSIC; [KAlternative]]] (* 1296-1298 *)
  | KAlternative => Some [[[KMusicList]]] (* 1306-1307 *)
  | KUnfoldRepeats => Some [[t_MUSIC]] (* 1315-1316 *)
  | KUnfolded => Some [[t_MUSIC]] (* 1324-1325 *)
  | KVolta => Some [[[KList; KScheme]; t_MUSIC]] (* 1333-1334 *)
  | KTransposition => Some [[[KPitchable]]] (* 1342-1343 *)
  | KOttava => Some [[t_NUMBER]] (* 1357-1358 *)
  | KSequential => Some [[[KMusicList]]] (* 1391-1392 *)
  | KSimultaneous => Some [[[KMusicList]]] (* 1400-1401 *)
  | KInputMode => Some [[t_MUSIC]] (* 1412-1413 *)
  | KLyricsto => Some [[[KString; KSymbol]; t_MUSIC]] (* 1419-1423 *)
  | KLyricMode => Some [[t_MUSIC]] (* 1419-1423 *)
  | KSkip => Some [[[KDuration]]; [t_MUSIC]] (* 1595-1597 *)
  | KOctaveCheck => Some [[[KPitchable]]] (* 1682-1683 *)
  | KBar => Some [[[KString]]] (* 2015-2016 *)
  | KLabel => Some [[[KScheme]]] (* 2064-2065 *)
  | KMark => Some [[[KDefault]]; [t_VALUE]] (* 2072-2074 *)
  | KTempo => Some [[t_TEXT]; [t_TEXT; [KUnpitched]; [KEqualSign]; [KInt]]; [[KUnpitched]; [KEqualSign]; [KInt]]] (* 2095-2098 *)
  | KKey => Some [[[KPitchable]; [KMode; KIdentifierRef; KScheme]]] (* 2173-2174 *)
  | KClef => Some [[[KSymbol; KString]]] (* 2192-2193 *)
  | KTime => Some [[[KList]; [KFraction]]; [[KFraction]]] (* 2205-2207 *)
  | KPartial => Some [[[KDuration]]; [[KUnpitched]]] (* 2219-2221 *)
  | KTimes => Some [[[KFraction]; t_MUSIC]] (* 2240-2241 *)
  | KTuplet => Some [[[KFraction]; [KDuration]; t_MUSIC]; [[KFraction]; [KUnpitched]; t_MUSIC]; [[KFraction]; t_MUSIC]] (* 2261-2264 *)
  | KScaleDurations => Some [[[KFraction; KInt; KUnpitched; KScheme]; t_MUSIC]] (* 2281-2282 *)
  | KShiftDurations => Some [[t_NUMBER; t_NUMBER; t_MUSIC]] (* 2301-2302 *)
  | KGrace => Some [[t_MUSIC]] (* 2318-2319 *)
  | KAfterGrace => Some [[[KFraction]; t_MUSIC; t_MUSIC]; [t_MUSIC; t_MUSIC]] (* 2376-2378 *)
  | KPartCombine => Some [[t_MUSIC; t_MUSIC]] (* 2386-2387 *)
  | KTag => Some [[[KSymbol; KString; KScheme]; t_MUSIC]] (* 2537-2538 *)
  | KKeepWithTag => Some [[[KSymbol; KString; KScheme]; t_MUSIC]] (* 2545-2546 *)
  | KRemoveWithTag => Some [[[KSymbol; KString; KScheme]; t_MUSIC]] (* 2553-2554 *)
  | KTagGroup => Some [[[KSymbol; KString; KScheme]]] (* 2561-2562 *)
  | KPushToTag => Some [[[KSymbol; KString; KScheme]; t_MUSIC]] (* 2569-2570 *)
  | KAppendToTag => Some [[[KSymbol; KString; KScheme]; t_MUSIC]] (* 2577-2578 *)
  | KAccepts => Some [[[KString; KSymbol]]] (* 2591-2592 *)
  | KDenies => Some [[[KString; KSymbol]]] (* 2600-2601 *)
  | KName => Some [[[KString; KSymbol]]] (* 2609-2610 *)
  | KAlias => Some [[[KString; KSymbol]]] (* 2618-2619 *)
  | KConsists => Some [[[KString; KSymbol; KScheme]]] (* 2627-2628 *)
  | KRemove => Some [[[KString; KSymbol; KScheme]]] (* 2636-2637 *)
  | KDefaultChild => Some [[[KString; KSymbol]]] (* 2645-2646 *)
  | KOmit => Some [[t_SYMBOL]] (* 2654-2655 *)
  | KHide => Some [[t_SYMBOL]] (* 2663-2664 *)
  | KUndo => Some [[t_MUSIC]] (* 2672-2673 *)
  | KOnce => Some [[t_MUSIC]] (* 2681-2682 *)
  | KTemporary => Some [[t_MUSIC]] (* 2690-2691 *)
  | KOverride => Some [[t_SYMBOL; [KEqualSign]; t_VALUE]; [t_SYMBOL; [KScheme]; [KEqualSign]; t_VALUE]; [t_SYMBOL; [KScheme]; [KScheme]; [KEqualSign]; t_VALUE]; [t_SYMBOL; [KScheme]; [KScheme]; [KScheme]; [KEqualSign]; t_VALUE]; [t_SYMBOL; [KScheme]; [KScheme]; [KScheme]; [KScheme]; [KEqualSign]; t_VALUE]] (* 2699-2704 *)
  | KRevert => Some [[t_SYMBOL]; [t_SYMBOL; [KScheme]]; [t_SYMBOL; [KScheme]; [KScheme]]; [t_SYMBOL; [KScheme]; [KScheme]; [KScheme]]; [t_SYMBOL; [KScheme]; [KScheme]; [KScheme]; [KScheme]]] (* 2712-2717 *)
  | KSet => Some [[t_SYMBOL; [KEqualSign]; t_VALUE]] (* 2725-2726 *)
  | KUnset => Some [[t_SYMBOL]] (* 2734-2735 *)
  | KVersion => Some [[[KString]]] (* 2759-2760 *)
  | KLanguage => Some [[[KString]]] (* 2773-2774 *)
  | KInclude => Some [[[KString]]] (* 2804-2805 *)
  | KGrobDashPattern => Some [[t_NUMBER; t_NUMBER]] (* 3028-3029 *)
  | KShape => Some [[[KScheme]; t_SYMBOL]] (* 3122-3123 *)
  | KStringTuning => Some [[t_MUSIC]] (* 3140-3141 *)
  | _ => None
  end.

(** The inherited method, found along the first base that has one (dom/lily.py 614-3141; no class has two bases with different ones) *)
Fixpoint find_signatures (fuel : nat) (c : cls) : option (list (list (list cls))) :=
  match own_signatures c with
  | Some s => Some s
  | None =>
      match fuel with
      | 0 => None
      | S fuel => fold_left (fun r b => match r with Some s => Some s | None => find_signatures fuel b end) (bases c) None
      end
  end.

(** dom/lily.py 614-3141: what signatures() gives for a class; an item stands for the isinstance test *)
Definition class_signatures (c : cls) : option (list (list (list cls))) := find_signatures 5 c.
(** dom/element.py 1016, with [class_signatures]: the test on the type of a node, which is the number of its class *)
Definition test (tuple : list cls) (y : nat) : bool := match class_of y with Some c => isinstance tuple c | None => false end.
(** dom/element.py 1033, with [class_signatures] *)
Definition lily_signatures (y : nat) : option (list signature) :=
  match class_of y with
  | Some c => match class_signatures c with Some l => Some (map (map test) l) | None => None end
  | None => None
  end.
(** lang/lilypond.py 448, 529: ignore_type=base.Comment, which are the two comment classes of dom/lily.py 2390, 2401 *)
Definition lily_ignored (y : nat) : bool :=
  match class_of y with Some KMultilineComment | Some KSinglelineComment => true | _ => false end.
(** lang/lilypond.py 527-529 create_music, of the nodes of MusicBuilder, and 448 of the nodes of common *)
Definition build_lily (nodes : list bt) : res (list bt) := build_tree lily_signatures lily_ignored nodes.
