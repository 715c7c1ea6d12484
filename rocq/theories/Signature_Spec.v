(** Specification: the arguments that commands take in LilyPond, written from LilyPond's documentation and not from the signatures or the
    inheritance of the classes.  Only the names of the classes ([cls], and their numbers) are shared with the model. *)
From Coq Require Import List Arith Bool.
From Verif Require Import Base Build_Model Build_Spec Signature_Model.
Import ListNotations.

(** ** What can stand for an argument *)
(** Music: expressions and commands that LilyPond takes where one music argument is expected. *)
Definition plain_music : list cls :=
  [KNote; KChord; KUnpitched; KRest; KMultiMeasureRest; KPitchedRest; KSpace; KSkip; KQ; KDrum; KLyricItem; KLyricText; KLyricSkip; KFigure;
   KMusicList; KSimultaneousMusicList; KSequential; KSimultaneous;
   KLyricMode; KLyricsto; KChordMode; KDrumMode; KNoteMode; KFigureMode;
   KContext; KNew; KChange; KQuoteDuring; KRelative; KAbsolute; KFixed; KTranspose; KRepeat; KUnfoldRepeats; KUnfolded; KVolta; KTransposition; KOttava;
   KBar; KBreathe; KInStaffSegno; KLabel; KMark; KTempo; KKey; KClef; KTime; KPartial; KTimes; KTuplet; KScaleDurations; KShiftDurations;
   KGrace; KAcciaccatura; KAppoggiatura; KSlashedGrace; KAfterGrace; KPartCombine;
   KOmit; KHide; KUndo; KOnce; KTemporary; KOverride; KRevert; KSet; KUnset; KMusicFunction; KIdentifierRef; KEtc].
(** These too are music in LilyPond, but quickly does not take them as an argument (see C112_not_music_finding). *)
Definition other_music : list cls :=
  [KApplyContext; KApplyMusic; KApplyOutput; KOctaveCheck; KTag; KKeepWithTag; KRemoveWithTag; KPushToTag; KAppendToTag; KAddQuote; KBreak; KPageBreak; KPageTurn;
   KVoiceN; KGrobDirection; KGrobStyle; KGrobDashPattern; KToggle; KShape; KVShape].
(** A pitch is read as a note (or given as a pitch). *)
Definition pitch : list cls := [KNote; KPitch].
(** Music that does not begin with a pitch. *)
Definition without (l : list cls) (music : list cls) : list cls :=
  filter (fun c => negb (existsb (fun d => Nat.eqb (number c) (number d)) l)) music.
Definition name : list cls := [KSymbol; KString].
Definition path : list cls := [KList; KSymbol; KString].
Definition tag : list cls := [KSymbol; KString; KScheme].
Definition integer : list cls := [KInt; KScheme; KIdentifierRef].
(** A number in music is read as a duration without a note. *)
Definition number_in_music : list cls := [KInt; KScheme; KUnpitched].
Definition text : list cls := [KString; KMarkup; KSymbol; KIdentifierRef].
Definition value : list cls := [KList; KString; KScheme; KInt; KFraction; KFloat; KMarkup; KIdentifierRef; KEtc; KUnpitched].

(** ** The complete lists of arguments of a command *)
Definition schemes (n : nat) : list (list cls) := repeat [KScheme] n.
Definition context_arguments (music : list cls) : list (list (list cls)) :=
  [[[KSymbol]; music]; [[KSymbol]; [KWith]; music]; [[KSymbol]; [KEqualSign]; name; music]; [[KSymbol]; [KEqualSign]; name; [KWith]; music]].

Definition takes (c : cls) : list (list (list cls)) :=
  let music := plain_music in
  match c with
  (* \context and \new with a type, a name and settings *)
  | KContext | KNew => context_arguments music
  | KChange => [[[KSymbol]; [KEqualSign]; name]]
  (* a name and music *)
  | KAddQuote | KQuoteDuring | KLyricsto => [[name; music]]
  (* a tag and music *)
  | KTag | KKeepWithTag | KRemoveWithTag => [[tag; music]]
  | KTagGroup => [[tag]]
  (* Scheme *)
  | KApplyContext | KLabel => [[[KScheme]]]
  | KApplyMusic => [[[KScheme]; music]]
  | KApplyOutput => [[path; [KScheme]]]
  | KDefineBarLine => [[[KString]; [KScheme]]]
  (* pitches and music; without a pitch, the music is not a note *)
  | KRelative => [[pitch; music]; [without [KNote; KPitchedRest] music]]
  | KFixed => [[pitch; music]]
  | KTranspose => [[pitch; pitch; music]]
  | KTransposition | KOctaveCheck => [[pitch]]
  | KKey => [[pitch; [KMode; KIdentifierRef; KScheme]]]
  (* one music *)
  | KAbsolute | KUnfoldRepeats | KUnfolded | KLyricMode | KChordMode | KDrumMode | KNoteMode | KFigureMode
  | KGrace | KAcciaccatura | KAppoggiatura | KSlashedGrace | KUndo | KOnce | KTemporary => [[music]]
  | KStringTuning => [[[KChord]]]
  | KSequential | KSimultaneous | KAlternative => [[[KMusicList; KSimultaneousMusicList]]]
  | KRepeat => [[[KSymbol]; integer; music]; [[KSymbol]; integer; music; [KAlternative]]]
  | KVolta => [[[KList; KScheme]; music]]
  (* two musics *)
  | KAfterGrace => [[music; music]; [[KFraction]; music; music]]
  | KPartCombine => [[music; music]]
  (* durations (in music read as a duration without a note), numbers and fractions *)
  | KSkip | KPartial => [[[KDuration]]; [[KUnpitched]]]
  | KTimes => [[[KFraction]; music]]
  | KTuplet => [[[KFraction]; [KDuration]; music]; [[KFraction]; [KUnpitched]; music]; [[KFraction]; without [KUnpitched] music]]
  | KScaleDurations => [[[KFraction; KInt; KScheme; KUnpitched]; music]]
  | KShiftDurations => [[number_in_music; number_in_music; music]]
  | KOttava => [[number_in_music]]
  | KGrobDashPattern => [[number_in_music; number_in_music]]
  | KTime => [[[KFraction]]; [[KList]; [KFraction]]]
  | KTempo => [[text]; [text; [KUnpitched]; [KEqualSign]; [KInt]]; [[KUnpitched]; [KEqualSign]; [KInt]]]
  | KMark => [[[KDefault]]; [[KInt; KUnpitched; KString; KMarkup; KScheme; KIdentifierRef]]]
  (* strings and names *)
  | KBar | KVersion | KLanguage | KInclude => [[[KString]]]
  | KClef | KAccepts | KDenies | KName | KAlias | KDefaultChild => [[name]]
  | KConsists | KRemove => [[KScheme :: name]]
  (* properties *)
  | KOmit | KHide | KUnset => [[path]]
  | KShape | KVShape => [[[KScheme]; path]]
  | KSet => [[path; [KEqualSign]; value]]
  | KOverride => map (fun n => path :: schemes n ++ [[KEqualSign]; value]) [0; 1; 2; 3; 4]
  | KRevert => map (fun n => path :: schemes n) [0; 1; 2; 3; 4]
  (* a unit may follow a number *)
  | KInt | KFloat | KStep | KFigureStep => [[]; [[KUnit]]]
  (* \pushToTag, \appendToTag and \after: see C112_missing_finding; InputMode is only a base class *)
  | KPushToTag | KAppendToTag | KAfter | KInputMode => []
  (* all others have no arguments *)
  | _ => [[]]
  end.

(** ** Where LilyPond's grammar itself goes on: a command that is complete would take what follows as one more argument, so it must not follow. *)
Definition comment (c : cls) : bool := match c with KMultilineComment | KSinglelineComment => true | _ => false end.
Definition goes_on (c : cls) (args : list cls) (next : cls) : bool :=
  match c with
  | KRepeat => (length args =? 3) && match next with KAlternative => true | n => comment n end
  | KTempo => (length args =? 1) && match next with KUnpitched => true | n => comment n end
  | KRevert => (length args <? 5) && match next with KScheme => true | n => comment n end
  | KInt | KFloat | KStep | KFigureStep => (length args =? 0) && match next with KUnit => true | n => comment n end
  | KMusicFunction => comment next
  | _ => false
  end.

(** ** Music with commands, as a tree: a node of the stream and its arguments, with comments between them *)
Definition is_class (y : nat) (c : cls) : Prop := y = number c.

(** The classes of the arguments that are not comments. *)
Inductive argument_classes : list dt -> list cls -> Prop :=
| no_arguments : argument_classes [] []
| a_comment d l cs c : is_class (b_ty (d_node d)) c -> comment c = true -> argument_classes l cs -> argument_classes (d :: l) cs
| an_argument d l cs c : is_class (b_ty (d_node d)) c -> comment c = false -> argument_classes l cs -> argument_classes (d :: l) (c :: cs).

(** No comment after the last argument. *)
Definition last_not_comment (l : list dt) : Prop := forall p d c, l = p ++ [d] -> is_class (b_ty (d_node d)) c -> comment c = false.

(** Nothing of the command is going on where [next] follows: not itself, and not its last argument. *)
Inductive ends_before : dt -> cls -> Prop :=
| ends t added c cs next :
    is_class (b_ty t) c -> argument_classes added cs -> goes_on c cs next = false ->
    (forall p d, added = p ++ [d] -> ends_before d next) ->
    ends_before (D t added) next.

(** Consecutive trees. *)
Inductive separate : list dt -> Prop :=
| separate_nil : separate []
| separate_one d : separate [d]
| separate_cons d d' l next : is_class (b_ty (d_node d')) next -> ends_before d next -> separate (d' :: l) -> separate (d :: d' :: l).

(** A command with all its arguments, as LilyPond takes them; other nodes may have any children of their own. *)
Inductive complete : dt -> Prop :=
| complete_intro t added c cs g :
    is_class (b_ty t) c -> argument_classes added cs -> last_not_comment added ->
    In g (takes c) -> Forall2 (fun c k => In c k) cs g ->
    (b_kids t = [] \/ takes c = [[]] /\ c <> KMusicFunction) ->
    separate added -> Forall complete added ->
    complete (D t added).

(** ** Classes: a class derives from itself and from what its bases derive from. *)
Inductive derives : cls -> cls -> Prop :=
| derives_same c : derives c c
| derives_base c b d : In b (bases c) -> derives b d -> derives c d.

(** ** Arguments of LilyPond that quickly does not take *)
Definition node (i : nat) (c : cls) : bt := B i (number c) [].
Fixpoint number_from (i : nat) (l : list cls) : list bt := match l with [] => [] | c :: r => node i c :: number_from (S i) r end.
Definition missed : list (cls * list cls) :=
  [(KPushToTag, [KScheme; KMusicList; KMusicList]);      (* \pushToTag #'a { } { } *)
   (KAppendToTag, [KScheme; KMusicList; KMusicList]);
   (KTag, [KList; KMusicList]);                          (* \tag a.b { } *)
   (KKeepWithTag, [KList; KMusicList]);
   (KRemoveWithTag, [KList; KMusicList]);
   (KAfter, [KUnpitched; KDynamic; KNote]);              (* \after 4 \f c1 *)
   (KVolta, [KInt; KMusicList]);                         (* \volta 2 { } *)
   (KNew, [KString; KMusicList]);                        (* \new "Staff" { } *)
   (KRepeat, [KString; KInt; KMusicList]);               (* \repeat "volta" 2 { } *)
   (KKey, [KDefault]);                                   (* \key \default *)
   (KTime, [KScheme; KFraction]);                        (* \time #'(3 2) 5/8 *)
   (KTempo, [KUnpitched; KEqualSign; KScheme]);          (* \tempo 4 = #120 *)
   (KPartCombine, [KScheme; KMusicList; KMusicList]);    (* \partCombine #'(2 . 20) { } { } *)
   (KLabel, [KSymbol]);                                  (* \label foo *)
   (KOmit, [KNote]); (KHide, [KNote]);                   (* \omit c *)
   (KShape, [KScheme; KNote])].                          (* \shape #offsets c *)
