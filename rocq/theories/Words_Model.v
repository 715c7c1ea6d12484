(** Model of the dispatchers for tokens outside music in quickly/lang/lilypond.py (558-656) and of the methods that use them. *)
From Coq Require Import String Ascii List ZArith Bool.
From Verif Require Import Base Duration_Model Pitch_Model Heads_Model Build_Model Grob_Model Signature_Model Dispatch_Model.
Import ListNotations.
Local Open Scope string_scope.
Local Open Scope list_scope.

Section Words.
(** read_head and write_head of the classes whose heads are not modelled here (Float, dom/lily.py 644-652: a float of Python) *)
Variable other_read : cls -> str -> res hv.
Variable other_write : cls -> hv -> res str.

(** read_head: Int dom/lily.py 610-612, Fraction 636-638, Octave 1650-1653, OctCheck 1667-1670.  Simplified: the tuple of a Fraction that is not of two numbers is an error *)
Definition own_read (c : cls) (text : str) : res hv :=
  match c with
  | KInt => let! z := py_int text in Ok (HInt z)
  | KFraction => let! l := mapr py_int (split "/" text) in match l with [a; b] => Ok (HPair (HInt a) (HInt b)) | _ => Err TypeError end
  | KOctave => Ok (HInt (octave_from_string text))
  | KOctCheck => Ok (HInt (octave_from_string (skipn 1 text)))
  | _ => other_read c text
  end.
(** write_head: dom/element.py 513-520 for Int, dom/lily.py 640-641 Fraction, 1655-1657 Octave, 1672-1674 OctCheck *)
Definition own_write (c : cls) (v : hv) : res str :=
  match c, v with
  | KInt, HInt z => Ok (str_int z)
  | KFraction, HPair (HInt a) (HInt b) => Ok (str_int a ++ txt "/" ++ str_int b)
  | KOctave, HInt z => Ok (octave_to_string z)
  | KOctCheck, HInt z => Ok (txt "=" ++ octave_to_string z)
  | _, _ => other_write c v
  end.

(** lang/lilypond.py 563-577: the methods registered with [_id]; the default is that of 563-565 *)
Definition id_methods : list (action * cls) := [(["Number"], KInt); (["Delimiter"; "Separator"], KSeparator)].
(** lang/lilypond.py 563-577; parce's Dispatcher looks up the action itself, not those it derives from *)
Definition id_class (a : action) : cls := match dict_find action_eqb id_methods a with Some c => c | None => KSymbol end.

(** lang/lilypond.py 623-656: the methods registered with [_keyword] *)
Definition context_keywords : list (str * cls) :=
  [(txt "\accepts", KAccepts); (txt "\denies", KDenies); (txt "\name", KName); (txt "\alias", KAlias); (txt "\consists", KConsists); (txt "\remove", KRemove);
   (txt "\defaultchild", KDefaultChild)].
(** lang/lilypond.py 567-606: the methods registered with [_action], but for 593-596 *)
Definition common_methods : list (action * cls) :=
  [(["Number"], KInt); (["Number"; "Float"], KFloat); (["Number"; "Fraction"], KFraction); (["Operator"; "Assignment"], KEqualSign);
   (["Name"; "Builtin"; "Unit"], KUnit); (["Name"; "Type"], KSymbol)].
(** lang/lilypond.py 567-606, 593-596 for the keywords; None if there is no method *)
Definition common_class (text : str) (a : action) : option cls :=
  if action_eqb a ["Keyword"] then dict_find str_eq context_keywords text else dict_find action_eqb common_methods a.

(** lang/lilypond.py 608-621: the methods registered with [_pitch] *)
Definition mark_methods : list (action * cls) :=
  [(["Text"; "Music"; "Pitch"; "Octave"], KOctave); (["Text"; "Music"; "Pitch"; "Octave"; "OctaveCheck"], KOctCheck); (["Text"; "Music"; "Pitch"; "Accidental"], KAccidental)].

(** An item: a token, or a context with its element (lang/lilypond.py 261-267, 155-158, 383-389) *)
Inductive piece := PTok (text : str) (a : action) | PElem (e : elem).

(** lang/lilypond.py 261-267 _list_nodes, of one item *)
Definition list_node (p : piece) : res elem := match p with PTok text a => make own_read (id_class a) text | PElem e => Ok e end.
(** lang/lilypond.py 261-267 _list_nodes *)
Definition list_words (l : list piece) : res (list elem) := mapr list_node l.

(** lang/lilypond.py 377-392 common, of one item; markup is in Read_Model *)
Definition common_node (p : piece) : res (list elem) :=
  match p with
  | PTok text a => match common_class text a with Some c => let! e := make own_read c text in Ok [e] | None => Ok [] end
  | PElem e => Ok [e]
  end.
(** lang/lilypond.py 377-392 common *)
Definition common_words (l : list piece) : res (list elem) := let! r := mapr common_node l in Ok (concat r).

(** lang/lilypond.py 155-158 pitch, of one item; None for the None that the dispatcher returns for other tokens *)
Definition mark_node (p : piece) : res (option elem) :=
  match p with
  | PTok text a => match dict_find action_eqb mark_methods a with Some c => let! e := make own_read c text in Ok (Some e) | None => Ok None end
  | PElem e => Ok (Some e)
  end.
(** lang/lilypond.py 155-158 pitch *)
Definition pitch_marks (l : list piece) : res (list (option elem)) := mapr mark_node l.

(** what the elements are written as (dom/element.py 513-520), without whitespace *)
Definition all_written (l : list elem) : res str := let! r := mapr (written own_write) l in Ok (concat r).
End Words.
