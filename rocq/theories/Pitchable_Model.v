(** Model of PitchProcessor.pitchable, of its language attribute, and of Pitch.__format__ in quickly/pitch.py. *)
From Coq Require Import String Ascii List ZArith QArith Bool.
From Verif Require Import Base Pitch_Model.
Import ListNotations.

(** pitch.py 425-445: the new node; its attribute [octave] is set by the constructor of the element (dom/element.py 173-176, 889-892). *)
Definition pitchable (T : tables) (P : processor) (p : pitch) : res pnode :=
  let! (name, octave) := name_octave T P p in Ok (set_node_octave (PNode name None None) octave).

(** dom/element.py 513-529 and dom/lily.py 1655-1657: what a node is written as; the children are written after the head without space
    (dom/lily.py 217-226).  Simplified: no accidental. *)
Definition node_text (n : pnode) : str :=
  head n ++ match octave_child n with Some o => octave_to_string o | None => [] end ++ match oct_check n with Some o => "="%char :: octave_to_string o | None => [] end.

(** pitch.py 248-260: setting the attribute [language]. *)
Definition set_language (T : tables) (P : processor) (l : str) : res processor :=
  let! t := lang_table T l in
  Ok (Processor (prefer_long P) (prefer_accented P) (prefer_x P) (prefer_double_s P) (prefer_classic P) (prefer_deprecated P) l).

(** pitch.py 101-107, with an empty format specification. *)
Definition pitch_format (T : tables) (p : pitch) : res str :=
  match pitch_to_string T default_processor p with Err KeyError => Ok (txt "?") | r => r end.
