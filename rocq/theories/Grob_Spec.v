(** What the commands for directions, styles and properties look like. *)
From Coq Require Import String Ascii List ZArith Bool.
From Verif Require Import Base.
Import ListNotations.
Local Open Scope string_scope.
Local Open Scope list_scope.

(** The name with a small first letter. *)
Definition small (s : str) : str :=
  match s with c :: r => (if (65 <=? nat_of_ascii c) && (nat_of_ascii c <=? 90) then ascii_of_nat (nat_of_ascii c + 32) else c) :: r | [] => [] end%nat.

(** \slurUp, \slurNeutral and \slurDown for the Slur *)
Inductive direction_command : str -> Z -> str -> Prop :=
| command_up g : direction_command g 1 (txt "\" ++ small g ++ txt "Up")
| command_neutral g : direction_command g 0 (txt "\" ++ small g ++ txt "Neutral")
| command_down g : direction_command g (-1) (txt "\" ++ small g ++ txt "Down").

(** \slurHalfDashed *)
Inductive style_command : str -> str -> str -> Prop :=
| command_solid g : style_command g (txt "solid") (txt "\" ++ small g ++ txt "Solid")
| command_dashed g : style_command g (txt "dashed") (txt "\" ++ small g ++ txt "Dashed")
| command_dotted g : style_command g (txt "dotted") (txt "\" ++ small g ++ txt "Dotted")
| command_half_solid g : style_command g (txt "half_solid") (txt "\" ++ small g ++ txt "HalfSolid")
| command_half_dashed g : style_command g (txt "half_dashed") (txt "\" ++ small g ++ txt "HalfDashed").

(** \textLengthOn *)
Inductive toggle_command : str -> bool -> str -> Prop :=
| command_on p : toggle_command p true (txt "\" ++ p ++ txt "On")
| command_off p : toggle_command p false (txt "\" ++ p ++ txt "Off").

(** The grobs with all three directions; the arrow of an arpeggio has no neutral one. The grobs with styles. *)
Definition directed : list string := ["BassFigureStaffAlignment"; "Dots"; "Dynamic"; "PhrasingSlur"; "Slur"; "Stem"; "TextSpanner"; "Tie"; "Tuplet"].
Definition styled : list string := ["PhrasingSlur"; "Slur"; "Tie"].
Definition arrow : str := txt "ArpeggioArrow".
Definition toggled : list string :=
  ["autoBeam"; "autoBreaks"; "autoLineBreaks"; "autoPageBreaks"; "balloonLength"; "bassFigureExtenders"; "cadenza"; "deadNotes"; "easyHeads"; "improvisation";
   "harmonics"; "kievan"; "markLength"; "mergeDifferentlyDotted"; "mergeDifferentlyHeaded"; "palmMute"; "pointAndClick"; "predefinedFretboards"; "sostenuto";
   "sustain"; "textLength"; "xNotes"].
