(** Model of GrobDirection, GrobStyle and Toggle in quickly/dom/lily.py 2854-3110, with the methods of MappingElement in Build_Model. *)
From Coq Require Import String Ascii List ZArith Bool.
From Verif Require Import Base Build_Model.
Import ListNotations.
Local Open Scope string_scope.
Local Open Scope list_scope.

(** for [dir_eq], dom/lily.py 2887-3092 *)
Definition str_eq (a b : str) : bool := if list_eq_dec ascii_dec a b then true else false.
(** equality of the values in the mappings, dom/lily.py 2887-3092 *)
Definition dir_eq (a b : str * Z) : bool := str_eq (fst a) (fst b) && Z.eqb (snd a) (snd b).
(** equality of the values in the mappings, dom/lily.py 2887-3092 *)
Definition style_eq (a b : str * str) : bool := str_eq (fst a) (fst b) && str_eq (snd a) (snd b).
(** equality of the values in the mappings, dom/lily.py 2887-3092 *)
Definition toggle_eq (a b : str * bool) : bool := str_eq (fst a) (fst b) && Bool.eqb (snd a) (snd b).

(** dom/lily.py 2887-2915 *)
Definition directions : list (str * (str * Z)) :=
  map (fun x : string * (string * Z) => (txt (fst x), (txt (fst (snd x)), snd (snd x))))
  [("\arpeggioArrowDown", ("ArpeggioArrow", (-1)%Z));
   ("\arpeggioArrowUp", ("ArpeggioArrow", (1)%Z));
   ("\bassFigureStaffAlignmentDown", ("BassFigureStaffAlignment", (-1)%Z));
   ("\bassFigureStaffAlignmentNeutral", ("BassFigureStaffAlignment", (0)%Z));
   ("\bassFigureStaffAlignmentUp", ("BassFigureStaffAlignment", (1)%Z));
   ("\dotsDown", ("Dots", (-1)%Z));
   ("\dotsNeutral", ("Dots", (0)%Z));
   ("\dotsUp", ("Dots", (1)%Z));
   ("\dynamicDown", ("Dynamic", (-1)%Z));
   ("\dynamicNeutral", ("Dynamic", (0)%Z));
   ("\dynamicUp", ("Dynamic", (1)%Z));
   ("\phrasingSlurDown", ("PhrasingSlur", (-1)%Z));
   ("\phrasingSlurNeutral", ("PhrasingSlur", (0)%Z));
   ("\phrasingSlurUp", ("PhrasingSlur", (1)%Z));
   ("\slurDown", ("Slur", (-1)%Z));
   ("\slurNeutral", ("Slur", (0)%Z));
   ("\slurUp", ("Slur", (1)%Z));
   ("\stemDown", ("Stem", (-1)%Z));
   ("\stemNeutral", ("Stem", (0)%Z));
   ("\stemUp", ("Stem", (1)%Z));
   ("\textSpannerDown", ("TextSpanner", (-1)%Z));
   ("\textSpannerNeutral", ("TextSpanner", (0)%Z));
   ("\textSpannerUp", ("TextSpanner", (1)%Z));
   ("\tieDown", ("Tie", (-1)%Z));
   ("\tieNeutral", ("Tie", (0)%Z));
   ("\tieUp", ("Tie", (1)%Z));
   ("\tupletDown", ("Tuplet", (-1)%Z));
   ("\tupletNeutral", ("Tuplet", (0)%Z));
   ("\tupletUp", ("Tuplet", (1)%Z))].
(** dom/lily.py 2977-2991 *)
Definition styles : list (str * (str * str)) :=
  map (fun x : string * (string * string) => (txt (fst x), (txt (fst (snd x)), txt (snd (snd x)))))
  [("\phrasingSlurDashed", ("PhrasingSlur", "dashed"));
   ("\phrasingSlurDotted", ("PhrasingSlur", "dotted"));
   ("\phrasingSlurHalfDashed", ("PhrasingSlur", "half_dashed"));
   ("\phrasingSlurHalfSolid", ("PhrasingSlur", "half_solid"));
   ("\phrasingSlurSolid", ("PhrasingSlur", "solid"));
   ("\slurDashed", ("Slur", "dashed"));
   ("\slurDotted", ("Slur", "dotted"));
   ("\slurHalfDashed", ("Slur", "half_dashed"));
   ("\slurHalfSolid", ("Slur", "half_solid"));
   ("\slurSolid", ("Slur", "solid"));
   ("\tieDashed", ("Tie", "dashed"));
   ("\tieDotted", ("Tie", "dotted"));
   ("\tieHalfDashed", ("Tie", "half_dashed"));
   ("\tieHalfSolid", ("Tie", "half_solid"));
   ("\tieSolid", ("Tie", "solid"))].
(** dom/lily.py 3063-3084 props, 3089-3092 mapping *)
Definition props : list str := map txt
  ["autoBeam"; "autoBreaks"; "autoLineBreaks"; "autoPageBreaks"; "balloonLength"; "bassFigureExtenders"; "cadenza"; "deadNotes"; "easyHeads"; "improvisation"; "harmonics"; "kievan"; "markLength"; "mergeDifferentlyDotted"; "mergeDifferentlyHeaded"; "palmMute"; "pointAndClick"; "predefinedFretboards"; "sostenuto"; "sustain"; "textLength"; "xNotes"].
(** dom/lily.py 3063-3084, with [props] *)
Definition toggles : list (str * (str * bool)) :=
  flat_map (fun p => [(txt "\" ++ p ++ txt "On", (p, true)); (txt "\" ++ p ++ txt "Off", (p, false))]) props.

(** 2926-2942, 3002-3018, 3095-3110: the attributes are the parts of the head (a tuple); setting one replaces the head, which is not checked
    (element.py 478-482). *)
Definition get_first {A} (head : str * A) : str := fst head.
(** element.py 478-482, with [get_first] *)
Definition set_first {A} (head : str * A) (value : str) : str * A := (value, snd head).
(** element.py 478-482, with [get_first] *)
Definition get_second {A} (head : str * A) : A := snd head.
(** element.py 478-482, with [get_first] *)
Definition set_second {A} (head : str * A) (value : A) : str * A := (fst head, value).

(** write() and reading, MappingElement. (dom/element.py 962-964 MappingElement.write_head) *)
Definition write_direction (head : str * Z) : res str := write_head str (str * Z) dir_eq directions head.
(** dom/element.py 962-964 MappingElement.write_head *)
Definition write_style (head : str * str) : res str := write_head str (str * str) style_eq styles head.
(** dom/element.py 962-964 MappingElement.write_head *)
Definition write_toggle (head : str * bool) : res str := write_head str (str * bool) toggle_eq toggles head.
(** dom/element.py 957-960 MappingElement.read_head *)
Definition read_direction (text : str) : res (str * Z) := read_head str (str * Z) str_eq directions text.
(** dom/element.py 957-960 MappingElement.read_head *)
Definition read_style (text : str) : res (str * str) := read_head str (str * str) str_eq styles text.
(** dom/element.py 957-960 MappingElement.read_head *)
Definition read_toggle (text : str) : res (str * bool) := read_head str (str * bool) str_eq toggles text.

(** dom/lily.py 2918-2923 grobs, the values for a grob, sorted *)
Fixpoint insert (d : Z) (l : list Z) : list Z := match l with [] => [d] | x :: r => if (d <=? x)%Z then d :: l else x :: insert d r end.
(** dom/lily.py 2918-2923, with [insert] *)
Definition grobs (grob : str) : list Z :=
  fold_right insert [] (flat_map (fun x => if str_eq (fst (snd x)) grob then [snd (snd x)] else []) directions).
