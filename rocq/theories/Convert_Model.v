(** Model of reading commands with their arguments (quickly/dom/element.py build_tree), with the add_argument methods of quickly/dom/lily.py that convert arguments.
    What a single conversion does to the texts is the matter of Arg_Model. *)
From Coq Require Import List Arith PeanoNat Bool.
From Verif Require Import Base Build_Model Signature_Model.
Import ListNotations.

(** [isinstance(node, cls)] for a class of the table (dom/lily.py 490, 501, 1247) *)
Definition node_is (c : cls) (n : bt) : bool := test [c] (b_ty n).
(** dom/lily.py 1485-1496 Note.to_pitch: a Pitch with the same head and children *)
Definition note_to_pitch (n : bt) : bt := B (b_id n) (number KPitch) (b_kids n).
(** The add_argument methods that make pitches: how many (dom/lily.py 1245-1249 Relative, 1269-1273 Fixed, 1284-1288 Transpose, 1345-1349 Transposition,
    1685-1689 OctaveCheck, 2176-2180 Key) *)
Definition pitch_count (c : cls) : option nat :=
  match c with
  | KRelative | KFixed | KTransposition | KOctaveCheck | KKey => Some 1
  | KTranspose => Some 2
  | _ => None
  end.

Section Convert.
(** dom/lily.py 3370-3385 convert_duration_to_int of a Duration; None if it cannot be converted *)
Variable to_int : bt -> option bt.

(** dom/lily.py 499-505, the loop over the Duration children *)
Definition unpitched_to_int (n : bt) : bt :=
  match find (node_is KDuration) (b_kids n) with
  | Some d => match to_int d with Some i => i | None => n end
  | None => n
  end.
(** dom/lily.py 488-494, the loop over the children *)
Definition unpitched_to_duration (n : bt) : bt := match b_kids n with d :: _ => d | [] => n end.

(** The argument that is appended, by the class of the parent: dom/lily.py 1245-1249 and the like, 488-494 and 499-505 (the classes that derive
    from these two, 486 and 497) *)
Definition converted (c : cls) (kids : list bt) (n : bt) : bt :=
  match pitch_count c with
  | Some k => if node_is KNote n && (length (filter (node_is KPitchable) kids) <? k) then note_to_pitch n else n
  | None =>
      if isinstance [KConvertUnpitchedToDuration] c then if node_is KUnpitched n then unpitched_to_duration n else n
      else if isinstance [KConvertUnpitchedToInt] c then if node_is KUnpitched n then unpitched_to_int n else n
      else n
  end.
(** dom/element.py 699-706 and dom/lily.py 488-505, 1245-2180, with [converted] *)
Definition lily_add_argument (parent node : bt) : bt :=
  match class_of (b_ty parent) with
  | Some c => add_argument parent (converted c (b_kids parent) node)
  | None => add_argument parent node
  end.
(** lang/lilypond.py 527-529 create_music *)
Definition create_music (nodes : list bt) : res (list bt) := build_tree_with lily_signatures lily_ignored lily_add_argument nodes.
End Convert.
