(** Model of the attributes of Pitchable, quickly/dom/lily.py 215-304, and of the written form of its children. *)
From Coq Require Import String Ascii List ZArith Bool.
From Verif Require Import Base Pitch_Model Build_Model.
Import ListNotations.
Open Scope Z_scope.

(** The children of a Pitchable: Octave dom/lily.py 1643, Accidental 1631 (the values "cautionary" and "forced"), OctCheck 1660, and others with an
    identity: Duration, RestModifier, Articulations and Comment, which are in the child orders, or anything else. *)
Inductive acc := Cautionary | Forced.
(** dom/lily.py 1643, with [acc] *)
Inductive cl := CDuration | CRestModifier | CArticulations | CComment | CAny.
(** dom/lily.py 1643, with [acc] *)
Inductive kid := Octave (z : Z) | Accidental (a : acc) | OctCheck (z : Z) | Other (c : cl) (id : nat).

(** dom/lily.py 228-304, the isinstance tests *)
Definition is_octave (k : kid) : bool := match k with Octave _ => true | _ => false end.
(** dom/lily.py 228-304, the isinstance tests *)
Definition is_accidental (k : kid) : bool := match k with Accidental _ => true | _ => false end.
(** dom/lily.py 228-304, the isinstance tests *)
Definition is_octcheck (k : kid) : bool := match k with OctCheck _ => true | _ => false end.
(** dom/lily.py 228-304, the isinstance tests *)
Definition is_cl (c : cl) (k : kid) : bool :=
  match c, k with
  | CDuration, Other CDuration _ | CRestModifier, Other CRestModifier _ | CArticulations, Other CArticulations _
  | CComment, Other CComment _ | CAny, Other CAny _ => true
  | _, _ => false
  end.

(** The child orders: of Note (dom/lily.py 1482), Pitch (1514) and PitchedRest (1550) *)
Inductive pitchable := Note | Pitch | PitchedRest.
(** dom/lily.py 1482, with [pitchable] *)
Definition child_order (p : pitchable) : list (kid -> bool) :=
  match p with
  | Note => [is_octave; is_accidental; is_octcheck; is_cl CDuration; is_cl CArticulations; is_cl CComment]
  | Pitch => [is_octave; is_accidental; is_octcheck; is_cl CComment]
  | PitchedRest => [is_octave; is_accidental; is_octcheck; is_cl CDuration; is_cl CRestModifier; is_cl CArticulations; is_cl CComment]
  end.
(** dom/element.py 731-739 add *)
Definition add_kid (p : pitchable) (k : kid) (kids : list kid) : list kid := add kid k [child_order p] kids.

(** [for n in self / Cls: ...; return]: change the first child that matches, [None] if there is none. (for [set_octave], dom/lily.py 228-252) *)
Fixpoint on_first (is : kid -> bool) (f : kid -> list kid) (kids : list kid) : option (list kid) :=
  match kids with
  | [] => None
  | k :: r => if is k then Some (f k ++ r) else option_map (cons k) (on_first is f r)
  end.

(** dom/lily.py 228-252 octave *)
Definition get_octave (kids : list kid) : Z :=
  match find is_octave kids with Some (Octave z) => z | _ => 0 end.
(** dom/lily.py 228-252, with [get_octave] *)
Definition set_octave (p : pitchable) (num : Z) (kids : list kid) : list kid :=
  match on_first is_octave (fun _ => [Octave num]) kids with
  | Some l => l
  | None => if negb (num =? 0) then add_kid p (Octave num) kids else kids
  end.
(** dom/lily.py 228-252, with [get_octave] *)
Definition del_octave (kids : list kid) : list kid := filter (fun k => negb (is_octave k)) kids.

(** dom/lily.py 254-279 accidental *)
Definition get_accidental (kids : list kid) : option acc :=
  match find is_accidental kids with Some (Accidental a) => Some a | _ => None end.
(** dom/lily.py 254-279, with [get_accidental] *)
Definition set_accidental (p : pitchable) (value : option acc) (kids : list kid) : list kid :=
  match on_first is_accidental (fun _ => match value with None => [] | Some a => [Accidental a] end) kids with
  | Some l => l
  | None => match value with Some a => add_kid p (Accidental a) kids | None => kids end
  end.
(** dom/lily.py 254-279, with [get_accidental] *)
Definition del_accidental (kids : list kid) : list kid := filter (fun k => negb (is_accidental k)) kids.

(** dom/lily.py 281-304 oct_check *)
Definition get_octcheck (kids : list kid) : option Z :=
  match find is_octcheck kids with Some (OctCheck z) => Some z | _ => None end.
(** dom/lily.py 281-304, with [get_octcheck] *)
Definition set_octcheck (p : pitchable) (num : option Z) (kids : list kid) : list kid :=
  match on_first is_octcheck (fun _ => match num with None => [] | Some z => [OctCheck z] end) kids with
  | Some l => l
  | None => match num with Some z => add_kid p (OctCheck z) kids | None => kids end
  end.
(** dom/lily.py 281-304, with [get_octcheck] *)
Definition del_octcheck (kids : list kid) : list kid := filter (fun k => negb (is_octcheck k)) kids.

(** The written form of the children: write_head of Octave (1655), OctCheck (1672) and Accidental (element.py MappingElement,
    with the mapping 1637-1640).  There is no space between these nodes and their parent.  The other children are not modelled,
    [others] writes them. *)
Definition write_kid (others : cl -> nat -> str) (k : kid) : str :=
  match k with
  | Octave z => octave_to_string z
  | Accidental Cautionary => txt "?" | Accidental Forced => txt "!"
  | OctCheck z => txt "=" ++ octave_to_string z
  | Other c id => others c id
  end.
(** dom/lily.py 1631-1670, the write_head methods *)
Definition write_pitchable (others : cl -> nat -> str) (head : str) (kids : list kid) : str := head ++ flat_map (write_kid others) kids.
