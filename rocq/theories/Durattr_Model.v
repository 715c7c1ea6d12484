(** Model of the text of a Duration element, quickly/dom/lily.py 1718-1782, 1808-1812, and of HandleDuration.duration (96-106).
    The other attributes of HandleDuration (108-191) are in Rhythm_Model. *)
From Coq Require Import String Ascii List ZArith QArith Bool.
From Verif Require Import Base Duration_Model Heads_Model Rhythm_Model.
Import ListNotations.

(** dom/lily.py 96-106: the head of the first Duration child *)
Definition get_duration (durs : list dnode) : option Q := match durs with [] => None | d :: _ => Some (fst d) end.

(** dom/lily.py 1735-1738: the product of the scalings *)
Fixpoint scalings (scaling : Q) (texts : list str) : res Q :=
  match texts with
  | [] => Ok scaling
  | t :: r => let! f := py_fraction t in scalings (scaling * f)%Q r
  end.

(** dom/lily.py 1734-1739 Duration.from_string; split() never gives an empty list *)
Definition duration_from_string (text : str) : res dnode :=
  match split "*" text with
  | [] => Err ValueError
  | dur :: texts =>
      let! scaling := scalings 1 texts in
      let! d := from_string dur None in
      Ok (from_duration d scaling)
  end.

(** The text of the element with its children: dom/lily.py 1780-1782 and 1808-1812. *)
Definition duration_text (d : dnode) : res str :=
  let! s := to_string (fst d) in Ok (s ++ flat_map scaling_write (snd d)).
