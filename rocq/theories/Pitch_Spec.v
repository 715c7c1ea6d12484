(** Specification side for pitches. *)
From Coq Require Import String Ascii List ZArith QArith Bool.
From Verif Require Import Base Pitch_Model.
Import ListNotations.
Open Scope Z_scope.

(** Equality of pitches: same octave, note and (as a number) alteration. *)
Definition peq (a b : pitch) : Prop :=
  octave a = octave b /\ note a = note b /\ (alter a == alter b)%Q.

(** Order of pitches: octave first, then note, then alteration. *)
Definition plt (a b : pitch) : Prop :=
  octave a < octave b \/
  (octave a = octave b /\ (note a < note b \/ (note a = note b /\ (alter a < alter b)%Q))).

(** Position on the staff. *)
Definition staff (p : pitch) : Z := 7 * octave p + note p.

(** The piano keys (0..11 within an octave) that are white. *)
Definition white (step : Z) : Prop := In step [0; 2; 4; 5; 7; 9; 11].

(** [name] is a name of the note [n] altered by [a] in the table, in octave [o]. *)
Definition names_pitch (t : table) (name : str) (o n : Z) (a : Q) : Prop :=
  exists a', In (name, (o, n, a')) t /\ (a' == a)%Q.

(** A Python dict has every key once. *)
Definition dict_ok {V} (t : dict str V) : Prop := NoDup (map fst t).

(** Every language is a dict, and so is the collection of languages. *)
Definition tables_ok (T : tables) : Prop :=
  dict_ok T /\ forall l i t, In (l, (i, t)) T -> dict_ok t.

(** ** Preferences *)

Definition substring (sub s : str) : Prop := exists a b, s = a ++ sub ++ b.
Definition ends_in (suf s : str) : Prop := exists a, s = a ++ suf.

(** Classic names: es and eses, as and ases (instead of ees, aes, ...). *)
Definition classic (n : str) : Prop := In n [txt "es"; txt "eses"; txt "as"; txt "ases"].

(** When a preference [b] and the property [P] of a name agree. *)
Definition agrees (b : bool) (P : Prop) : Prop := if b then P else ~ P.

Definition matches (P : processor) (n : str) : Prop :=
  let l := language P in
  (l = txt "nederlands" -> agrees (prefer_classic P) (classic n)) /\
  (l = txt "catalan" -> agrees (prefer_deprecated P) (ends_in (txt "s") n)) /\
  (l = txt "deutsch" -> agrees (prefer_deprecated P)
                          (In n [txt "eeh"; txt "ases"; txt "aseh"; txt "aeh"])) /\
  (l = txt "english" -> agrees (prefer_long P) (substring (txt "-") n) /\
     (prefer_long P = false -> agrees (prefer_x P) (ends_in (txt "x") n))) /\
  (l = txt "espanol" \/ l = txt "español" -> agrees (prefer_x P) (ends_in (txt "x") n)) /\
  (l = txt "français" -> agrees (prefer_accented P) (substring (txt "é") n) /\
     agrees (prefer_x P) (ends_in (txt "x") n)) /\
  (l = txt "norsk" -> agrees (prefer_double_s P) (substring (txt "ss") n) /\
     agrees (prefer_classic P) (~ (substring (txt "ee") n \/ substring (txt "ae") n))) /\
  (l = txt "suomi" -> agrees (prefer_deprecated P) (In n [txt "ases"; txt "bb"; txt "heses"])).

(** Languages that have more than one style. *)
Definition styled (l : str) : Prop :=
  In l [txt "nederlands"; txt "catalan"; txt "deutsch"; txt "english"; txt "espanol";
        txt "español"; txt "français"; txt "norsk"; txt "suomi"].

(** ** Languages *)

(** The language in force after walking over some nodes. *)
Definition sets {A} (w : walked A) : option str :=
  match w with WLang (Some (c :: s)) _ => Some (c :: s) | _ => None end.
Definition node_of {A} (w : walked A) : A := match w with WLang _ n => n | WOther n => n end.
Fixpoint last_set {A} (l : list (walked A)) (init : str) : str :=
  match l with
  | [] => init
  | w :: r => last_set r (match sets w with Some s => s | None => init end)
  end.

(** The order of strings: by the first difference. *)
Definition str_le (a b : str) : Prop :=
  (exists c, b = a ++ c) \/
  exists p x y r s, a = p ++ x :: r /\ b = p ++ y :: s /\ (nat_of_ascii x < nat_of_ascii y)%nat.
