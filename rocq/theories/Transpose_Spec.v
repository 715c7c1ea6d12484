(** Specification side for transposing. *)
From Coq Require Import String Ascii List ZArith QArith Bool.
From Verif Require Import Base Pitch_Model Pitch_Spec Transpose_Model.
Import ListNotations.
Open Scope Z_scope.

(** The sounding height of a pitch, in whole tones. *)
Definition height (scale : list Q) (p : pitch) : Q :=
  (inject_Z (6 * octave p) + nth (Z.to_nat (note p)) scale 0 + alter p)%Q.

Definition valid_note (p : pitch) : Prop := 0 <= note p <= 6.
Definition normal (p : pitch) : Prop := valid_note p /\ (-1 <= alter p)%Q /\ (alter p <= 1)%Q.

(** A scale of seven steps that spans one octave (6 whole tones), each step
    (including the one to the next octave) being positive and at most two whole
    tones. *)
Definition good_scale (s : list Q) : Prop :=
  exists a b c d e f g, s = [a; b; c; d; e; f; g] /\
    (a < b <= a + 2)%Q /\ (b < c <= b + 2)%Q /\ (c < d <= c + 2)%Q /\ (d < e <= d + 2)%Q /\
    (e < f <= e + 2)%Q /\ (f < g <= f + 2)%Q /\ (g < a + 6)%Q /\ (a + 6 <= g + 2)%Q.

(** The interval of a transposer. *)
Definition interval (t : transposer) : Q := (inject_Z (6 * tr_octave t) + tr_alter t)%Q.

(** ** Reading relative music *)

(** The octave in which note [n] is nearest to [prev] on the staff (see
    C12_nearest_octave): at most three staff steps away. *)
Definition nearest (prev : pitch) (n : Z) : Z := (staff prev + 3 - n) / 7.

(** The pitch of a note in relative music after [prev], and the octave its
    octave check (if any) prescribes. *)
Definition rel_pitch (T : tables) (P : processor) (prev : pitch) (n : pnode)
    : res (pitch * option Z) :=
  let! q := pitch_of_name T P (head n) in
  Ok (Pitch (nearest prev (note q) + node_octave n) (note q) (alter q),
      match oct_check n with Some c => Some (octave q + c) | None => None end).

Fixpoint rel_notes (T : tables) (P : processor) (prev : pitch) (l : list pnode)
    : res (list (pitch * option Z)) :=
  match l with
  | [] => Ok []
  | n :: r => let! p := rel_pitch T P prev n in
              let! ps := rel_notes T P (fst p) r in Ok (p :: ps)
  end.

(** An octave check prescribes a pitch, which is the next reference. *)
Fixpoint abs_notes (T : tables) (P : processor) (l : list pnode) : res (list (pitch * option Z)) :=
  match l with
  | [] => Ok []
  | n :: r => let! p := read_node T P n in
              let! ps := abs_notes T P r in Ok ((p, None) :: ps)
  end.

(** All pitches of relative music.  After a chord, its first note is the
    reference. *)
Fixpoint rel_events (T : tables) (P : processor) (prev : pitch) (l : list event)
    : res (list (pitch * option Z)) :=
  match l with
  | [] => Ok []
  | ENote n :: r =>
      let! p := rel_pitch T P prev (r_node n) in
      let! ps := rel_events T P (fst p) r in Ok (p :: ps)
  | EChord c :: r =>
      let! qs := rel_notes T P prev (map r_node c) in
      let! ps := rel_events T P (match qs with [] => prev | q :: _ => fst q end) r in Ok (qs ++ ps)
  | ECheck c :: r =>
      let! qs := abs_notes T P (map r_node c) in
      let! ps := rel_events T P (fst (last qs (prev, None))) r in Ok (qs ++ ps)
  end.

(** The whole expression: an explicit start pitch; or f (so that the first
    note is absolute); or c'. *)
Definition rel_expression (T : tables) (P : processor) (first_absolute : bool)
    (start : option rnote) (l : list event) : res (list (pitch * option Z)) :=
  match start with
  | Some n => let! p := read_node T P (r_node n) in
              let! ps := rel_events T P p l in Ok ((p, None) :: ps)
  | None => rel_events T P (if first_absolute then Pitch (-1) 3 0 else Pitch 0 0 0) l
  end.

(** Every name of the language is in octave [o] and has a note 0..6. *)
Definition uniform (T : tables) (P : processor) (o : Z) : Prop :=
  forall t name o' n a, lang_table T (language P) = Ok t -> In (name, (o', n, a)) t ->
    o' = o /\ 0 <= n <= 6.

Definition event_notes (e : event) : list rnote :=
  match e with ENote n => [n] | EChord l => l | ECheck l => l end.
Definition all_writable (l : list rnote) : Prop := Forall (fun n => r_writable n = true) l.
Definition none_writable (l : list rnote) : Prop := Forall (fun n => r_writable n = false) l.

(** [q] is the transposed [p]. *)
Definition transposed (t : transposer) (p q : pitch) : Prop :=
  exists r, transpose t p = Ok r /\ peq q r.

(** ** Reading \fixed music: the octave of the reference pitch is added, c
    being in octave -1. *)
Definition fixed_pitch (ref p : pitch) : pitch := Pitch (octave p + (octave ref + 1)) (note p) (alter p).
