(** Specification side for transposing whole documents: what the pitches in a
    document mean, by LilyPond's rules. *)
From Coq Require Import String Ascii List ZArith QArith Bool.
From Verif Require Import Base Pitch_Model Pitch_Spec Transpose_Model Transpose_Spec Transposedoc_Model.
Import ListNotations.
Open Scope Z_scope.

(** Where a pitch is read: in absolute music; after \fixed with a reference
    pitch; in \relative music, the last pitch being known; in a chord in
    \relative music, with the pitch before it and the chord's first pitch;
    in an \octaveCheck in \relative music; in \key or a chord inversion. *)
Inductive place :=
| PAbs
| PFix (ref : pitch)
| PRel (last : pitch)
| PChord (last : pitch) (first : option pitch)
| PCheck (last : pitch)
| PKey.

(** What is read.  [Sound p d]: the pitch p, sounding d whole tones higher
    because of the \transpose commands around it; [KeyNote p d]: the same for a
    pitch whose octave does not matter; [Start p], [Reference p]: the pitch
    given to \relative or \fixed. *)
Inductive heard := Sound (p : pitch) (d : Q) | KeyNote (p : pitch) (d : Q) | Start (p : pitch) | Reference (p : pitch).

(** One pitch, read in its place, and the place for what follows. *)
Definition read_pitch (T : tables) (d : Q) (P : processor) (pl : place) (n : pnode) : res (heard * place) :=
  match pl with
  | PAbs => let! p := read_node T P n in Ok (Sound p d, PAbs)
  | PFix r => let! p := read_node T P n in Ok (Sound (fixed_pitch r p) d, PFix r)
  | PRel last => let! (p, _) := rel_pitch T P last n in Ok (Sound p d, PRel p)
  | PChord last first =>
      let! (p, _) := rel_pitch T P last n in
      Ok (Sound p d, PChord p (match first with Some f => Some f | None => Some p end))
  | PCheck _ => let! p := read_node T P n in Ok (Sound p d, PCheck p)
  | PKey => let! p := read_node T P n in Ok (KeyNote p d, PKey)
  end.

Definition read_all (step : Q -> place -> processor -> mtree -> res (list heard * place * processor))
    : Q -> place -> processor -> list mtree -> res (list heard * place * processor) :=
  fix go d pl P l :=
  match l with
  | [] => Ok ([], pl, P)
  | x :: r =>
      let! (hs, pl1, P1) := step d pl P x in
      let! (hs', pl2, P2) := go d pl1 P1 r in Ok (hs ++ hs', pl2, P2)
  end.

(** The document is read from begin to end; \language and \include commands set
    the language for all that follows.  Comments count for nothing.  \absolute,
    \relative and \fixed read their music in a place of their own, \transpose
    adds the distance of its two pitches; in \relative it reads absolute pitches
    and leaves the last pitch alone.  The pitches in \transposition and
    \stringTuning belong to an instrument and are not part of the music.
    Music inside a note (in a markup attached to it) stands on its own. *)
Fixpoint read (T : tables) (s : list Q) (fa : bool) (d : Q) (pl : place) (P : processor) (x : mtree) {struct x}
    : res (list heard * place * processor) :=
  match x with
  | MComment => Ok ([], pl, P)
  | MLang l => let! P' := language_set T P l in Ok ([], pl, P')
  | MPitch n ch =>
      let! (h, pl') := read_pitch T d P pl (r_node n) in
      let! (hs, _, P') := read_all (read T s fa) 0%Q PAbs P ch in Ok (h :: hs, pl', P')
  | MKey ch => let! (hs, _, P') := read_all (read T s fa) d PKey P ch in Ok (hs, pl, P')
  | MAbsolute ch => let! (hs, _, P') := read_all (read T s fa) d PAbs P ch in Ok (hs, pl, P')
  | MRelative ch =>
      let! (hs, P') :=
        (fix lead l := match l with
         | MComment :: r => lead r
         | MPitch n _ :: r =>
             if forallb is_comment r then
               let! (hs, _, P') := read_all (read T s fa) d (PRel (if fa then Pitch (-1) 3 0 else Pitch 0 0 0)) P l in Ok (hs, P')
             else
               let! p := read_node T P (r_node n) in
               let! (hs, _, P') := read_all (read T s fa) d (PRel p) P r in Ok (Start p :: hs, P')
         | _ => let! (hs, _, P') := read_all (read T s fa) d (PRel (if fa then Pitch (-1) 3 0 else Pitch 0 0 0)) P l in Ok (hs, P')
         end) ch in
      Ok (hs, pl, P')
  | MFixed ch =>
      let! (hs, P') :=
        (fix lead l := match l with
         | MComment :: r => lead r
         | MPitch n _ :: r =>
             let! p := read_node T P (r_node n) in
             let! (hs, _, P') := read_all (read T s fa) d (PFix p) P r in Ok (Reference p :: hs, P')
         | _ => let! (hs, _, P') := read_all (read T s fa) d PAbs P l in Ok (hs, P')
         end) ch in
      Ok (hs, pl, P')
  | MTranspose ch =>
      let! (hs, P') :=
        (fix args from l := match l with
         | MComment :: r => args from r
         | MPitch n _ :: r =>
             let! p := read_node T P (r_node n) in
             match from with
             | None => args (Some p) r
             | Some q =>
                 let! (hs, _, P') := read_all (read T s fa) (d + (height s p - height s q))%Q
                   (match pl with PRel _ => PAbs | _ => pl end) P r in Ok (hs, P')
             end
         | _ => let! (hs, _, P') := read_all (read T s fa) d pl P l in Ok (hs, P')
         end) None ch in
      Ok (hs, pl, P')
  | MSkip _ => Ok ([], pl, P)
  | MChord ch =>
      match pl with
      | PRel last =>
          let! (hs, pl', P') := read_all (read T s fa) d (PChord last None) P ch in
          Ok (hs, PRel (match pl' with PChord _ (Some p) => p | _ => last end), P')
      | _ => read_all (read T s fa) d pl P ch
      end
  | MCheck ch =>
      match pl with
      | PRel last =>
          let! (hs, pl', P') := read_all (read T s fa) d (PCheck last) P ch in
          Ok (hs, PRel (match pl' with PCheck p => p | _ => last end), P')
      | _ => read_all (read T s fa) d pl P ch
      end
  | MOther ch => read_all (read T s fa) d pl P ch
  end.

(** The meaning of a document. *)
Definition meaning (T : tables) (s : list Q) (fa : bool) (P : processor) (x : mtree) : res (list heard) :=
  let! (hs, _, _) := read T s fa 0%Q PAbs P x in Ok hs.

(** What transposing must do to what is read. *)
Definition heard_transposed (t : transposer) (h h' : heard) : Prop :=
  match h, h' with
  | Sound p d, Sound p' d' => transposed t p p' /\ (d' == d)%Q
  | KeyNote p d, KeyNote p' d' =>
      (exists q, transpose t p = Ok q /\ octave p' = octave p /\ note p' = note q /\ (alter p' == alter q)%Q) /\ (d' == d)%Q
  | Start p, Start p' | Reference p, Reference p' => transposed t p p'
  | _, _ => False
  end.

(** The reference pitches stay in the octave the transposer moves them to. *)
Definition references_kept (t : transposer) (hs : list heard) : Prop :=
  forall r q, In (Reference r) hs -> transpose t r = Ok q -> octave q = octave r + tr_octave t.

(** All pitches may be changed. *)
Fixpoint full (x : mtree) : bool :=
  match x with
  | MPitch n ch => r_writable n && forallb full ch
  | MKey ch | MAbsolute ch | MRelative ch | MFixed ch | MTranspose ch | MSkip ch | MChord ch | MCheck ch | MOther ch => forallb full ch
  | MLang _ | MComment => true
  end.

(** A list of nodes that, after comments, begins with a pitch. *)
Fixpoint reference_first (l : list mtree) : bool :=
  match l with
  | MComment :: r => reference_first r
  | MPitch _ _ :: _ => true
  | _ => false
  end.

(** The documents of the theorem.  \fixed has its reference pitch; \transpose
    has its two pitches with no comment before or between them, and does not
    occur in \relative music but inside another \absolute, \fixed... or
    \relative. *)
Fixpoint usual (inrel : bool) (x : mtree) : bool :=
  match x with
  | MPitch _ ch | MKey ch | MAbsolute ch => forallb (usual false) ch
  | MRelative ch => forallb (usual true) ch
  | MFixed ch => reference_first ch && forallb (usual false) ch
  | MTranspose ch =>
      negb inrel && match ch with MPitch _ [] :: MPitch _ [] :: _ => true | _ => false end && forallb (usual inrel) ch
  | MSkip _ | MLang _ | MComment => true
  | MChord ch | MCheck ch | MOther ch => forallb (usual inrel) ch
  end.

(** No octave or octave check is removed, no octave check is added; an octave is
    only added when it is not zero. *)
Definition same_marks (n n' : pnode) : Prop :=
  (octave_child n <> None -> octave_child n' <> None) /\ (octave_child n = None -> octave_child n' <> Some 0%Z) /\
  (oct_check n' = None <-> oct_check n = None).

(** The same document but for the pitches that may be changed. *)
Inductive same_but_pitches : mtree -> mtree -> Prop :=
| sp_pitch n n' ch ch' : r_writable n' = r_writable n -> (r_writable n = false -> n' = n) ->
    same_marks (r_node n) (r_node n') -> Forall2 same_but_pitches ch ch' -> same_but_pitches (MPitch n ch) (MPitch n' ch')
| sp_key ch ch' : Forall2 same_but_pitches ch ch' -> same_but_pitches (MKey ch) (MKey ch')
| sp_absolute ch ch' : Forall2 same_but_pitches ch ch' -> same_but_pitches (MAbsolute ch) (MAbsolute ch')
| sp_relative ch ch' : Forall2 same_but_pitches ch ch' -> same_but_pitches (MRelative ch) (MRelative ch')
| sp_fixed ch ch' : Forall2 same_but_pitches ch ch' -> same_but_pitches (MFixed ch) (MFixed ch')
| sp_transpose ch ch' : Forall2 same_but_pitches ch ch' -> same_but_pitches (MTranspose ch) (MTranspose ch')
| sp_chord ch ch' : Forall2 same_but_pitches ch ch' -> same_but_pitches (MChord ch) (MChord ch')
| sp_check ch ch' : Forall2 same_but_pitches ch ch' -> same_but_pitches (MCheck ch) (MCheck ch')
| sp_other ch ch' : Forall2 same_but_pitches ch ch' -> same_but_pitches (MOther ch) (MOther ch')
| sp_same x : match x with MSkip _ | MLang _ | MComment => True | _ => False end -> same_but_pitches x x.
