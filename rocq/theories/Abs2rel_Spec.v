(** What music in a tree sounds like, and which parts of a document are to be made relative. *)
From Coq Require Import String Ascii List ZArith QArith Bool.
From Verif Require Import Base Pitch_Model Pitch_Spec Transpose_Spec Relative_Model Relative_Spec Abs2rel_Model.
Import ListNotations.
Open Scope Z_scope.

(** How a note is understood: with its own octave, raised by a number of octaves;
    or near to the note before it. *)
Inductive ctx := Fixed (k : Z) | After (p : pitch).

Section Sound.
  Context (T : tables) (fa : bool).

  Definition note_pitch (P : processor) (c : ctx) (n : pnode) : res pitch :=
    match c with
    | Fixed k => let! p := read_node T P n in Ok (Pitch (octave p + k) (note p) (alter p))
    | After q => let! (p, _) := rel_pitch T P q n in Ok p
    end.
  (** What the next note is understood by, after a note. *)
  Definition next (c : ctx) (p : pitch) : ctx := match c with Fixed k => Fixed k | After _ => After p end.

  (** All pitches in document order, what the next note is understood by, and
      the language.  \relative starts anew, and what comes after it is not
      affected; notes in \chordmode and the like and those attached to a
      note do not depend on what is around them; \fixed adds its octave; a chord
      counts as its first note; an octave check is not heard and sets the reference. *)
  Fixpoint sounds (t : tree) (P : processor) (c : ctx) {struct t} : res (list pitch * ctx * processor) :=
    let all := fix all (l : list tree) P c := match l with
      | [] => Ok ([], c, P)
      | x :: r => let! (ps, c, P) := sounds x P c in
                  let! (qs, c, P) := all r P c in Ok (ps ++ qs, c, P)
      end in
    match t with
    | TNote n l => let! p := note_pitch P c n in
                   let! (ps, _, P) := all l P (Fixed 0) in Ok (p :: ps, next c p, P)
    | TLang s => let! P := language_set T P s in Ok ([], c, P)
    | TNode KList l | TNode KOther l => all l P c
    | TNode KRelative l =>
        match l with
        | TNote n _ :: ((_ :: _) as r) => let! p := read_node T P n in
            let! (ps, _, P) := all r P (After p) in Ok (ps, c, P)
        | _ => let! p := rel_start T P fa None in let! (ps, _, P) := all l P (After p) in Ok (ps, c, P)
        end
    | TNode KChordMode l | TNode KOpaque l => let! (ps, _, P) := all l P (Fixed 0) in Ok (ps, c, P)
    | TNode KFixed l =>
        match l with
        | TNote n _ :: r => let! (ps, _, P) := all r P (Fixed (node_octave n)) in Ok (ps, c, P)
        | _ => let! (ps, _, P) := all l P (Fixed 0) in Ok (ps, c, P)
        end
    | TNode KChord l => let! (ps, _, P) := all l P c in
        Ok (ps, match ps with [] => c | p :: _ => next c p end, P)
    | TNode KCheck l => let! (ps, _, P) := all l P (Fixed 0) in
        Ok ([], match c, ps with After _, p :: _ => After p | _, _ => c end, P)
    end.

  Fixpoint sounds_all (l : list tree) (P : processor) (c : ctx) : res (list pitch * ctx * processor) :=
    match l with
    | [] => Ok ([], c, P)
    | x :: r => let! (ps, c, P) := sounds x P c in
                let! (qs, c, P) := sounds_all r P c in Ok (ps ++ qs, c, P)
    end.
  (** The pitches of a document. *)
  Definition heard (P : processor) (l : list tree) : res (list pitch) :=
    let! (ps, _, _) := sounds_all l P (Fixed 0) in Ok ps.
End Sound.

(** ** Where *)

Definition kids (t : tree) : list tree := match t with TNote _ l => l | TLang _ => [] | TNode _ l => l end.
(** The node at a trail below a list of nodes. *)
Fixpoint at_trail (l : list tree) (p : list nat) : option tree :=
  match p with
  | [] => None
  | i :: q => match nth_error l i with
              | None => None
              | Some t => match q with [] => Some t | _ => at_trail (kids t) q end
              end
  end.

(** A list with notes of its own that is completely in the range, or \chordmode. *)
Definition wanted (whole : list nat -> bool) (l : list tree) (p : list nat) : Prop :=
  (exists m, at_trail l p = Some (TNode KList m) /\ (exists n k, In (TNote n k) m) /\ whole p = true) \/
  (exists m, at_trail l p = Some (TNode KChordMode m)).
Definition relative_at (l : list tree) (p : list nat) : Prop := exists m, at_trail l p = Some (TNode KRelative m).
Definition above (q p : list nat) : Prop := q <> [] /\ exists r, r <> [] /\ p = q ++ r.

(** The topmost of those, in the range and not in \relative. *)
Definition chosen (inr whole : list nat -> bool) (l : list tree) (p : list nat) : Prop :=
  wanted whole l p /\ inr p = true /\ forall q, above q p -> inr q = true /\ ~ wanted whole l q /\ ~ relative_at l q.

(** Everything about a node but its children. *)
Definition label (t : tree) : tree := match t with TNote n _ => TNote n [] | TLang s => TLang s | TNode k _ => TNode k [] end.

(** Everything but the octaves of the notes. *)
Fixpoint bare_tree (t : tree) : tree :=
  match t with
  | TNote n l => TNote (bare_note n) l
  | TLang s => TLang s
  | TNode k l => match k with
                 | KChord | KOpaque | KFixed => t
                 | _ => TNode k (map bare_tree l)
                 end
  end.

(** [u] is \relative with the music [t], apart from octaves, and with a start pitch or not. *)
Definition made_relative (t u : tree) : Prop :=
  exists s t', u = TNode KRelative (s ++ [t']) /\ bare_tree t' = bare_tree t /\ (s = [] \/ exists n, s = [TNote n []]).

(** Music that can be made relative: without chords, octave checks, \relative and
    \chordmode (but for those in \key, \fixed, \transpose etc.). *)
Fixpoint simple (t : tree) : bool :=
  match t with
  | TNote _ _ => true
  | TLang _ => true
  | TNode k l => match k with
                 | KOpaque | KFixed => true
                 | KChord | KCheck | KRelative | KChordMode => false
                 | KList | KOther => forallb simple l
                 end
  end.

(** All \language commands set the language there already is. *)
Fixpoint one_language (T : tables) (P : processor) (t : tree) : Prop :=
  let all := fix all l := match l with [] => True | x :: r => one_language T P x /\ all r end in
  match t with
  | TLang s => language_set T P s = Ok P
  | TNote _ l => all l
  | TNode _ l => all l
  end.
