(** Model of quickly/relative.py: converting between relative and absolute
    music.

    Not modelled: finding the language and the LilyPond version of the
    document (185, 65, 180), comments (92 leaves them out), and \relative with
    other than one music argument.  Language changes are modelled between
    \relative expressions, not within them. *)
From Coq Require Import String Ascii List ZArith QArith Bool.
From Verif Require Import Base Pitch_Model.
Import ListNotations.
Open Scope Z_scope.

(** Music as far as relative.py looks into it: a note or pitched rest
    (lily.Pitchable), a chord with its notes, \octaveCheck with its pitch; the
    nodes passed over at 79-83 and 254-258 (\key, \fixed, \transpose...);
    \relative with its start pitch, if any, and its music; and any other node
    with its children, e.g. { ... } or << ... >>. *)
Inductive item :=
| INote (n : pnode)
| IChord (c : list pnode)
| ICheck (n : pnode)
| IOpaque
| IRelative (start : option pnode) (body : item)
| IList (l : list item).

Section Relative.
  Context (T : tables) (P : processor) (first_absolute : bool).

  (** relative.py 106-109: the note is written with its absolute octave; the pitch is the
      new last_pitch.  Also 114-117. *)
  Definition absolute_note (n : pnode) (last : pitch) : res (pnode * pitch) :=
    let (m, r) := process T P n true (fun p =>
      let default := octave p - node_octave n in Ok (make_absolute 7 p last default)) in
    let! p := r in Ok (m, p).

  (** relative.py 112-117: the stack without its first element. *)
  Fixpoint absolute_chord (c : list pnode) (last : pitch) : res (list pnode * list pitch) :=
    match c with
    | [] => Ok ([], [])
    | n :: r => let! (m, p) := absolute_note n last in
                let! (r', ps) := absolute_chord r p in Ok (m :: r', p :: ps)
    end.

  (** relative.py 118: stack[:2][-1]. *)
  Definition first_of (ps : list pitch) (last : pitch) : pitch :=
    match ps with [] => last | p :: _ => p end.

  (** relative.py 93-99: the pitch the first note is relative to. *)
  Definition start_pitch (start : option pnode) : res pitch :=
    match start with
    | Some n => read_node T P n
    | None => Ok (if first_absolute then Pitch (-1) 3 0 else Pitch 0 0 0)
    end.

  (** relative.py 103-123 for music in which no \relative is left (71-74 have nothing to
      do).  An octave check is removed from the list that is iterated over
      (123), which makes the iterator pass over the next node. *)
  Fixpoint plain (i : item) (last : pitch) : res (item * pitch) :=
    match i with
    | INote n => let! (m, p) := absolute_note n last in Ok (INote m, p)
    | IChord c => let! (c', ps) := absolute_chord c last in Ok (IChord c', first_of ps last)
    | ICheck n => let! p := read_node T P n in Ok (ICheck n, p)
    | IOpaque => Ok (IOpaque, last)
    | IRelative s b => Ok (IRelative s b, last) (* excluded *)
    | IList l =>
        let fix go l last := match l with
          | [] => Ok ([], last)
          | ICheck n :: r =>
              let! p := read_node T P n in
              match r with
              | [] => Ok ([], p)
              | x :: r => let! (r', q) := go r p in Ok (x :: r', q)
              end
          | x :: r => let! (x', p) := plain x last in
                      let! (r', q) := go r p in Ok (x' :: r', q)
          end in
        let! (l', q) := go l last in Ok (IList l', q)
    end.

  (** relative.py 87-123.  [seen] is whether a note has been converted already.  As soon as
      one is, 73-74 convert all \relative music in the whole document (node is
      the ancestor of the range).  Nested \relative music that the walk
      reaches after that is found as plain music and converted once more.
      [settle] is what 73-74 make of music that is not walked over. *)
  Fixpoint walk (i : item) (last : pitch) (seen : bool) : res (item * pitch * bool) :=
    match i with
    | INote n => let! (m, p) := absolute_note n last in Ok (INote m, p, true)
    | IChord c => let! (c', ps) := absolute_chord c last in
                  Ok (IChord c', first_of ps last, seen || match c with [] => false | _ => true end)
    | ICheck n => let! p := read_node T P n in Ok (ICheck n, p, true)
    | IOpaque => Ok (IOpaque, last, seen)
    | IRelative s b =>
        let! p := start_pitch s in
        let! (b', _, seen') := walk b p false in
        if seen then let! (b'', q) := plain b' last in Ok (b'', q, true)
        else Ok (b', last, seen')
    | IList l =>
        let fix go l last seen := match l with
          | [] => Ok ([], last, seen)
          | ICheck n :: r =>
              let! p := read_node T P n in
              match r with
              | [] => Ok ([], p, true)
              | x :: r => let! x' := settle x in
                          let! (r', q, sn) := go r p true in Ok (x' :: r', q, sn)
              end
          | x :: r => let! (x', p, sn) := walk x last seen in
                      let! (r', q, sn) := go r p sn in Ok (x' :: r', q, sn)
          end in
        let! (l', q, sn) := go l last seen in Ok (IList l', q, sn)
    end
  with settle (i : item) : res item :=
    match i with
    | IRelative s b => let! p := start_pitch s in
                       let! (b', _, _) := walk b p false in Ok b'
    | IList l =>
        let fix go l := match l with
          | [] => Ok []
          | x :: r => let! x' := settle x in let! r' := go r in Ok (x' :: r')
          end in
        let! l' := go l in Ok (IList l')
    | _ => Ok i
    end.

  (** relative.py 87-123: one \relative expression; the result takes its place. *)
  Definition convert (s : option pnode) (b : item) : res item := settle (IRelative s b).

  (** relative.py 224-234, get_first_pitch; [new] is the start pitch
      appended to the new Relative node (229). *)
  Definition first_pitch (write_start : bool) (p : pitch) : res (pitch * option pnode) :=
    if write_start then
      let q := Pitch (if 3 <? note p then octave p + 1 else octave p) 0 0 in
      let! (name, o) := name_octave T P q in
      Ok (q, Some (set_node_octave (PNode name None None) o))
    else Ok (if first_absolute then Pitch (-1) 3 0 else Pitch 0 0 0, None).

  (** relative.py 236-243: make one note relative; [last] is the last pitch, when there
      was one. *)
  Definition relative_note (write_start : bool) (n : pnode) (last : option pitch) (new : option pnode)
      : res (pnode * pitch * option pnode) :=
    let! p := read_node T P n in
    let default := octave p - node_octave n in
    let! (last, new) := match last with
                        | Some q => Ok (q, new)
                        | None => first_pitch write_start p
                        end in
    let (m, r) := process T P n true (fun p => Ok (make_relative 7 p last default)) in
    let! _ := r in Ok (m, p, new).

  (** relative.py 245-261.  A Chord node has no direct Pitchable children (they are in its
      ChordBody), so that 251-252 do nothing. *)
  Fixpoint relative_notes (ws : bool) (i : item) (last : option pitch) (new : option pnode)
      : res (item * option pitch * option pnode) :=
    match i with
    | INote n => let! (m, p, new) := relative_note ws n last new in Ok (INote m, Some p, new)
    | IChord c => Ok (IChord c, last, new)
    | ICheck n => let! (m, p, new) := relative_note ws n last new in Ok (ICheck m, Some p, new)
    | IOpaque => Ok (IOpaque, last, new)
    | IRelative None b => let! (b', last, new) := relative_notes ws b last new in Ok (IRelative None b', last, new)
    | IRelative (Some s) b =>
        let! (s', p, new) := relative_note ws s last new in
        let! (b', last, new) := relative_notes ws b (Some p) new in Ok (IRelative (Some s') b', last, new)
    | IList l =>
        let fix go l last new := match l with
          | [] => Ok ([], last, new)
          | x :: r => let! (x', last, new) := relative_notes ws x last new in
                      let! (r', last, new) := go r last new in Ok (x' :: r', last, new)
          end in
        let! (l', last, new) := go l last new in Ok (IList l', last, new)
    end.

  (** relative.py 220-265. *)
  Definition make_relative_music (ws : bool) (b : item) : res (option pnode * item) :=
    let! (b', _, new) := relative_notes ws b None None in Ok (new, b').
End Relative.

(** ** The whole document: 124-128 *)

(** \language commands and \relative expressions, which may be in the range,
    at the top of the document; what was converted is other music. (for [rel2abs], relative.py 73-74)
    Commands outside of the range are not met and are left out, see C137_selection_finding. *)
Inductive entry :=
| DLang (l : str)
| DRel (selected : bool) (s : option pnode) (b : item)
| DMusic (b : item).

(** Whether the walk over this music meets a note. (for [rel2abs], relative.py 73-74) *)
Fixpoint meets_note (i : item) : bool :=
  match i with
  | INote _ => true | ICheck _ => true
  | IChord c => match c with [] => false | _ => true end
  | IOpaque => false
  | IRelative _ b => meets_note b
  | IList l => existsb meets_note l
  end.

(** The processor as it is when the first note is converted; None if there is
    no note in the selected music. (for [rel2abs], relative.py 73-74) *)
Fixpoint first_note_met (T : tables) (P : processor) (d : list entry) : res (option processor) :=
  match d with
  | [] => Ok None
  | DLang l :: r => let! P' := language_set T P l in first_note_met T P' r
  | DRel true _ b :: r => if meets_note b then Ok (Some P) else first_note_met T P r
  | _ :: r => first_note_met T P r
  end.

(** for [rel2abs], relative.py 73-74 *)
Fixpoint convert_where (T : tables) (P : processor) (fa : bool) (f : bool -> bool) (d : list entry) : res (list entry) :=
  match d with
  | [] => Ok []
  | DRel sel s b :: r =>
      let! r' := convert_where T P fa f r in
      if f sel then let! b' := convert T P fa s b in Ok (DMusic b' :: r') else Ok (DRel sel s b :: r')
  | e :: r => let! r' := convert_where T P fa f r in Ok (e :: r')
  end.

(** With the first note, everything is converted (relative.py 73-74). *)
Definition rel2abs (T : tables) (P : processor) (fa : bool) (d : list entry) : res (list entry) :=
  let! m := first_note_met T P d in
  match m with
  | None => convert_where T P fa (fun sel => sel) d
  | Some P' => convert_where T P' fa (fun _ => true) d
  end.
