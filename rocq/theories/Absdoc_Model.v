(** Rel2abs (quickly/relative.py 53-128) on the elements of a document: the same
    steps as in Relative_Model, with what the assignments do to the elements. *)
From Coq Require Import String Ascii List ZArith QArith Bool.
From Verif Require Import Base Element_Model Transposedoc_Model Doctext_Model Pitch_Model Relative_Model Reldoc_Model.
Import ListNotations.
Open Scope Z_scope.

(** A note or a pitch with the children that relative.py 53-128 does not look at. *)
Definition jpitch := (dpitch * list elem)%type.

(** The elements (element.py 150-176) behind an [item] of Relative_Model: a
    note; a chord with its ChordBody, the notes and what else belongs to the chord;
    \octaveCheck with its pitch; elements that are passed over; \relative with the
    start pitch and the music; any other element with its children. *)
Inductive idoc :=
| JNote (q : jpitch)
| JChord (a b : attrs) (c : list jpitch) (kids : list elem)
| JCheck (a : attrs) (q : jpitch)
| JOpaque (e : elem)
| JRelative (a : attrs) (start : option jpitch) (body : idoc)
| JList (a : attrs) (l : list idoc).

(** The music as relative.py 53-128 sees it. *)
Fixpoint items (d : idoc) : item :=
  match d with
  | JNote q => INote (pnode_of (fst q))
  | JChord _ _ c _ => IChord (map (fun q => pnode_of (fst q)) c)
  | JCheck _ q => ICheck (pnode_of (fst q))
  | JOpaque _ => IOpaque
  | JRelative _ s b => IRelative (option_map (fun q => pnode_of (fst q)) s) (items b)
  | JList _ l => IList (map items l)
  end.

(** The element of a pitch (element.py 150-176). *)
Definition jpitch_element (q : jpitch) : elem := pitch_element (fst q) (snd q).
(** The elements themselves (element.py 150-176). *)
Fixpoint jelements (d : idoc) : elem :=
  match d with
  | JNote q => jpitch_element q
  | JChord a b c kids => E a (E b (map jpitch_element c) :: kids)
  | JCheck a q => E a [jpitch_element q]
  | JOpaque e => e
  | JRelative a s b => E a (match s with Some q => [jpitch_element q] | None => [] end ++ [jelements b])
  | JList a l => E a (map jelements l)
  end.

Section Relative.
  Context (octave_id : nat) (T : tables) (P : processor) (first_absolute : bool).

  (** relative.py 106-109, as [absolute_note]. *)
  Definition jnote (q : jpitch) (last : pitch) : res (jpitch * pitch) :=
    let! (m, p) := absolute_note T P (pnode_of (fst q)) last in Ok ((redo_pitch octave_id (fst q) m, snd q), p).

  (** relative.py 112-117, as [absolute_chord]. *)
  Fixpoint jchord (c : list jpitch) (last : pitch) : res (list jpitch * list pitch) :=
    match c with
    | [] => Ok ([], [])
    | q :: r => let! (m, p) := jnote q last in
                let! (r', ps) := jchord r p in Ok (m :: r', p :: ps)
    end.

  (** relative.py 103-123, as [plain]. *)
  Fixpoint jplain (d : idoc) (last : pitch) : res (idoc * pitch) :=
    match d with
    | JNote q => let! (m, p) := jnote q last in Ok (JNote m, p)
    | JChord a b c kids => let! (c', ps) := jchord c last in Ok (JChord a b c' kids, first_of ps last)
    | JCheck a q => let! p := read_node T P (pnode_of (fst q)) in Ok (JCheck a q, p)
    | JOpaque e => Ok (JOpaque e, last)
    | JRelative a s b => Ok (JRelative a s b, last) (* excluded *)
    | JList a l =>
        let fix go l last := match l with
          | [] => Ok ([], last)
          | JCheck _ q :: r =>
              let! p := read_node T P (pnode_of (fst q)) in
              match r with
              | [] => Ok ([], p)
              | x :: r => let! (r', q) := go r p in Ok (x :: r', q)
              end
          | x :: r => let! (x', p) := jplain x last in
                      let! (r', q) := go r p in Ok (x' :: r', q)
          end in
        let! (l', q) := go l last in Ok (JList a l', q)
    end.

  (** relative.py 87-123, as [walk] and [settle]. *)
  Fixpoint jwalk (d : idoc) (last : pitch) (seen : bool) : res (idoc * pitch * bool) :=
    match d with
    | JNote q => let! (m, p) := jnote q last in Ok (JNote m, p, true)
    | JChord a b c kids =>
        let! (c', ps) := jchord c last in
        Ok (JChord a b c' kids, first_of ps last, seen || match c with [] => false | _ => true end)
    | JCheck a q => let! p := read_node T P (pnode_of (fst q)) in Ok (JCheck a q, p, true)
    | JOpaque e => Ok (JOpaque e, last, seen)
    | JRelative a s b =>
        let! p := start_pitch T P first_absolute (option_map (fun q => pnode_of (fst q)) s) in
        let! (b', _, seen') := jwalk b p false in
        if seen then let! (b'', q) := jplain b' last in Ok (b'', q, true)
        else Ok (b', last, seen')
    | JList a l =>
        let fix go l last seen := match l with
          | [] => Ok ([], last, seen)
          | JCheck _ q :: r =>
              let! p := read_node T P (pnode_of (fst q)) in
              match r with
              | [] => Ok ([], p, true)
              | x :: r => let! x' := jsettle x in
                          let! (r', q, sn) := go r p true in Ok (x' :: r', q, sn)
              end
          | x :: r => let! (x', p, sn) := jwalk x last seen in
                      let! (r', q, sn) := go r p sn in Ok (x' :: r', q, sn)
          end in
        let! (l', q, sn) := go l last seen in Ok (JList a l', q, sn)
    end
  with jsettle (d : idoc) : res idoc :=
    match d with
    | JRelative a s b =>
        let! p := start_pitch T P first_absolute (option_map (fun q => pnode_of (fst q)) s) in
        let! (b', _, _) := jwalk b p false in Ok b'
    | JList a l =>
        let fix go l := match l with
          | [] => Ok []
          | x :: r => let! x' := jsettle x in let! r' := go r in Ok (x' :: r')
          end in
        let! l' := go l in Ok (JList a l')
    | _ => Ok d
    end.
End Relative.

(** \language commands and \relative expressions, which may be in the range, and
    other music, at the top of the document (relative.py 124-128), as [entry]; \language outside
    of the range counts as other music, with the elements that are passed over. *)
Inductive jentry :=
| JLang (e : elem) (l : str)
| JRel (selected : bool) (a : attrs) (s : option jpitch) (b : idoc)
| JMusic (b : idoc).
(** The document as relative.py 124-128 sees it. *)
Definition entries (d : jentry) : entry :=
  match d with
  | JLang _ l => DLang l
  | JRel sel _ s b => DRel sel (option_map (fun q => pnode_of (fst q)) s) (items b)
  | JMusic b => DMusic (items b)
  end.
(** The elements themselves (element.py 150-176). *)
Definition jentry_element (d : jentry) : elem :=
  match d with JLang e _ => e | JRel _ a s b => jelements (JRelative a s b) | JMusic b => jelements b end.

(** relative.py 73-74, as [convert_where]. *)
Fixpoint jconvert_where (octave_id : nat) (T : tables) (P : processor) (fa : bool) (f : bool -> bool) (d : list jentry) : res (list jentry) :=
  match d with
  | [] => Ok []
  | JRel sel a s b :: r =>
      let! r' := jconvert_where octave_id T P fa f r in
      if f sel then let! b' := jsettle octave_id T P fa (JRelative a s b) in Ok (JMusic b' :: r') else Ok (JRel sel a s b :: r')
  | e :: r => let! r' := jconvert_where octave_id T P fa f r in Ok (e :: r')
  end.
(** relative.py 124-128, as [rel2abs]. *)
Definition jrel2abs (octave_id : nat) (T : tables) (P : processor) (fa : bool) (d : list jentry) : res (list jentry) :=
  let! m := first_note_met T P (map entries d) in
  match m with
  | None => jconvert_where octave_id T P fa (fun sel => sel) d
  | Some P' => jconvert_where octave_id T P' fa (fun _ => true) d
  end.
