(** What relative and absolute music denote. *)
From Coq Require Import String Ascii List ZArith QArith Bool.
From Verif Require Import Base Pitch_Model Pitch_Spec Transpose_Spec Relative_Model.
Import ListNotations.
Open Scope Z_scope.

Section Read.
  Context (T : tables) (P : processor) (fa : bool).

  (** The pitches of notes written absolutely. *)
  Fixpoint abs_list (c : list pnode) : res (list pitch) :=
    match c with
    | [] => Ok []
    | n :: r => let! p := read_node T P n in let! ps := abs_list r in Ok (p :: ps)
    end.

  (** Each note relative to the one before. *)
  Fixpoint rel_list (prev : pitch) (c : list pnode) : res (list pitch) :=
    match c with
    | [] => Ok []
    | n :: r => let! (p, _) := rel_pitch T P prev n in let! ps := rel_list p r in Ok (p :: ps)
    end.

  (** The pitch before the first note: given; or f, so that the first note is
      as if absolute; or c'. *)
  Definition rel_start (s : option pnode) : res pitch :=
    match s with
    | Some n => read_node T P n
    | None => Ok (if fa then Pitch (-1) 3 0 else Pitch 0 0 0)
    end.

  (** The pitches in relative music, in order, and the pitch the next note is
      relative to.  \relative inside starts anew and has no effect on what
      comes after it; a chord counts as its first note; an octave check sets
      the reference. *)
  Fixpoint rel_read (prev : pitch) (i : item) : res (list pitch * pitch) :=
    match i with
    | INote n => let! (p, _) := rel_pitch T P prev n in Ok ([p], p)
    | IChord c => let! ps := rel_list prev c in Ok (ps, match ps with [] => prev | p :: _ => p end)
    | ICheck n => let! p := read_node T P n in Ok ([], p)
    | IOpaque => Ok ([], prev)
    | IRelative s b => let! p := rel_start s in let! (ps, _) := rel_read p b in Ok (ps, prev)
    | IList l =>
        let fix go prev l := match l with
          | [] => Ok ([], prev)
          | x :: r => let! (ps, p) := rel_read prev x in
                      let! (qs, q) := go p r in Ok (ps ++ qs, q)
          end in go prev l
    end.

  (** The pitches in absolute music (with \relative music inside). *)
  Fixpoint abs_read (i : item) : res (list pitch) :=
    match i with
    | INote n => let! p := read_node T P n in Ok [p]
    | IChord c => abs_list c
    | ICheck n => Ok []
    | IOpaque => Ok []
    | IRelative s b => let! p := rel_start s in let! (ps, _) := rel_read p b in Ok ps
    | IList l =>
        let fix go l := match l with
          | [] => Ok []
          | x :: r => let! ps := abs_read x in let! qs := go r in Ok (ps ++ qs)
          end in go l
    end.
End Read.

Fixpoint every (f : item -> bool) (i : item) : bool :=
  f i && match i with
         | IList l => forallb (every f) l
         | IRelative _ b => every f b
         | _ => true
         end.

Definition is_check (i : item) : bool := match i with ICheck _ => true | _ => false end.
Definition is_relative (i : item) : bool := match i with IRelative _ _ => true | _ => false end.
Definition is_full_chord (i : item) : bool := match i with IChord (_ :: _) => true | _ => false end.

Definition no_relative : item -> bool := every (fun i => negb (is_relative i)).
Definition no_check : item -> bool := every (fun i => negb (is_check i)).
Definition no_chord : item -> bool := every (fun i => negb (is_full_chord i)).

(** An octave check is the last in its list. *)
Definition check_last (i : item) : bool :=
  match i with IList l => negb (existsb is_check (removelast l)) | _ => true end.
Definition checks_last : item -> bool := every check_last.

(** Everything but the octaves. *)
Definition bare_note (n : pnode) : pnode := PNode (head n) None (oct_check n).
Fixpoint bare (i : item) : item :=
  match i with
  | INote n => INote (bare_note n)
  | IChord c => IChord (map bare_note c)
  | ICheck n => ICheck (bare_note n)
  | IOpaque => IOpaque
  | IRelative s b => IRelative s (bare b)
  | IList l => IList (map bare l)
  end.

(** The same with the octave checks left out of the lists. *)
Fixpoint drop_checks (i : item) : item :=
  match i with
  | IList l => IList (filter (fun x => negb (is_check x)) (map drop_checks l))
  | _ => i
  end.

(** \relative inside \relative, but only where no note came before it: [early before i after], whether there was a note before and after. *)
Inductive early : bool -> item -> bool -> Prop :=
| early_note a n : early a (INote n) true
| early_chord a n c : early a (IChord (n :: c)) true
| early_empty a : early a (IChord []) a
| early_check a n : early a (ICheck n) true
| early_opaque a : early a IOpaque a
| early_relative s b z : early false b z -> early false (IRelative s b) z
| early_list a l z : earlys a l z -> early a (IList l) z
with earlys : bool -> list item -> bool -> Prop :=
| earlys_nil a : earlys a [] a
| earlys_cons a i m l z : early a i m -> earlys m l z -> earlys a (i :: l) z.
(** The same without the octave checks in the lists, and with the music of \relative in place of the \relative. *)
Fixpoint no_relatives_left (i : item) : item :=
  match i with
  | IRelative _ b => no_relatives_left b
  | IList l => IList (flat_map (fun x => if is_check x then [] else [no_relatives_left x]) l)
  | _ => i
  end.

(** The same music up to an explicit octave 0. *)
Definition zero_note (n : pnode) : pnode := PNode (head n) (Some (node_octave n)) (oct_check n).
Fixpoint plain_zero (i : item) : item :=
  match i with
  | INote n => INote (zero_note n)
  | IChord c => IChord (map zero_note c)
  | ICheck n => ICheck (zero_note n)
  | IOpaque => IOpaque
  | IRelative s b => IRelative s (plain_zero b)
  | IList l => IList (map plain_zero l)
  end.

(** The pitches of the \relative expressions of a document; those of what is
    not \relative. *)
Definition entry_read (T : tables) (P : processor) (fa : bool) (e : entry) : res (list pitch) :=
  match e with
  | DLang _ => Ok []
  | DRel _ s b => let! p := rel_start T P fa s in let! (ps, _) := rel_read T P fa p b in Ok ps
  | DMusic b => abs_read T P fa b
  end.
