(** Model of Abs2rel.edit_range of quickly/relative.py (189-205) with
    _make_relative_internal (220-265): \relative is added to music in a
    document or in a part of it.

    Not modelled: the LilyPond version (180), comments, and the adjustment of
    the boundaries of the range when a node on a boundary is replaced (node.py
    946-949): it has no effect on what is iterated over later, as the new node
    is not entered. *)
From Coq Require Import String Ascii List ZArith QArith Bool.
From Verif Require Import Base Pitch_Model Relative_Model.
Import ListNotations.
Open Scope Z_scope.

(** The kinds of nodes that relative.py 189-205 and 245-261 tell apart: { ... }
    or << ... >>; \relative; \chordmode; \fixed; \absolute, \key, \inversion,
    \transpose, \transposition and \stringTuning (254-258); a chord;
    \octaveCheck; and all others. *)
Inductive kind := KList | KRelative | KChordMode | KFixed | KOpaque | KChord | KCheck | KOther.

(** A document as far as relative.py 189-265 looks into it: a pitch (Pitchable)
    with its children, a \language or \include command that sets a language
    (pitch.py 473-477), and other nodes with their children.  The start pitch of
    a \relative and the pitches given to \key etc. are their first children.
    The notes of a chord are in a node of their own (dom/lily.py, ChordBody). *)
Inductive tree :=
| TNote (n : pnode) (l : list tree)
| TLang (lang : str)
| TNode (k : kind) (l : list tree).

(** relative.py 197: isinstance(n, lily.Pitchable). *)
Definition is_note (t : tree) : bool := match t with TNote _ _ => true | _ => false end.

Section Abs2rel.
  Context (T : tables) (fa ws : bool).

  (** relative.py 245-261, with follow_language (pitch.py 472-478), that leaves the new
      language in the processor.  The notes of a chord are not direct children
      of the Chord node, so that 251-252 do nothing. *)
  Fixpoint relative_tree (t : tree) (P : processor) (last : option pitch) (new : option pnode)
      : res (tree * option pitch * option pnode * processor) :=
    match t with
    | TNote n l => let! (m, p, new) := relative_note T P fa ws n last new in Ok (TNote m l, Some p, new, P)
    | TLang s => let! P := language_set T P s in Ok (t, last, new, P)
    | TNode k l =>
        match k with
        | KChord | KOpaque | KFixed => Ok (t, last, new, P)
        | _ =>
          let fix go l P last new := match l with
            | [] => Ok ([], last, new, P)
            | x :: r => let! (x', last, new, P) := relative_tree x P last new in
                        let! (r', last, new, P) := go r P last new in Ok (x' :: r', last, new, P)
            end in
          let! (l', last, new, P) := go l P last new in Ok (TNode k l', last, new, P)
        end
    end.

  (** relative.py 220-265: the start pitch, if any, and the music are the children
      of the new node (229, 264). *)
  Definition make_relative_tree (t : tree) (P : processor) : res (tree * processor) :=
    let! (t', _, new, P) := relative_tree t P None None in
    Ok (TNode KRelative (match new with Some n => [TNote n []] | None => [] end ++ [t']), P).

  (** Which nodes the range contains in part, and which completely
      (r.in_range(), relative.py 197), by their trails from the ancestor. *)
  Variables inr whole : list nat -> bool.

  (** relative.py 193-202, for the node at a trail and what is below it;
      instances_of (node.py 112-121) enters all other nodes. *)
  Fixpoint edit_tree (p : list nat) (t : tree) (P : processor) : res (tree * processor) :=
    let kids := fix go (i : nat) l P := match l with
      | [] => Ok ([], P)
      | x :: r => let! (x', P) := edit_tree (p ++ [i]) x P in
                  let! (r', P) := go (S i) r P in Ok (x' :: r', P)
      end in
    if inr p then
      match t with
      | TLang _ => Ok (t, P)
      | TNote n l => let! (l', P) := kids O l P in Ok (TNote n l', P)
      | TNode KRelative _ => Ok (t, P)
      | TNode KChordMode _ => make_relative_tree t P
      | TNode KList l => if existsb is_note l && whole p then make_relative_tree t P
                         else let! (l', P) := kids O l P in Ok (TNode KList l', P)
      | TNode k l => let! (l', P) := kids O l P in Ok (TNode k l', P)
      end
    else Ok (t, P).

  (** relative.py 189-205: the children of the ancestor of the range. *)
  Fixpoint edit_trees (p : list nat) (i : nat) (l : list tree) (P : processor) : res (list tree * processor) :=
    match l with
    | [] => Ok ([], P)
    | x :: r => let! (x', P) := edit_tree (p ++ [i]) x P in
                let! (r', P) := edit_trees p (S i) r P in Ok (x' :: r', P)
    end.
  (** relative.py 189-205 *)
  Definition edit_range (l : list tree) (P : processor) : res (list tree) :=
    let! (l', _) := edit_trees [] 0 l P in Ok l'.
End Abs2rel.
