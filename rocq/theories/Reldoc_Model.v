(** Documents of elements whose pitches are made relative or absolute: the nodes
    that relative.py sees in them and what its edits do to the elements. *)
From Coq Require Import String Ascii List ZArith QArith Bool.
From Verif Require Import Base Element_Model Transposedoc_Model Doctext_Model Pitch_Model Relative_Model Abs2rel_Model.
Import ListNotations.
Open Scope Z_scope.

(** A Pitchable (lily.py 215-306): its attributes, the name (its head), the Octave
    child and the OctCheck child with their heads, and the Accidental child. *)
Record dpitch := DP { q_attrs : attrs; q_name : str; q_oct : option (attrs * Z); q_acc : option attrs; q_chk : option (attrs * Z) }.
(** The pitch as pitch.py 336-389 sees it. *)
Definition pnode_of (q : dpitch) : pnode := PNode (q_name q) (option_map snd (q_oct q)) (option_map snd (q_chk q)).
(** The element with its children, in the order of child_order (lily.py 1482, 1514, 1550). *)
Definition pitch_element (q : dpitch) (kids : list elem) : elem :=
  E (q_attrs q) (mark (q_oct q) ++ sign (q_acc q) ++ mark (q_chk q) ++ kids).
(** What [write_node] (pitch.py 383-389) does to the element, when it is to give the pitch [n]. *)
Definition redo_pitch (octave_id : nat) (q : dpitch) (n : pnode) : dpitch :=
  DP (set_head (q_attrs q) (str_eqb (Pitch_Model.head n) (q_name q)) (Pitch_Model.head n)) (Pitch_Model.head n)
    (redo_octave octave_id (q_oct q) (octave_child n)) (q_acc q) (redo_check (q_chk q) (oct_check n)).
(** A new lily.Pitch (pitch.py 441-445, relative.py 229); [pitch_id] stands for its type. *)
Definition new_pitch (pitch_id octave_id : nat) (n : pnode) : dpitch :=
  DP (Attrs Head pitch_id (Ok (Pitch_Model.head n)) [] None None false false [] [] [] [] []) (Pitch_Model.head n)
    (option_map (fun z => (new_octave octave_id z, z)) (octave_child n)) None None.

(** The elements (element.py 150-176) behind a [tree] of Abs2rel_Model: a
    Pitchable; a \language or \include command with its children, which
    relative.py does not look at; any other element. *)
Inductive ndoc :=
| NPitch (q : dpitch) (kids : list ndoc)
| NLang (a : attrs) (l : str) (kids : list elem)
| NNode (k : kind) (a : attrs) (kids : list ndoc).

(** The document as relative.py 189-265 sees it. *)
Fixpoint ntree (d : ndoc) : tree :=
  match d with
  | NPitch q kids => TNote (pnode_of q) (map ntree kids)
  | NLang _ l _ => TLang l
  | NNode k _ kids => TNode k (map ntree kids)
  end.
(** The elements themselves (element.py 150-176). *)
Fixpoint nelements (d : ndoc) : elem :=
  match d with
  | NPitch q kids => pitch_element q (map nelements kids)
  | NLang a _ kids => E a kids
  | NNode _ a kids => E a (map nelements kids)
  end.

(** Whether [t] is a node of the kind [k] to which \relative was added (relative.py
    220-265): the start pitch, if any, and the children of the node. *)
Definition wrapped (k : kind) (t : tree) : option (option pnode * list tree) :=
  match k with
  | KRelative => None
  | _ => match t with
         | TNode KRelative [TNote n _; TNode _ ts] => Some (Some n, ts)
         | TNode KRelative [TNode _ ts] => Some (None, ts)
         | _ => None
         end
  end.
(** relative.py 189-265: the children of a node of a document. *)
Definition tkids (t : tree) : list tree := match t with TNote _ l | TNode _ l => l | TLang _ => [] end.

Section Redo.
(** The types of octaves and pitches, and the new Relative element (relative.py 222). *)
Variables (octave_id pitch_id : nat) (relative : attrs).

(** The document after the edits of relative.py 189-265, when they are to give [t]. *)
Fixpoint nredo (d : ndoc) (t : tree) : ndoc :=
  let fix all (l : list ndoc) (ts : list tree) : list ndoc :=
    match l, ts with x :: l, t :: ts => nredo x t :: all l ts | _, _ => [] end in
  match d with
  | NPitch q kids => match t with TNote n ts => NPitch (redo_pitch octave_id q n) (all kids ts) | _ => d end
  | NLang _ _ _ => d
  | NNode k a kids =>
      match wrapped k t with
      | Some (start, ts) =>
          NNode KRelative relative (match start with Some n => [NPitch (new_pitch pitch_id octave_id n) []] | None => [] end ++ [NNode k a (all kids ts)])
      | None => NNode k a (all kids (tkids t))
      end
  end.
(** relative.py 189-205: the children of the ancestor of the range. *)
Fixpoint nredo_all (l : list ndoc) (ts : list tree) : list ndoc :=
  match l, ts with x :: l, t :: ts => nredo x t :: nredo_all l ts | _, _ => [] end.
End Redo.
