(** Documents of elements that are transposed: the music that transpose.py sees
    in them and what its assignments do to the elements. *)
From Coq Require Import String Ascii List ZArith QArith Bool.
From Verif Require Import Base Pitch_Model Transpose_Model Transposedoc_Model Element_Model.
Import ListNotations.
Open Scope Z_scope.

(** The classes that transpose.py 153-175 tells apart, other than Pitchable, see
    [mtree]; \language and \include with the language (pitch.py 472-478). *)
Inductive mkind := KKey | KAbsolute | KRelative | KFixed | KTranspose | KSkip | KChord | KCheck | KLang (l : str) | KComment | KOther.

(** Elements (element.py 150-176).  A Pitchable (lily.py 215-306): whether it is
    in the edited range, the name (its head), the Octave child and the
    OctCheck child with their heads, the Accidental child and the other
    children; in this order, which is that of child_order (lily.py 1482, 1514,
    1550).  Any other element with its children. *)
Inductive dtree :=
| DPitch (a : attrs) (w : bool) (name : str) (oct : option (attrs * Z)) (acc : option attrs) (chk : option (attrs * Z)) (kids : list dtree)
| DNode (k : mkind) (a : attrs) (kids : list dtree).

(** The music of the document as transpose.py 133-175 walks over it.  Octave,
    Accidental and OctCheck nodes have no children and are passed over. *)
Fixpoint music (d : dtree) : mtree :=
  match d with
  | DPitch a w name oct acc chk kids =>
      MPitch (RNote (PNode name (option_map snd oct) (option_map snd chk)) w) (map music kids)
  | DNode k a kids =>
      match k with
      | KKey => MKey (map music kids)
      | KAbsolute => MAbsolute (map music kids)
      | KRelative => MRelative (map music kids)
      | KFixed => MFixed (map music kids)
      | KTranspose => MTranspose (map music kids)
      | KSkip => MSkip (map music kids)
      | KChord => MChord (map music kids)
      | KCheck => MCheck (map music kids)
      | KLang l => MLang l
      | KComment => MComment
      | KOther => MOther (map music kids)
      end
  end.

(** The Octave and OctCheck children (lily.py 1643-1674), which have no children. *)
Definition mark (o : option (attrs * Z)) : list elem := match o with Some (a, _) => [E a []] | None => [] end.
(** The Accidental child (lily.py 263-264). *)
Definition sign (o : option attrs) : list elem := match o with Some a => [E a []] | None => [] end.

(** The elements themselves (element.py 150-176). *)
Fixpoint elements (d : dtree) : elem :=
  match d with
  | DPitch a w name oct acc chk kids => E a (mark oct ++ sign acc ++ mark chk ++ map elements kids)
  | DNode k a kids => E a (map elements kids)
  end.

(** element.py 478-482, the head setter: [same] tells that the value is the old
    one, [text] is what write_head gives for the new value. *)
Definition set_head (a : attrs) (same : bool) (text : str) : attrs :=
  if same then a
  else Attrs (a_kind a) (a_id a) (Ok text) (a_tail a) (a_head_origin a) (a_tail_origin a) true (a_tail_modified a)
    (a_before a) (a_after_head a) (a_between a) (a_before_tail a) (a_after a).

(** A new Octave element (lily.py 248, 1643-1657); [octave_id] stands for its type. *)
Definition new_octave (octave_id : nat) (z : Z) : attrs :=
  Attrs Head octave_id (Ok (octave_to_string z)) [] None None false false [] [] [] [] [].

(** lily.py 242-248, the octave setter. *)
Definition redo_octave (octave_id : nat) (oct : option (attrs * Z)) (z : option Z) : option (attrs * Z) :=
  match oct, z with
  | Some (a, old), Some z => Some (set_head a (z =? old) (octave_to_string z), z)
  | None, Some z => Some (new_octave octave_id z, z)
  | _, None => oct
  end.

(** lily.py 293-302, the oct_check setter with a number, where there is an octave check. *)
Definition redo_check (chk : option (attrs * Z)) (z : option Z) : option (attrs * Z) :=
  match chk, z with
  | Some (a, old), Some z => Some (set_head a (z =? old) (txt "=" ++ octave_to_string z), z)
  | _, _ => chk
  end.

(** The children of a node of the music (transpose.py 175). *)
Definition mchildren (y : mtree) : list mtree :=
  match y with
  | MPitch _ ch | MKey ch | MAbsolute ch | MRelative ch | MFixed ch | MTranspose ch | MSkip ch | MChord ch | MCheck ch | MOther ch => ch
  | MLang _ | MComment => []
  end.

(** What the assignments of [write_node] (pitch.py 383-389) and of the octave
    check (transpose.py 235) do to the elements, when they are to give the music [y]. *)
Fixpoint redo (octave_id : nat) (d : dtree) (y : mtree) : dtree :=
  let fix all (l : list dtree) (m : list mtree) : list dtree :=
    match l, m with
    | x :: r, z :: s => redo octave_id x z :: all r s
    | _, _ => l
    end in
  match d with
  | DPitch a w name oct acc chk kids =>
      match y with
      | MPitch n ch =>
          DPitch (set_head a (str_eqb (head (r_node n)) name) (head (r_node n))) w (head (r_node n))
            (redo_octave octave_id oct (octave_child (r_node n))) acc (redo_check chk (oct_check (r_node n))) (all kids ch)
      | _ => d
      end
  | DNode k a kids => DNode k a (match k with KLang _ | KComment | KSkip => kids | _ => all kids (mchildren y) end)
  end.
