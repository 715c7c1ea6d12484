(** Model of the add_argument methods in quickly/dom/lily.py that convert the argument (486-505, 1245, 1269, 1284, 1345, 1685, 2176), of
    Note.to_pitch (1485-1496) and of convert_duration_to_int (3370-3387). *)
From Coq Require Import String Ascii List ZArith Bool PeanoNat.
From Verif Require Import Base Duration_Model Heads_Model.
Import ListNotations.
Open Scope nat_scope.

(** An element: its type, the text of its head (what write_head returns), the tokens its head was read from (None without an origin) and its children.
    [KRest] is another Pitchable (PitchedRest). Spacing is not modelled. (for [append], element.py 699-706) *)
Inductive kind := KNote | KPitch | KRest | KUnpitched | KDuration | KInt | KOther (id : nat).
(** for [append], element.py 699-706 *)
Inductive el := E (k : kind) (head : str) (origin : option (list str)) (kids : list el).
(** for [add_pitch], dom/lily.py 1245-1249 *)
Definition kind_of (e : el) := match e with E k _ _ _ => k end.
(** for [add_pitch], dom/lily.py 1245-1249 *)
Definition pitchable (e : el) : bool := match kind_of e with KNote | KPitch | KRest => true | _ => false end.
(** The text written, without whitespace between the parts. (for [convert_duration_to_int], dom/lily.py 3370-3387) *)
Fixpoint text (e : el) : str := match e with E _ h _ kids => h ++ flat_map text kids end.

(** element.py 699-706 *)
Definition append (parent node : el) : el := match parent with E k h o kids => E k h o (kids ++ [node]) end.

(** dom/lily.py 1485-1496: the origin is copied. The children are given to the pitch. *)
Definition to_pitch (n : el) : el := match n with E _ h o kids => E KPitch h o kids end.
(** dom/lily.py 1245-1249 and the same in Fixed, Transposition, OctaveCheck and Key with [count] 1; 1284-1288 Transpose with [count] 2 *)
Definition add_pitch (count : nat) (parent node : el) : el :=
  match parent with
  | E _ _ _ kids =>
      append parent (if match kind_of node with KNote => true | _ => false end && (List.length (filter pitchable kids) <? count)
                     then to_pitch node else node)
  end.

(** dom/lily.py 488-494: the first child, whatever it is (a copy); an Unpitched without children itself *)
Definition add_duration (parent node : el) : el :=
  append parent (match node with E KUnpitched _ _ (d :: _) => d | _ => node end).

(** dom/lily.py 3370-3387. With an origin Int.with_origin() reads the first token only (Int.read_head 611-612); without one the written text is read.
    The result is None if that is no number. *)
Definition convert_duration_to_int (d : el) : res (option el) :=
  match d with
  | E _ _ o _ =>
      let! t := match o with
                | None => Ok (text d)
                | Some [] => Err IndexError
                | Some (t :: _) => Ok t
                end in
      match py_int t with
      | Ok z => Ok (Some (E KInt (str_int z) o []))
      | Err _ => Ok None
      end
  end.
(** dom/lily.py 499-505 *)
Fixpoint first_duration (kids : list el) : option el :=
  match kids with [] => None | E KDuration h o l :: _ => Some (E KDuration h o l) | _ :: r => first_duration r end.
(** dom/lily.py 499-505, with [first_duration] *)
Definition add_int (parent node : el) : res el :=
  match node with
  | E KUnpitched _ _ kids =>
      match first_duration kids with
      | Some d => let! i := convert_duration_to_int d in Ok (append parent (match i with Some i => i | None => node end))
      | None => Ok (append parent node)
      end
  | _ => Ok (append parent node)
  end.
