(** What the edits that change pitches take from the document: the pitch language and
    the meaning of the first pitch in \relative (quickly/transpose.py 133-143,
    quickly/relative.py 55-65, 176-187, quickly/pitch.py 447-459). *)
From Coq Require Import String Ascii List ZArith Bool.
From Verif Require Import Base Pitch_Model Version_Model.
Import ListNotations.
Open Scope nat_scope.

(** node.py 134-144 and the reversed descendants (descendants(reverse=True)): children
    last first, every node before its own descendants. *)
Fixpoint mirrored (e : el) : list el :=
  match e with E _ kids => (fix go l := match l with [] => [] | k :: r => go r ++ k :: mirrored k end) kids end.
(** node.py 503-508 left_siblings, each with its reversed descendants (552-554). *)
Fixpoint to_the_left (l : list el) : list el :=
  match l with [] => [] | k :: r => to_the_left r ++ k :: mirrored k end.
(** node.py 541-556 Node.backward, from the node at a path from the root. *)
Fixpoint backward (root : el) (path : list nat) : list el :=
  match path with
  | [] => []
  | i :: p => match nth_error (kids_of root) i with
              | Some c => backward c p ++ to_the_left (firstn i (kids_of root))
              | None => []
              end
  end.

(** pitch.py 455-456: the language attribute of a Language or Include (dom/lily.py
    2779-2790, 2823-2835); None for other nodes, which are not looked at. *)
Definition language_of (T : tables) (n : el) : res (option str) :=
  match kind_of n with
  | KLanguage => Ok (Version_Model.language n)
  | KInclude => include_language (map fst T) n
  | _ => Ok None
  end.
(** pitch.py 447-459 PitchProcessor.find_language *)
Fixpoint look_back (T : tables) (P : processor) (nodes : list el) : res processor :=
  match nodes with
  | [] => Ok P
  | n :: r => let! l := language_of T n in
              match l with
              | Some (c :: s) => language_set T P (c :: s)
              | _ => look_back T P r
              end
  end.

(** util.lilypond_version(node) >= (2, 18): tuples are compared item by item (transpose.py 143,
    relative.py 65, 180). *)
Fixpoint tuple_ge (a b : list Z) : bool :=
  match a, b with
  | _, [] => true
  | [], _ :: _ => false
  | x :: a, y :: b => if (x =? y)%Z then tuple_ge a b else (y <? x)%Z
  end.

(** The processor: transpose.py 136-139, relative.py 58-61, 182-185.  [given] is the processor
    attribute, [path] the path of the ancestor of the range. *)
Definition get_processor (T : tables) (given : option processor) (root : el) (path : list nat) : res processor :=
  let P := match given with Some P => P | None => default_processor end in
  match path with [] => Ok P | _ => look_back T P (backward root path) end.
(** transpose.py 141-143, relative.py 63-65: [attr] is the attribute. *)
Definition first_absolute (attr : option bool) (root : el) : res bool :=
  match attr with
  | Some b => Ok b
  | None => let! v := lilypond_version root in Ok (tuple_ge v [2; 18]%Z)
  end.
(** relative.py 176-187 Abs2rel._get_settings; without the need for it the version is not looked up, and
    None means False (get_first_pitch, 230-233). *)
Definition get_settings (T : tables) (given : option processor) (start_pitch : bool) (attr : option bool) (root : el) (path : list nat)
    : res (processor * bool) :=
  let! fa := if start_pitch then Ok (match attr with Some b => b | None => false end) else first_absolute attr root in
  let! P := get_processor T given root path in
  Ok (P, fa).
