(** Transposing a whole document: the walk of transpose.py 133-275 over nested
    music.  The edits of single notes are in Transpose_Model. *)
From Coq Require Import String Ascii List ZArith QArith Bool.
From Verif Require Import Base Pitch_Model Transpose_Model.
Import ListNotations.
Open Scope Z_scope.

(** A document node as transpose.py 153-175 tells nodes apart: a Pitchable with
    whether it is in the edited range (145) and its children; \key and chord
    inversions; \absolute; \relative; \fixed; \transpose; \transposition and
    \stringTuning; a chord; \octaveCheck; a \language or \include command with
    the language it sets; a comment; and any other node with its children. *)
Inductive mtree :=
| MPitch (n : rnote) (ch : list mtree)
| MKey (ch : list mtree)
| MAbsolute (ch : list mtree)
| MRelative (ch : list mtree)
| MFixed (ch : list mtree)
| MTranspose (ch : list mtree)
| MSkip (ch : list mtree)
| MChord (ch : list mtree)
| MCheck (ch : list mtree)
| MLang (l : str)
| MComment
| MOther (ch : list mtree).

(** The loop that consumes what [notes] yields (transpose.py 177-273), with its
    local variables: transpose_pitches, after which k is subtracted from the
    octave (169, 192-195, 209); transpose_no_octave; the main loop of
    transpose_relative with last_pitch (256-259); its loop over the notes of a
    chord with the stack's last and second element (262-264); and over those of
    an octave check (267-273). *)
Inductive body :=
| BPlain (k : Z)
| BKeep
| BRel (last : last_state)
| BChord (last : last_state) (first : option last_state)
| BCheck (last : last_state).

(** One pass of that loop: transpose.py 178-182, 185-190, 214-238, 263, 268-273. *)
Definition on_note (T : tables) (t : transposer) (P : processor) (b : body) (n : rnote) : res (rnote * body) :=
  match b with
  | BPlain k => let! m := transpose_pitch T P t (lower_octave k) n in Ok (m, b)
  | BKeep =>
      let! m := of_pair (process T P (r_node n) (r_writable n)
        (fun p => let! q := transpose t p in Ok (with_octave q (octave p)))) in
      Ok (RNote m (r_writable n), b)
  | BRel last => let! (m, s) := transpose_note T P t n last in Ok (m, BRel s)
  | BChord last first => let! (m, s) := transpose_note T P t n last in Ok (m, BChord s (Some (odefault s first)))
  | BCheck last =>
      let! p := read_node T P (r_node n) in
      if r_writable n then
        let! q := transpose t p in
        let! m := of_pair (write_node T P (r_node n) q) in
        Ok (RNote m true, BCheck (p, Some q))
      else Ok (n, BCheck (p, None))
  end.

(** The for loop of [notes], transpose.py 153; [step] is what is done with one
    node. *)
Definition walks (step : bool -> body -> processor -> mtree -> res (mtree * body * processor))
    : bool -> body -> processor -> list mtree -> res (list mtree * body * processor) :=
  fix go rm b P l :=
  match l with
  | [] => Ok ([], b, P)
  | x :: r =>
      let! (x', b1, P1) := step rm b P x in
      let! (r', b2, P2) := go rm b1 P1 r in Ok (x' :: r', b2, P2)
  end.

(** [base.Comment], util.py 153-156 skip_comments *)
Definition is_comment (x : mtree) : bool := match x with MComment => true | _ => false end.

(** transpose.py 147-175, with follow_language (pitch.py 472-478), the bodies of
    transpose_fixed (197-209) and transpose_relative (240-273).  [rm] is
    relative_mode, [b] the loop that consumes the notes; the result is the
    edited node, the loop's variables and the processor afterwards.  What
    happens after an exception is not represented. *)
Fixpoint walk (T : tables) (t : transposer) (fa : bool) (rm : bool) (b : body) (P : processor) (x : mtree) {struct x}
    : res (mtree * body * processor) :=
  match x with
  | MComment => Ok (x, b, P)
  | MLang l => let! P' := language_set T P l in Ok (x, b, P')
  | MPitch n ch =>
      let! (n', b') := on_note T t P b n in
      let! (ch', _, P') := walks (walk T t fa) false (BPlain 0) P ch in
      Ok (MPitch n' ch', b', P')
  | MKey ch =>
      let! (ch', _, P') := walks (walk T t fa) false BKeep P ch in Ok (MKey ch', b, P')
  | MAbsolute ch =>
      let! (ch', _, P') := walks (walk T t fa) false (BPlain 0) P ch in Ok (MAbsolute ch', b, P')
  | MRelative ch =>
      let! (ch', P') :=
        (fix lead l := match l with
         | MComment :: r => let! (r', P') := lead r in Ok (MComment :: r', P')
         | MPitch n c :: r =>
             if existsb (fun y => negb (is_comment y)) r then
               let! p := read_node T P (r_node n) in
               if r_writable n then
                 let! q := transpose t p in
                 let! m := of_pair (write_node T P (r_node n) q) in
                 let k := tr_octave t in
                 let! (r', _, P') := walks (walk T t fa) true (BRel (lower_octave k p, Some (lower_octave k q))) P r in
                 Ok (MPitch (RNote m true) c :: r', P')
               else
                 let! (r', _, P') := walks (walk T t fa) true (BRel (p, None)) P r in Ok (MPitch n c :: r', P')
             else let! (l', _, P') := walks (walk T t fa) true (BRel (if fa then Pitch (-1) 3 0 else Pitch 0 0 0, None)) P l in
                  Ok (l', P')
         | _ => let! (l', _, P') := walks (walk T t fa) true (BRel (if fa then Pitch (-1) 3 0 else Pitch 0 0 0, None)) P l in
                Ok (l', P')
         end) ch in
      Ok (MRelative ch', b, P')
  | MFixed ch =>
      let! (ch', P') :=
        (fix lead l := match l with
         | [] => Ok ([], P)
         | MComment :: r => let! (r', P') := lead r in Ok (MComment :: r', P')
         | MPitch n c :: r =>
             if r_writable n then
               let! m := transpose_pitch T P t (fun p => p) n in
               let! (r', _, P') := walks (walk T t fa) false (BPlain (tr_octave t)) P r in Ok (MPitch m c :: r', P')
             else let! (r', _, P') := walks (walk T t fa) false (BPlain 0) P r in Ok (MPitch n c :: r', P')
         | y :: r => let! (r', _, P') := walks (walk T t fa) false (BPlain 0) P r in Ok (y :: r', P')
         end) ch in
      Ok (MFixed ch', b, P')
  | MTranspose ch =>
      match ch with
      | [] => Ok (x, b, P)
      | [y] => let! (y', _, P') := walk T t fa false (BPlain (tr_octave t)) P y in Ok (MTranspose [y'], b, P')
      | y :: z :: rest =>
          let! (y', _, P1) := walk T t fa false (BPlain (tr_octave t)) P y in
          let! (z', _, P2) := walk T t fa false (BPlain (tr_octave t)) P1 z in
          let! (rest', b', P3) := walks (walk T t fa) false b P2 rest in
          Ok (MTranspose (y' :: z' :: rest'), b', P3)
      end
  | MSkip _ => Ok (x, b, P)
  | MChord ch =>
      match rm, b with
      | true, BRel last =>
          let! (ch', b', P') := walks (walk T t fa) false (BChord last None) P ch in
          Ok (MChord ch', BRel (match b' with BChord _ (Some s) => s | _ => last end), P')
      | _, _ => let! (ch', b', P') := walks (walk T t fa) rm b P ch in Ok (MChord ch', b', P')
      end
  | MCheck ch =>
      match rm, b with
      | true, BRel last =>
          let! (ch', b', P') := walks (walk T t fa) false (BCheck last) P ch in
          Ok (MCheck ch', BRel (match b' with BCheck s => s | _ => last end), P')
      | _, _ => let! (ch', b', P') := walks (walk T t fa) rm b P ch in Ok (MCheck ch', b', P')
      end
  | MOther ch => let! (ch', b', P') := walks (walk T t fa) rm b P ch in Ok (MOther ch', b', P')
  end.

(** transpose.py 274-275: the node that contains the range is transposed as
    absolute music.  [P] is the processor after find_language (138-139), [fa] is
    relative_first_pitch_absolute (141-143). *)
Definition transpose_doc (T : tables) (t : transposer) (fa : bool) (P : processor) (x : mtree) : res mtree :=
  let! (x', _, _) := walk T t fa false (BPlain 0) P x in Ok x'.
