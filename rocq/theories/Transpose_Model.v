(** Model of quickly/transpose.py. *)
From Coq Require Import String Ascii List ZArith QArith Qabs Qround Bool.
From Verif Require Import Base Pitch_Model.
Import ListNotations.
Open Scope Z_scope.

(** transpose.py 41-67.  The scale is [None] when the attribute is missing
    (objects made by __add__ and __sub__). *)
Record transposer := Transposer { tr_octave : Z; tr_steps : Z; tr_alter : Q; tr_scale : option (list Q) }.

(** transpose.py 54-67: __init__. *)
Definition make_transposer (from to : pitch) (scale : list Q) : transposer :=
  Transposer (octave to - octave from) (note to - note from)
    (scale_at scale (note to) + alter to - scale_at scale (note from) - alter from)%Q
    (Some scale).

(** transpose.py 79-83.  Fuel counts iterations. *)
Fixpoint up_loop (fuel : nat) (scale : list Q) (p : pitch) : res pitch :=
  if Qlt_bool 1 (alter p) then
    match fuel with
    | O => Err OutOfFuel
    | S f =>
        let doct := (note p + 1) / 7 in let n := (note p + 1) mod 7 in
        up_loop f scale (Pitch (octave p + doct) n
          (alter p - (inject_Z (doct * 6) + scale_at scale n - scale_at scale (note p)))%Q)
    end
  else Ok p.

(** transpose.py 84-88. *)
Fixpoint down_loop (fuel : nat) (scale : list Q) (p : pitch) : res pitch :=
  if Qlt_bool (alter p) (-1) then
    match fuel with
    | O => Err OutOfFuel
    | S f =>
        let doct := (note p - 1) / 7 in let n := (note p - 1) mod 7 in
        down_loop f scale (Pitch (octave p + doct) n
          (alter p + (inject_Z (doct * -6) + scale_at scale (note p) - scale_at scale n))%Q)
    end
  else Ok p.

(** for [transpose], transpose.py 73-88 *)
Definition loop_fuel (a : Q) : nat := (7 * Z.to_nat (Qceiling (Qabs a)))%nat.

(** transpose.py 73-88. *)
Definition transpose (t : transposer) (p : pitch) : res pitch :=
  match tr_scale t with
  | None => Err AttributeError
  | Some scale =>
      let doct := (note p + tr_steps t) / 7 in let n := (note p + tr_steps t) mod 7 in
      let p1 := Pitch (octave p + (tr_octave t + doct)) n
        (alter p + (tr_alter t - inject_Z (doct * 6) - scale_at scale n + scale_at scale (note p)))%Q in
      let! p2 := up_loop (loop_fuel (alter p1)) scale p1 in
      down_loop (loop_fuel (alter p2)) scale p2
  end.

(** transpose.py 90-95. *)
Definition transposer_add (a b : transposer) : transposer :=
  let doct := (tr_steps a + tr_steps b) / 7 in
  Transposer (tr_octave a + tr_octave b + doct) ((tr_steps a + tr_steps b) mod 7)
    (tr_alter a + tr_alter b - inject_Z (doct * 6))%Q None.

(** transpose.py 97-102. *)
Definition transposer_sub (a b : transposer) : transposer :=
  let doct := (tr_steps a - tr_steps b) / 7 in
  Transposer (tr_octave a - tr_octave b + doct) ((tr_steps a - tr_steps b) mod 7)
    (tr_alter a - tr_alter b + inject_Z (doct * 6))%Q None.

(** * Class Transpose (transpose.py 105-275)

    Modelled per kind of expression: the sequence of pitch-carrying nodes in
    it, in the order the generator [notes] yields them.  Simplified: the
    pitch language does not change within the expression, and when an
    exception is raised the already edited nodes are not represented. *)

(** A note and whether it is in the edited range ([writable], transpose.py 145). *)
Record rnote := RNote { r_node : pnode; r_writable : bool }.

Section Edit.
  Variables (T : tables) (P : processor) (t : transposer).

  (** The node edited by [process] or [write_node], when no exception left the
      [with] block (transpose.py 180-182, 187-190). *)
  Definition of_pair {A B} (x : A * res B) : res A :=
    let (a, r) := x in let! _ := r in Ok a.

  (** transpose.py 177-182 with 192-195: absolute pitches; [adjust] is what the caller does
      with the yielded pitch. *)
  Definition transpose_pitch (adjust : pitch -> pitch) (n : rnote) : res rnote :=
    let! m := of_pair (process T P (r_node n) (r_writable n)
      (fun p => let! q := transpose t p in Ok (adjust q))) in
    Ok (RNote m (r_writable n)).

  (** The loop over the notes of an expression (transpose.py 177, 184, 192). *)
  Fixpoint map_notes (f : rnote -> res rnote) (l : list rnote) : res (list rnote) :=
    match l with
    | [] => Ok []
    | n :: r => let! m := f n in let! r' := map_notes f r in Ok (m :: r')
    end.

  (** transpose.py 192-195 with 177-182: absolute music. *)
  Definition transpose_absolute (l : list rnote) : res (list rnote) :=
    map_notes (transpose_pitch (fun p => p)) l.

  (** [p.octave = o] (transpose.py 187-190). *)
  Definition with_octave (p : pitch) (o : Z) : pitch := Pitch o (note p) (alter p).

  (** transpose.py 184-190: \key, inversions. *)
  Definition transpose_no_octave (l : list rnote) : res (list rnote) :=
    map_notes (fun n =>
      let! m := of_pair (process T P (r_node n) (r_writable n)
        (fun p => let! q := transpose t p in Ok (with_octave q (octave p)))) in
      Ok (RNote m (r_writable n))) l.

  (** [p.octave -= k] (transpose.py 165-169, 197-209). *)
  Definition lower_octave (k : Z) (p : pitch) : pitch := with_octave p (octave p - k).

  (** transpose.py 165-169: the two pitches of \transpose. *)
  Definition transpose_transpose (l : list rnote) : res (list rnote) :=
    map_notes (transpose_pitch (lower_octave (tr_octave t))) l.

  (** transpose.py 197-209: \fixed with its reference note. *)
  Definition transpose_fixed (ref : rnote) (l : list rnote) : res (rnote * list rnote) :=
    if r_writable ref then
      let! m := transpose_pitch (fun p => p) ref in
      let! l' := map_notes (transpose_pitch (lower_octave (tr_octave t))) l in
      Ok (m, l')
    else
      let! l' := map_notes (transpose_pitch (lower_octave 0)) l in
      Ok (ref, l').

  (** The last pitch and its attribute [transposed], if present. *)
  Definition last_state := (pitch * option pitch)%type.

  (** transpose.py 214-238. *)
  Definition transpose_note (n : rnote) (last : last_state) : res (rnote * last_state) :=
    let nd := r_node n in
    let! p := read_node T P nd in
    let default := octave p - node_octave nd in
    let p := make_absolute 7 p (fst last) default in
    if negb (r_writable n) then Ok (n, (p, None))
    else
      let lst := odefault (fst last) (snd last) in
      let! q := transpose t p in
      let nd := match oct_check nd with
                | Some _ => set_oct_check nd (Some (octave q - default))
                | None => nd
                end in
      let! m := of_pair (write_node T P nd (make_relative 7 q lst default)) in
      Ok (RNote m true, (p, Some q)).

  (** What [notes(nodes, True)] yields: notes, chords and octave checks (transpose.py 255-273). *)
  Inductive event := ENote (n : rnote) | EChord (l : list rnote) | ECheck (l : list rnote).

  (** transpose.py 261-263: the notes of a chord; the stack of last pitches. *)
  Fixpoint transpose_chord (l : list rnote) (last : last_state) : res (list rnote * list last_state) :=
    match l with
    | [] => Ok ([], [])
    | n :: r =>
        let! (m, s) := transpose_note n last in
        let! (r', ss) := transpose_chord r s in
        Ok (m :: r', s :: ss)
    end.

  (** transpose.py 267-273. *)
  Fixpoint transpose_check (l : list rnote) (last : last_state) : res (list rnote * last_state) :=
    match l with
    | [] => Ok ([], last)
    | n :: r =>
        let! p := read_node T P (r_node n) in
        let! (m, s) := (if r_writable n then
                          let! q := transpose t p in
                          let! m := of_pair (write_node T P (r_node n) q) in
                          Ok (RNote m true, (p, Some q))
                        else Ok (n, (p, None))) in
        let! (r', s') := transpose_check r s in
        Ok (m :: r', s')
    end.

  (** transpose.py 255-273. *)
  Fixpoint transpose_events (l : list event) (last : last_state) : res (list event) :=
    match l with
    | [] => Ok []
    | ENote n :: r =>
        let! (m, s) := transpose_note n last in
        let! r' := transpose_events r s in
        Ok (ENote m :: r')
    | EChord c :: r =>
        let! (c', stack) := transpose_chord c last in
        let! r' := transpose_events r (match stack with [] => last | s :: _ => s end) in
        Ok (EChord c' :: r')
    | ECheck c :: r =>
        let! (c', s) := transpose_check c last in
        let! r' := transpose_events r s in
        Ok (ECheck c' :: r')
    end.

  (** transpose.py 240-273.  [first_absolute] is relative_first_pitch_absolute. *)
  Definition transpose_relative (first_absolute : bool) (start : option rnote) (l : list event)
      : res (option rnote * list event) :=
    match start with
    | Some n =>
        let! p := read_node T P (r_node n) in
        if r_writable n then
          let! q := transpose t p in
          let! m := of_pair (write_node T P (r_node n) q) in
          let k := tr_octave t in
          let! l' := transpose_events l (lower_octave k p, Some (lower_octave k q)) in
          Ok (Some (RNote m true), l')
        else
          let! l' := transpose_events l (p, None) in
          Ok (Some n, l')
    | None =>
        let! l' := transpose_events l
          ((if first_absolute then Pitch (-1) 3 0 else Pitch 0 0 0), None) in
        Ok (None, l')
    end.
End Edit.
