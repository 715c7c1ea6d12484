(** Model of quickly/key.py: key signatures.

    Alterations are exact rationals; [_int] (47-50) changes only the type of
    an integral number and is left out.  Not modelled: __repr__ (228-231). *)
From Coq Require Import String Ascii List ZArith QArith Bool.
From Verif Require Import Base Pitch_Model.
Import ListNotations.
Open Scope Z_scope.

(** key.py 32-42. *)
Definition mode_offset : list (str * Z) :=
  [(txt "major", 0); (txt "minor", 5); (txt "ionian", 0); (txt "dorian", 1); (txt "phrygian", 2);
   (txt "lydian", 3); (txt "mixolydian", 4); (txt "aeolian", 5); (txt "locrian", 6)].

(** for [alterations], key.py 77-82 *)
Definition zlen {A} (l : list A) : Z := Z.of_nat (List.length l).
(** 0, 1, ..., n-1. (for [alterations], key.py 77-82) *)
Definition zrange (n : Z) : list Z := map Z.of_nat (seq 0 (Z.to_nat n)).

(** "scale or pitch.MAJOR_SCALE". (for [alterations], key.py 77-82) *)
Definition or_major (scale : list Q) : list Q := match scale with [] => major_scale | _ => scale end.

(** key.py 77-82. *)
Definition alterations (offset : Z) (scale : list Q) : list Q :=
  let scale := or_major scale in
  let l := zlen scale in
  let offset := offset mod l in
  let alter := (scale_at scale offset - scale_at scale 0)%Q in
  map (fun orig => let step := offset + orig in
         (scale_at scale (step mod l) + inject_Z (step / l * 6) - scale_at scale orig - alter)%Q) (zrange l).

(** l[-n:] + l[:-n]. (for [accidentals], key.py 126-132) *)
Definition rotate {A} (l : list A) (n : Z) : list A :=
  if 0 <? n then let k := (List.length l - Z.to_nat n)%nat in skipn k l ++ firstn k l
  else let k := Z.to_nat (- n) in skipn k l ++ firstn k l.

(** key.py 126-132. *)
Definition accidentals (note : Z) (alter : Q) (mode : option (list Q)) (scale : list Q) : list Q :=
  let scale := or_major scale in
  let mode := match mode with Some m => m | None => alterations 0 scale end in
  let note := note mod zlen scale in
  let steps := alterations note scale in
  let accs := map (fun ms => (fst ms - snd ms + alter)%Q) (combine mode steps) in
  rotate accs note.

(** key.py 150-157: [step] is the step, [k] the number of steps left. *)
Fixpoint chrom_scale (scale flats : list Q) (k : nat) (step note : Z) : list (Z * Q) :=
  match k with
  | O => []
  | S k =>
      let pitch := (inject_Z step / 2)%Q in
      let note := if (note <? zlen scale - 1) &&
                     (existsb (Qeq_bool pitch) flats || Qeq_bool pitch (scale_at scale (note + 1)))
                  then note + 1 else note in
      (note, (pitch - scale_at scale note)%Q) :: chrom_scale scale flats k (step + 1) note
  end.

(** key.py 159-165; [alter] as modified at 167. *)
Definition chrom_transpose (scale : list Q) (note : Z) (alter : Q) (na : Z * Q) : Z * Q :=
  let (n, a) := na in
  let l := zlen scale in
  let doct := (n + note) / l in let new_note := (n + note) mod l in
  (new_note, (a + alter - inject_Z (doct * 6) - scale_at scale new_note + scale_at scale n)%Q).

(** key.py 147-170; [flats] None is handled by the caller. *)
Definition chromatic_scale (note : Z) (alter : Q) (scale flats : list Q) : list (Z * Q) :=
  let scale := or_major scale in
  let alter := (alter + (scale_at scale note - scale_at scale 0))%Q in
  let notes := map (chrom_transpose scale note alter) (chrom_scale scale flats 12 0 0) in
  let semitones := Qtrunc (alter * 2) in
  rotate notes semitones.

(** key.py 187-195: the loop. *)
Fixpoint tonic_loop (scale : list Q) (d : Z) (k : nat) (note : Z) (alter : Q) : Z * Q :=
  match k with
  | O => (note, alter)
  | S k =>
      let l := zlen scale in
      let doct := (note + d * 4) / l in let new_note := (note + d * 4) mod l in
      tonic_loop scale d k new_note
        (alter + (inject_Z d * (7#2) - inject_Z (doct * 6) - scale_at scale new_note + scale_at scale note))%Q
  end.

(** key.py 173-195 *)
Definition tonic (sf : Z) (scale : list Q) : Z * Q :=
  let d := if 0 <? sf then 1 else if sf <? 0 then -1 else 0 in
  tonic_loop (or_major scale) d (Z.to_nat (d * sf)) 0 0.

(** key.py 213-226.  The mode is a name or a list of alterations. *)
Inductive key_mode := ModeName (s : str) | ModeList (l : list Q).

(** key.py 213-226 *)
Record key_signature := KeySignature {
  k_note : Z; k_alter : Q; k_scale : list Q; k_accidentals : list Q; k_flats : list Q }.

(** key.py 213-226 *)
Definition make_key (note : Z) (alter : Q) (mode : key_mode) (scale : list Q) : res key_signature :=
  let scale := or_major scale in
  let! m := match mode with
            | ModeName s => match dget str_eqb mode_offset s with
                            | Some o => Ok (alterations o [])
                            | None => Err KeyError
                            end
            | ModeList l => Ok l
            end in
  Ok (KeySignature note alter scale (accidentals note alter (Some m) scale) major_flats).

(** l[n] = x. (for [fill_in], key.py 333-335) *)
Fixpoint set_nth {A} (l : list A) (n : nat) (x : A) : list A :=
  match l, n with
  | [], _ => []
  | _ :: r, O => x :: r
  | y :: r, S n => y :: set_nth r n x
  end.

(** key.py 333-335: base tones of the scale; [notes] are the remaining (note, (base, alter)). *)
Fixpoint fill_in (notes : list (Z * (Q * Q))) (steps : list (Z * Q)) : list (Z * Q) :=
  match notes with
  | [] => steps
  | (n, (base, alter)) :: r =>
      let step := Qtrunc ((base + alter) * 2) mod 12 in
      fill_in r (set_nth steps (Z.to_nat step) (n, alter))
  end.

(** 337. (key.py 233-346) *)
Definition step_octave (p : Q) : Z :=
  if Qlt_le_dec 6 p then -1 else if Qlt_le_dec p 0 then 1 else 0.

(** key.py 327-346 (the steps are cached, which has no effect); 322-324. *)
Definition key_steps (ks : key_signature) (flats : list Q) : list (Z * Q) :=
  fill_in (combine (zrange (zlen (k_scale ks))) (combine (k_scale ks) (k_accidentals ks)))
    (chromatic_scale (k_note ks) (k_alter ks) (k_scale ks) flats).

(** key.py 233-346 *)
Definition key_pitch (ks : key_signature) (key : Z) (flats : option (list Q)) : res pitch :=
  let flats := match flats with Some f => f | None => k_flats ks end in
  let octave := key / 12 in let step := key mod 12 in
  match nth_error (key_steps ks flats) (Z.to_nat step) with
  | Some (note, alter) => Ok (Pitch (octave + (step_octave (inject_Z note + alter) - 5)) note alter)
  | None => Err IndexError
  end.
