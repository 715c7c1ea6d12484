(** Specification of key signatures. *)
From Coq Require Import String Ascii List ZArith QArith Bool.
From Verif Require Import Base Pitch_Model.
Import ListNotations.
Open Scope Z_scope.

(** The scale continued over all octaves: the pitch, in whole tones, of the
    k-th degree. *)
Definition degree (scale : list Q) (k : Z) : Q :=
  let l := Z.of_nat (List.length scale) in
  (nth (Z.to_nat (k mod l)) scale 0 + inject_Z (6 * (k / l)))%Q.

(** The interval between the tonic and degree [i] in the mode that starts on
    degree [k]. *)
Definition mode_degree (scale : list Q) (k i : Z) : Q := (degree scale (k + i) - degree scale k)%Q.

(** An entry of a list of numbers. *)
Definition at_ (l : list Q) (i : Z) : Q := nth (Z.to_nat i) l 0%Q.

(** The number of sharps (negative: flats) on a letter (0 = c) in the signature with
    [sf] sharps: they come in the order f c g d a e b, and then again. *)
Definition sharp_order (letter : Z) : Z := nth (Z.to_nat letter) [1; 3; 5; 0; 2; 4; 6] 0.
Definition sharps_on (sf letter : Z) : Z := (sf + 6 - sharp_order letter) / 7.

Fixpoint sum (l : list Q) : Q := match l with [] => 0 | x :: r => x + sum r end.

(** Multiples of a semitone. *)
Definition half (a : Q) : Prop := exists k, (a * 2 == inject_Z k)%Q.

(** The fifths from c to the letter [m] of the scale. *)
Definition fifths (m : Z) : Z := nth (Z.to_nat m) [0; 2; 4; -1; 1; 3; 5] 0.

(** The named modes, as the semitones of their degrees above the tonic. *)
Definition mode_semitones : list (str * list Z) :=
  [(txt "major", [0; 2; 4; 5; 7; 9; 11]); (txt "minor", [0; 2; 3; 5; 7; 8; 10]);
   (txt "ionian", [0; 2; 4; 5; 7; 9; 11]); (txt "dorian", [0; 2; 3; 5; 7; 9; 10]);
   (txt "phrygian", [0; 1; 3; 5; 7; 8; 10]); (txt "lydian", [0; 2; 4; 6; 7; 9; 11]);
   (txt "mixolydian", [0; 2; 4; 5; 7; 9; 10]); (txt "aeolian", [0; 2; 3; 5; 7; 8; 10]);
   (txt "locrian", [0; 1; 3; 5; 6; 8; 10])].
