(** What the arguments of commands are converted to. *)
From Coq Require Import String Ascii List ZArith Bool PeanoNat.
From Verif Require Import Base Duration_Spec Arg_Model.
Import ListNotations.

(** The same element with another type: head, origin and children are kept. *)
Inductive becomes_pitch : el -> el -> Prop :=
| becomes_pitch_is h o kids : becomes_pitch (E KNote h o kids) (E KPitch h o kids).

(** [arguments n args args']: of the arguments, those that are notes are pitches if fewer than [n] pitches precede; the others are as given. *)
Inductive arguments : nat -> list el -> list el -> Prop :=
| arguments_nil n : arguments n [] []
| arguments_note n x x' l l' : becomes_pitch x x' -> arguments n l l' -> arguments (S n) (x :: l) (x' :: l')
| arguments_pitch n x l l' : kind_of x = KPitch \/ kind_of x = KRest -> arguments n l l' -> arguments (S n) (x :: l) (x :: l')
| arguments_other n x l l' : kind_of x <> KNote -> kind_of x <> KPitch -> kind_of x <> KRest -> arguments n l l' -> arguments n (x :: l) (x :: l')
| arguments_rest l : arguments 0 l l.

(** The text of a number that can be an Int: decimal digits without leading zeroes. *)
Definition plain_number (s : str) (z : Z) : Prop :=
  s <> [] /\ Forall is_digit s /\ digits_value s = z /\ (s = ["0"%char] \/ hd_error s <> Some "0"%char).
