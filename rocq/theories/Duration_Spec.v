(** Specification side for durations. *)
From Coq Require Import String Ascii List ZArith QArith Qpower.
From Verif Require Import Base.
Import ListNotations.
Open Scope Z_scope.

(** The length of a note with a given log and number of dots: the base value
    [2^-log], and each dot adds half of what was added before:
    [2^-log * (1 + 1/2 + ... + 1/2^dots) = 2^-log * (2 - 2^-dots)]. *)
Definition dotted (log dots : Z) : Q :=
  (Qpower (2#1) (- log) * (2 - Qpower (2#1) (- dots)))%Q.

Definition expressible (v : Q) : Prop :=
  exists log dots, 0 <= dots /\ (v == dotted log dots)%Q.

(** Values a Python float holds exactly (53 significant bits). *)
Definition float53 (v : Q) : Prop :=
  exists n k, Z.abs n < 2 ^ 53 /\ (v == inject_Z n * Qpower (2#1) k)%Q.

Definition is_digit (c : ascii) : Prop := (48 <= nat_of_ascii c <= 57)%nat.

(** The value of a sequence of decimal digits. *)
Definition digits_value (s : str) : Z :=
  fold_left (fun n c => 10 * n + (Z.of_nat (nat_of_ascii c) - 48)) s 0.

(** An integer literal: an optional sign and at least one digit. *)
Definition int_literal (s : str) : Prop :=
  exists sign digits, In sign [[]; ["+"%char]; ["-"%char]] /\ digits <> [] /\
    Forall is_digit digits /\ s = sign ++ digits.

(** A decimal numeral for a number n >= 1, without a superfluous zero. *)
Definition numeral (s : str) (n : Z) : Prop :=
  Forall is_digit s /\ digits_value s = n /\ hd_error s <> Some "0"%char.

(** The names with their values, as in the LilyPond notation. *)
Definition name_of (log : Z) (s : str) : Prop :=
  (log = -1 /\ s = txt "breve") \/ (log = -2 /\ s = txt "longa") \/ (log = -3 /\ s = txt "maxima").

(** Characters that surround the significant part of a duration text. *)
Definition filler (c : ascii) : Prop := c = " "%char \/ c = "009"%char \/ c = "."%char.
(** [core] is [text] without surrounding filler. *)
Definition core_of (text core : str) : Prop :=
  exists a b, text = a ++ core ++ b /\ Forall filler a /\ Forall filler b /\
    (forall c, hd_error core = Some c -> ~ filler c) /\
    (forall c, hd_error (rev core) = Some c -> ~ filler c).
