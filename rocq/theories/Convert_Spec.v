(** Specification: what becomes of the arguments of commands. *)
From Coq Require Import List Arith Bool.
From Verif Require Import Base Build_Model Build_Spec Signature_Model Signature_Spec.
Import ListNotations.

(** What is meant by an argument: itself (music, a text), a pitch (read as a note), or a duration or a number (read as a duration without a note). *)
Inductive role := As_is | As_pitch | As_duration | As_number.

(** The meaning of the arguments of a command, by their number. *)
Definition roles (c : cls) (n : nat) : list role :=
  match c, n with
  | KRelative, 2 | KFixed, 2 => [As_pitch; As_is]
  | KTranspose, 3 => [As_pitch; As_pitch; As_is]
  | KTransposition, 1 | KOctaveCheck, 1 => [As_pitch]
  | KKey, 2 => [As_pitch; As_is]
  | KPartial, 1 => [As_duration]
  | KTuplet, 3 => [As_is; As_duration; As_is]
  | KTempo, 3 => [As_duration; As_is; As_is]
  | KTempo, 4 => [As_is; As_duration; As_is; As_is]
  | KOttava, 1 => [As_number]
  | KScaleDurations, 2 => [As_number; As_is]
  | KShiftDurations, 3 => [As_number; As_number; As_is]
  | KGrobDashPattern, 2 => [As_number; As_number]
  | KSet, S n | KOverride, S n => repeat As_is n ++ [As_number]
  | _, _ => repeat As_is n
  end.

Section Wanted.
(** The number that a duration is, if it is one. *)
Variable number_of : bt -> option bt.

Definition a_pitch (n : bt) : bt := if Nat.eqb (b_ty n) (number KNote) then B (b_id n) (number KPitch) (b_kids n) else n.
Definition a_duration (n : bt) : bt := if Nat.eqb (b_ty n) (number KUnpitched) then hd n (b_kids n) else n.
Fixpoint first_duration (l : list bt) : option bt :=
  match l with [] => None | d :: r => if Nat.eqb (b_ty d) (number KDuration) then Some d else first_duration r end.
Definition a_number (n : bt) : bt :=
  if Nat.eqb (b_ty n) (number KUnpitched) then
    match first_duration (b_kids n) with Some d => match number_of d with Some i => i | None => n end | None => n end
  else n.
Definition given (r : role) (n : bt) : bt :=
  match r with As_is => n | As_pitch => a_pitch n | As_duration => a_duration n | As_number => a_number n end.

Definition is_comment (n : bt) : bool := Nat.eqb (b_ty n) (number KMultilineComment) || Nat.eqb (b_ty n) (number KSinglelineComment).
(** The arguments in their roles; comments have none. *)
Fixpoint give (rs : list role) (l : list bt) : list bt :=
  match l with
  | [] => []
  | n :: r =>
      if is_comment n then n :: give rs r
      else match rs with [] => n :: give [] r | k :: rs => given k n :: give rs r end
  end.

Definition class_roles (y : nat) (n : nat) : list role := match class_of y with Some c => roles c n | None => [] end.
(** The tree of a command with its arguments: at every level the arguments are given in their roles. *)
Fixpoint wanted (d : dt) : bt :=
  match d with
  | D t added =>
      B (b_id t) (b_ty t)
        (b_kids t ++ give (class_roles (b_ty t) (length (filter (fun d => negb (is_comment (d_node d))) added))) (map wanted added))
  end.
End Wanted.

(** The music of \tuplet, \scaleDurations and \shiftDurations is not a duration without a note. *)
Inductive no_bare : dt -> Prop :=
| no_bare_intro t added :
    (forall c p d, is_class (b_ty t) c -> In c [KTuplet; KScaleDurations; KShiftDurations] -> added = p ++ [d] -> ~ is_class (b_ty (d_node d)) KUnpitched) ->
    Forall no_bare added -> no_bare (D t added).
