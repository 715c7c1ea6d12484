(** Specification of the commands that change durations. *)
From Coq Require Import List ZArith QArith Bool.
From Verif Require Import Base Duration_Model Time_Model Scale_Model.
Import ListNotations.
Open Scope nat_scope.

(** Children that have no length and are no number: comments, durations, ... *)
Definition inert (x : arg) : Prop := match x with ANode n => kind_of n = Other \/ kind_of n = Duration | _ => False end.

(** A number as it may be written in LilyPond music: 2, 0.5, 2/3, #2, #2/3, #0.5. *)
Inductive number : arg -> Q -> Prop :=
| number_int z : number (AInt z) (inject_Z z)
| number_float q : number (AFloat q) q
| number_fraction a b : b <> 0%Z -> number (AFraction a b) (inject_Z a / inject_Z b)%Q
| number_scheme n q : (n = NInt (Qnum q) /\ Qden q = 1%positive \/ n = NFraction q \/ n = NFloat q) -> number (AScheme [SNumber n]) q.

(** The first number that counts for the command, with the factor it means. *)
Inductive written : command -> arg -> Q -> Prop :=
| written_times a b : b <> 0%Z -> written Times (AFraction a b) (inject_Z a / inject_Z b)%Q
| written_tuplet a b : a <> 0%Z -> b <> 0%Z -> written Tuplet (AFraction a b) (inject_Z b / inject_Z a)%Q
| written_scale x q : number x q -> written ScaleDurations x q.

(** A command with its arguments multiplies the length of the music m, its argument number i, by f. *)
Inductive scales_by : command -> list arg -> nat -> mn -> Q -> Prop :=
| scales_written c x f pre mid post m : written c x f -> Forall inert pre -> Forall inert mid -> Forall inert post ->
    scales_by c (pre ++ x :: mid ++ ANode m :: post) (List.length pre + S (List.length mid)) m f
| scales_grace c pre post m : In c [Grace; Acciaccatura; Appoggiatura; SlashedGrace] -> Forall inert pre -> Forall inert post ->
    scales_by c (pre ++ ANode m :: post) (List.length pre) m 0%Q.

(** A whole number as it may be written. *)
Inductive whole : arg -> Z -> Prop :=
| whole_int z : whole (AInt z) z
| whole_float q z : (q == inject_Z z)%Q -> whole (AFloat q) z
| whole_scheme z : whole (AScheme [SNumber (NInt z)]) z
| whole_scheme_float q z : (q == inject_Z z)%Q -> whole (AScheme [SNumber (NFloat q)]) z.

(** \shiftDurations l d m, in which m is argument number i. *)
Inductive shifts_by : list arg -> nat -> mn -> Z -> Z -> Prop :=
| shifts_written x y l d pre mid1 mid2 post m : whole x l -> whole y d -> Forall inert pre -> Forall inert mid1 -> Forall inert mid2 -> Forall inert post ->
    shifts_by (pre ++ x :: mid1 ++ y :: mid2 ++ ANode m :: post) (List.length pre + S (List.length mid1 + S (List.length mid2))) m l d.

(** A result multiplied by f, or the same exception. *)
Definition times (f : Q) (r : res Q) : res Q := match r with Ok q => Ok (f * q)%Q | Err e => Err e end.

(** Not directly in \simultaneous. *)
Definition not_in_simultaneous (root : mn) (p : list nat) : Prop :=
  forall q i m, p = q ++ [i] -> node_at root q = Some m -> kind_of m <> Simultaneous.

(** From the node on, the nodes on the way to the end of the path, without the last, are Music. *)
Fixpoint music_way (n : mn) (q : list nat) : Prop :=
  match q with
  | [] => True
  | i :: q => is_music (kind_of n) = true /\ match nth_error (kids_of n) i with Some c => music_way c q | None => False end
  end.

(** An argument that is neither a number nor music: a Scheme expression that is no literal number, or an inert element. *)
Definition unread (x : arg) : Prop :=
  match x with
  | ANode _ => inert x
  | AScheme kids => forall n, kids <> [SNumber n]
  | _ => False
  end.
