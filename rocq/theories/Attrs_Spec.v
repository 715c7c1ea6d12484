(** Specification of the attributes of a Pitchable. *)
From Coq Require Import String Ascii List ZArith Bool.
From Verif Require Import Base Attrs_Model Build_Spec.
Import ListNotations.
Open Scope Z_scope.

(** The kinds of children, by their number in the order of LilyPond's syntax. *)
Definition place (k : kid) : nat :=
  match k with
  | Octave _ => 0 | Accidental _ => 1 | OctCheck _ => 2
  | Other CDuration _ => 3 | Other CRestModifier _ => 4 | Other CArticulations _ => 5 | Other CComment _ => 6 | Other CAny _ => 7
  end%nat.
(** The kinds that a note, pitch or pitched rest can have. *)
Definition allowed (p : pitchable) (k : kid) : Prop :=
  match p, k with
  | Note, Other CRestModifier _ => False
  | Pitch, Other c _ => c = CComment
  | _, Other CAny _ => False
  | _, _ => True
  end.
Definition in_order (kids : list kid) : Prop :=
  forall l1 a l2 b l3, kids = l1 ++ a :: l2 ++ b :: l3 -> (place a <= place b)%nat.

(** The children of a kind, and the others. *)
Definition of_kind (n : nat) (kids : list kid) : list kid := filter (fun k => Nat.eqb (place k) n) kids.
Definition not_of_kind (n : nat) (kids : list kid) : list kid := filter (fun k => negb (Nat.eqb (place k) n)) kids.

(** How an octave is written. *)
Definition octave_text (z : Z) : str := repeat "'"%char (Z.to_nat z) ++ repeat ","%char (Z.to_nat (- z)).
