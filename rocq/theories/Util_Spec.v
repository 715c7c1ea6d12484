(** Specification of add_newlines() and pop_comments(). *)
From Coq Require Import String Ascii List ZArith Bool PeanoNat.
From Verif Require Import Base Util_Model.
Import ListNotations.
Open Scope nat_scope.

(** The places where whitespace can be set, in the order of the text: the position (if known) and the whitespace. *)
Fixpoint slots (n : un) : list (option nat * str) :=
  match n with UN h t sb st kids => (h, sb) :: flat_map slots kids ++ [(t, st)] end.
(** The node without the whitespace *)
Fixpoint shape (n : un) : un := match n with UN h t _ _ kids => UN h t [] [] (map shape kids) end.

(** The separator is at position [i] of the text. *)
Definition occurs (text sep : str) (i : nat) : Prop := exists a b, text = a ++ sep ++ b /\ length a = i.
(** [k] is the number of separators from position [m] up to [p]. *)
Definition separators (text sep : str) (m p k : nat) : Prop :=
  exists l, NoDup l /\ length l = k /\ forall i, In i l <-> m <= i /\ i < p /\ occurs text sep i.

(** Number of newlines, and comparison of whitespace: more newlines, or the same number and more spaces. *)
Definition newlines (s : str) : nat := count_occ ascii_dec s "010"%char.
Definition spaces (s : str) : nat := count_occ ascii_dec s " "%char.
Definition stronger (a b : str) : Prop := newlines b < newlines a \/ newlines a = newlines b /\ spaces b < spaces a.

(** What the whitespace becomes: [m] is the highest position so far. *)
Inductive spaced (text sep : str) (limit : Z) : nat -> list (option nat * str) -> list (option nat * str) -> Prop :=
| spaced_nil m : spaced text sep limit m [] []
| spaced_none m s l l' : spaced text sep limit m l l' -> spaced text sep limit m ((None, s) :: l) ((None, s) :: l')
| spaced_some m p s s' k l l' : separators text sep m p k ->
    (let w := repeat "010"%char (Z.to_nat (Z.min (Z.of_nat k) limit)) in (w <> [] /\ stronger w s /\ s' = w \/ (w = [] \/ ~ stronger w s) /\ s' = s)) ->
    spaced text sep limit (Nat.max m p) l l' -> spaced text sep limit m ((Some p, s) :: l) ((Some p, s') :: l').

(** ** pop_comments: the nodes in the order of the text, with whether they are a comment *)
Fixpoint nodes (n : cn) : list (nat * bool) := match n with CN i c kids => (i, c) :: flat_map nodes kids end.
