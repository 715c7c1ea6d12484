(** Specification of the search for the other end of a spanner. *)
From Coq Require Import List Bool PeanoNat.
From Verif Require Import Base Node_Model Node_Spec.
Import ListNotations.

Section Spec.
Context {B : Type}.
Variable boundary : nat -> bool.      (* the classes that a spanner does not cross: Assignment, New, Score, Document *)
Variable spanner_id : nat -> bool.    (* the class SpannerId *)
Variable start : B -> bool.
Variable beq : B -> B -> bool.
Variable h : heap B.

(** [pu] is the path of the innermost boundary around the node at [p], or of the root if there is none. *)
Definition surrounding (r : nat) (p pu : list nat) : Prop :=
  (forall q u, above q p -> above pu q -> at_path h r q u -> boundary (cls h u) = false) /\
  ((above pu p /\ exists u, at_path h r pu u /\ boundary (cls h u) = true) \/
   (pu = [] /\ forall u, at_path h r [] u -> above [] p -> boundary (cls h u) = false)).

(** The node [n] has the spanner id [i]: they are adjacent children of a SpannerId. *)
Definition has_id (n i : nat) : Prop :=
  exists s k, spanner_id (cls h s) = true /\ nth_error (kids h s) k = Some i /\ nth_error (kids h s) (S k) = Some n.
Definition in_id (n : nat) : Prop := exists s, spanner_id (cls h s) = true /\ In n (kids h s).
Definition same_id (a b : nat) : Prop :=
  (exists i j, has_id a i /\ has_id b j /\ alike (same_node beq h h) h i h j) \/
  ((forall i, ~ has_id a i) /\ ~ in_id b).

(** [m], at path [x], could be the other end of [self], at path [p]. *)
Definition other_end (r : nat) (p pu : list nat) (self m : nat) (x : list nat) : Prop :=
  at_path h r x m /\ (exists s, x = pu ++ s) /\
  (if start (body h self) then left_of p x else left_of x p) /\
  cls h m = cls h self /\ start (body h m) <> start (body h self) /\ same_id self m.
End Spec.
