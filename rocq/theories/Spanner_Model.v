(** Model of quickly/dom/lily.py Spanner.find_parallel (701-754), on the heap of nodes of Node_Model. *)
From Coq Require Import List Bool PeanoNat.
From Verif Require Import Base Node_Model.
Import ListNotations.

Section Spanner.
Context {B : Type}.
(** The classes Assignment, New, Document and Score (with subclasses), and SpannerId. *)
Variable boundary : nat -> bool.
Variable spanner_id : nat -> bool.
(** The head of a spanner: "start" ([true]) or "stop". *)
Variable start : B -> bool.
(** Node.body_equals *)
Variable body_equals : B -> B -> bool.

(** isinstance(n.parent, SpannerId). (for [spanner_ok], dom/lily.py 748-751) *)
Definition in_spanner_id (h : heap B) (n : nat) : bool :=
  match par h n with Some p => spanner_id (cls h p) | None => false end.

(** dom/lily.py 744-745 *)
Definition parallel (h : heap B) (self n : nat) : bool :=
  Nat.eqb (cls h n) (cls h self) && negb (Bool.eqb (start (body h n)) (start (body h self))).

(** dom/lily.py 748-751; equals() with None is False, because the types differ. *)
Definition spanner_ok (fuel : nat) (h : heap B) (id : option nat) (n : nat) : res bool :=
  match id with
  | Some i =>
      if in_spanner_id h n then
        let! l := left_sibling h n in
        match l with Some j => equals body_equals fuel h i j | None => Ok false end
      else Ok false
  | None => Ok (negb (in_spanner_id h n))
  end.

(** dom/lily.py 753-754 *)
Fixpoint first_parallel (fuel : nat) (h : heap B) (self : nat) (id : option nat) (nodes : list nat) : res (option nat) :=
  match nodes with
  | [] => Ok None
  | n :: r =>
      if parallel h self n then
        let! ok := spanner_ok fuel h id n in
        if ok then Ok (Some n) else first_parallel fuel h self id r
      else first_parallel fuel h self id r
  end.

(** dom/lily.py 740-754.  The nodes are collected before they are searched, while Python searches while iterating.  [limit] is not negative. *)
Definition find_parallel (fuel : nat) (h : heap B) (self limit : nat) : res (option nat) :=
  let! anc := ancestors fuel h self in
  let upto := find (fun a => boundary (cls h a)) anc in
  let! nodes := if start (body h self) then forward fuel h (fun _ => false) upto self
                else backward fuel h (fun _ => false) upto self in
  let nodes := if (limit =? 0)%nat then nodes else firstn limit nodes in
  let! id := if in_spanner_id h self then left_sibling h self else Ok None in
  first_parallel fuel h self id nodes.
End Spanner.
