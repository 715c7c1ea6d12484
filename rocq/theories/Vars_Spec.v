(** Specification of the handling of variables. *)
From Coq Require Import String Ascii List ZArith QArith Bool.
From Verif Require Import Base Vars_Model.
Import ListNotations.
Open Scope nat_scope.

(** Names that can be used: a string, or a tuple of strings and integers that is not of length 1. *)
Definition good_item (i : item) : Prop := match i with IOther _ => False | _ => True end.
Definition good_name (n : name) : Prop :=
  match n with One (IStr _) => True | One _ => False | Tuple l => Forall good_item l /\ length l <> 1 end.
(** Values that can be used: numbers, strings and numbers with a unit. *)
Definition good_value (v : pv) : Prop :=
  match v with PNum _ | PStr _ => True | PTuple (NBool _) _ => False | PTuple _ u => In u [txt "mm"; txt "cm"; txt "in"; txt "pt"] | _ => False end.

(** What can be a name, and what is a comment *)
Definition names (e : el) : Prop := match e with EList _ | Symbol _ | EString _ => True | _ => False end.
Definition comment (e : el) : Prop := match e with Comment _ => True | _ => False end.
(** A complete assignment: a name, maybe comments, an equal sign and a value. *)
Definition complete (e : el) : Prop :=
  match e with
  | Assignment a => exists l cs v, a = Identifier l :: cs ++ [EqualSign; v] /\ Forall comment cs /\ match v with Identifier _ => False | _ => True end
  | _ => True
  end.

(** Nodes as they are written: assignments, and other nodes that are not names. *)
Inductive segment := Plain (e : el) | Asg (first : el) (cs1 cs2 : list el) (value : el).
Definition good_segment (s : segment) : Prop :=
  match s with
  | Plain e => ~ names e
  | Asg first cs1 cs2 v => names first /\ Forall comment (cs1 ++ cs2) /\ ~ comment v
  end.
Definition written (s : segment) : list el := match s with Plain e => [e] | Asg first cs1 cs2 v => first :: cs1 ++ EqualSign :: cs2 ++ [v] end.
Definition parsed (s : segment) : el :=
  match s with
  | Plain e => e
  | Asg first cs1 cs2 v => Assignment (Identifier (match first with EList l => l | _ => [first] end) :: cs1 ++ EqualSign :: cs2 ++ [v])
  end.

(** The second list is the first with some names, equal signs and values put together, and nothing else. *)
Inductive grouped : list el -> list el -> Prop :=
| grouped_nil : grouped [] []
| grouped_keep e ins outs : grouped ins outs -> grouped (e :: ins) (e :: outs)
| grouped_assignment first cs1 cs2 v ins outs : good_segment (Asg first cs1 cs2 v) -> grouped ins outs ->
    grouped (written (Asg first cs1 cs2 v) ++ ins) (parsed (Asg first cs1 cs2 v) :: outs).
