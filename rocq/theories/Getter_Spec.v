(** What duration_getter() should return. *)
From Coq Require Import List ZArith QArith Bool.
From Verif Require Import Base Duration_Model Rhythm_Model Getter_Model.
Import ListNotations.
Open Scope nat_scope.

(** The duration that is written at the node, or else the one that previous_duration() finds. *)
Definition effective (root : rn) (p : list nat) : option (Q * Q) :=
  match node_at root p with
  | None => None
  | Some n => match durs_of n with
              | d :: _ => Some (dur_value d)
              | [] => Some (previous_duration (map snd (backward root p)))
              end
  end.
(** No durable without a duration has a durable with a duration inside it (like a note with a duration in a chord). *)
Definition flat (root : rn) : Prop := forall p q n m, node_at root p = Some n -> node_at root (p ++ q) = Some m -> q <> [] ->
  sets_previous (kind_of n) = true -> sets_previous (kind_of m) = true -> durs_of n = [] -> durs_of m = [].
