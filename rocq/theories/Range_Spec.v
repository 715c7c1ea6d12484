(** Specification of ranges in a tree. *)
From Coq Require Import List ZArith Bool PeanoNat Sorting.Sorted Lia.
From Verif Require Import Base Node_Spec Node_Nav.
Import ListNotations.

(** The node at the end of a trail. *)
Inductive reach : tree -> list nat -> tree -> Prop :=
| reach_here t : reach t [] t
| reach_down n ts i c p t : nth_error ts i = Some c -> reach c p t -> reach (T n ts) (i :: p) t.
Definition exists_at (t : tree) (p : list nat) : Prop := exists m, reach t p m.

(** Document order, or the same. *)
Definition upto (a b : list nat) : Prop := a = b \/ before a b.

(** The boundaries of a range. *)
Definition valid (t : tree) (trail : option (list nat)) : Prop := match trail with Some p => exists_at t p | None => True end.

(** From the start node up to and including the end node. *)
Definition between (s e : option (list nat)) (p : list nat) : Prop :=
  (match s with Some s => upto s p | None => True end) /\ (match e with Some e => upto p e | None => True end).

(** The same, or an ancestor of the start node. *)
Definition reached (s e : option (list nat)) (p : list nat) : Prop :=
  (match s with Some s => upto s p \/ above p s | None => True end) /\ (match e with Some e => upto p e | None => True end).

(** The nodes with identities [ys] are, in the order [ord], exactly those at the paths in [P]. *)
Definition lists (t : tree) (ord : list nat -> list nat -> Prop) (P : list nat -> Prop) (ys : list nat) : Prop :=
  exists ps, Forall2 (fun p y => exists m, reach t p m /\ tid m = y) ps ys /\ StronglySorted ord ps /\
    forall p, In p ps <-> P p /\ exists_at t p.

(** Below a pruned node, where those at paths in [Q] are asked. *)
Definition skipped (t : tree) (Q : list nat -> Prop) (prune : nat -> bool) (p : list nat) : Prop :=
  exists q m, above q p /\ Q q /\ reach t q m /\ prune (tid m) = true.

(** A path translated with an offset at every node. *)
Fixpoint shifted (off : list nat -> nat) (here q : list nat) : list nat :=
  match q with [] => [] | i :: q => (i + off here) :: shifted off (here ++ [i]) q end.

(** [t'] is the part of [t] at the paths in [P]: the same nodes, and the children of
    a node in [t'] are a run of consecutive children in [t]. *)
Definition is_part (t' t : tree) (P : list nat -> Prop) : Prop :=
  exists off, (forall q m, reach t' q m -> exists n, reach t (shifted off [] q) n /\ tid n = tid m) /\
    (forall p, P p /\ exists_at t p <-> exists q, exists_at t' q /\ p = shifted off [] q).
