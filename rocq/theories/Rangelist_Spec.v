(** Specification of the listings of a range. *)
From Coq Require Import List ZArith Bool PeanoNat Sorting.Sorted.
From Verif Require Import Base Node_Model Node_Spec Node_Nav Range_Model Range_Spec Rangenav_Model Rangenav_Spec Rangelist_Model.
Import ListNotations.
Open Scope nat_scope.

(** Before the start of the range (and not above the start node); after the end. *)
Definition early (s : option (list nat)) (p : list nat) : Prop := exists s0, s = Some s0 /\ left_of p s0.
Definition late (e : option (list nat)) (p : list nat) : Prop := exists e0, e = Some e0 /\ before e0 p.

(** All nodes at or below the one at [p] have [P]. *)
Definition throughout (t : tree) (p : list nat) (P : list nat -> Prop) : Prop := forall x, exists_at t (p ++ x) -> P (p ++ x).

(** The line for a child of the node at [q]. *)
Definition row_for (t : tree) (s e : option (list nat)) (q current : list nat) (j : nat) (l : line) : Prop :=
  exists m partly arrow, reach t (q ++ [j]) m /\ l = Row (Z.of_nat j) (tid m) partly arrow /\
    (partly = false <-> throughout t (q ++ [j]) (fun x => ~ early s x /\ ~ late e x)) /\ (arrow = true <-> current = q ++ [j]).

(** All numbers with [P], in order. *)
Definition numbers (P : nat -> Prop) (l : list nat) : Prop := StronglySorted lt l /\ forall j, In j l <-> P j.

(** The lines below the head that belong to the nodes. *)
Inductive body_for (t : tree) (s e : option (list nat)) (q current : list nat) : list line -> Prop :=
| body_rows js rows : js <> [] -> numbers (fun j => in_view t s e (q ++ [j])) js -> Forall2 (row_for t s e q current) js rows -> body_for t s e q current rows
| body_leaf : (forall j, ~ exists_at t (q ++ [j])) -> body_for t s e q current [EmptyNode]
| body_none j s_in e_in i : exists_at t (q ++ [j]) -> (forall j, ~ in_view t s e (q ++ [j])) ->
    (s_in = true <-> throughout t q (fun x => ~ early s x)) -> (e_in = true <-> throughout t q (fun x => ~ late e x)) ->
    (forall k x, s = Some (q ++ k :: x) -> i = Z.of_nat k) -> body_for t s e q current [EmptyRange s_in e_in i].

(** The lines for the boundaries. *)
Definition top_for (t : tree) (s : option (list nat)) (q : list nat) (l : list line) : Prop :=
  exists whole : bool, (whole = true <-> throughout t q (fun x => ~ early s x)) /\ l = (if whole then [] else [StartBoundary]).
Definition bottom_for (t : tree) (e : option (list nat)) (q : list nat) (l : list line) : Prop :=
  exists (whole : bool) js, (whole = true <-> throughout t q (fun x => ~ late e x)) /\ numbers (fun j => exists_at t (q ++ [j]) /\ late e (q ++ [j])) js /\
    l = (if whole then [] else match js with [] => [EndBoundary] | _ => [EndMore (Z.of_nat (List.length js))] end).

(** The nodes on the path from the tree to the node at [p], which is the last. *)
Definition path_to (t : tree) (p : list nat) (l : list nat) : Prop :=
  List.length l = S (List.length p) /\ forall k m, k <= List.length p -> reach t (firstn k p) m -> nth_error l k = Some (tid m).
