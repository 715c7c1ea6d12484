(** What it means to find a node by its position. *)
From Coq Require Import List Arith Bool.
From Verif Require Import Base Find_Model.
Import ListNotations.

Definition olist {A} (o : option A) : list A := match o with Some x => [x] | None => [] end.

(** The places in the text of the heads and tails of a tree, in document order. *)
Fixpoint spans (t : pn) : list (nat * nat) :=
  match t with P _ h tl kids => olist h ++ flat_map spans kids ++ olist tl end.

(** In the text they are in the same order, not empty and do not overlap. *)
Fixpoint increasing (from : nat) (l : list (nat * nat)) : Prop :=
  match l with [] => True | (i, j) :: r => from <= i /\ i < j /\ increasing j r end.

(** A node that has its tail in the text also has its head there. *)
Fixpoint headed (t : pn) : Prop :=
  match t with
  | P _ h tl kids => (h = None -> tl = None) /\
      (fix all (l : list pn) : Prop := match l with [] => True | n :: r => headed n /\ all r end) kids
  end.

Definition laid_out (t : pn) : Prop := headed t /\ increasing 0 (spans t).

(** Where the text of a tree begins and ends. *)
Definition begins (t : pn) (i : nat) : Prop := exists j r, spans t = (i, j) :: r.
Definition ends (t : pn) (j : nat) : Prop := exists i r, spans t = r ++ [(i, j)].
Definition touches (t : pn) (p : nat) : Prop := exists i j, begins t i /\ ends t j /\ i <= p <= j.
Definition covers (t : pn) (p e : nat) : Prop := exists i j, begins t i /\ ends t j /\ i <= p /\ e <= j.

(** The last of the children that touch position [p]. *)
Definition the_child (p : nat) (kids : list pn) (n : pn) : Prop :=
  exists l1 l2, kids = l1 ++ n :: l2 /\ touches n p /\ Forall (fun m => ~ touches m p) l2.

(** The child at [p], its child at [p] and so on, as long as [p] to [e] is covered. *)
Inductive chain (p e : nat) : list pn -> list pn -> Prop :=
| chain_end kids : (forall n, the_child p kids n -> ~ covers n p e) -> chain p e kids []
| chain_more kids n l : the_child p kids n -> covers n p e -> chain p e (pkids n) l -> chain p e kids (n :: l).

(** All nodes of a tree, parents first and parents last. *)
Fixpoint pre (t : pn) : list pn := match t with P _ _ _ kids => t :: flat_map pre kids end.
Fixpoint post (t : pn) : list pn := match t with P _ _ _ kids => flat_map post kids ++ [t] end.
