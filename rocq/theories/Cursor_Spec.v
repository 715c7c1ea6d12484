(** What it means to edit the selected nodes. *)
From Coq Require Import List Arith Bool.
From Verif Require Import Base Node_Model Node_Spec Node_Nav Find_Model Find_Spec.
Import ListNotations.

(** The node at a path of a document. *)
Inductive stands : pn -> list nat -> pn -> Prop :=
| stands_here t : stands t [] t
| stands_below id h tl kids i c p n : nth_error kids i = Some c -> stands c p n -> stands (P id h tl kids) (i :: p) n.

(** The document without the positions. *)
Fixpoint shape (t : pn) : tree := match t with P i _ _ kids => T i (map shape kids) end.

(** The first node, in document order, that begins at or after [p]. *)
Definition first_from (d : pn) (p : nat) (x : list nat) (a : pn) : Prop :=
  x <> [] /\ stands d x a /\ (exists i, begins a i /\ p <= i) /\
  forall y m i, y <> [] -> stands d y m -> before y x -> begins m i -> i < p.

(** The last node that ends at or before [q]; a node ends after its children. *)
Definition last_to (d : pn) (q : nat) (y : list nat) (b : pn) : Prop :=
  y <> [] /\ stands d y b /\ (exists j, ends b j /\ j <= q) /\
  forall w m j, w <> [] -> stands d w m -> above w y \/ left_of y w -> ends m j -> q < j.
