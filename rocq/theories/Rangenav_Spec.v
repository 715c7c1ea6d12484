(** Specification of walking through a range. *)
From Coq Require Import List ZArith Bool PeanoNat.
From Verif Require Import Base Node_Model Node_Spec Node_Nav Range_Model Range_Spec Rangenav_Model.
Import ListNotations.

(** Where a range stands, as seen with trail() and depth(): at the node with the
    path [p]; and whether this node has just been entered, so that the
    iteration level is that of its children. *)
Definition stands (r : range) (p : list nat) (entered : bool) : Prop :=
  range_trail r = map Z.of_nat p /\ (if entered then range_depth r else S (range_depth r)) = List.length p.

(** The tree [t'] is [t] with [v] at the path. *)
Inductive replaced (v : tree) : tree -> list nat -> tree -> Prop :=
| replaced_here t : replaced v t [] v
| replaced_below n l c r p c' : replaced v c p c' -> replaced v (T n (l ++ c :: r)) (List.length l :: p) (T n (l ++ c' :: r)).

(** A boundary inside the node at [p] becomes this node. *)
Definition retracted (p : list nat) (s s' : option (list nat)) : Prop :=
  (forall x, s = Some (p ++ x) -> s' = Some p) /\ ((forall x, s <> Some (p ++ x)) -> s' = s).

(** The level of the iteration: the children of this node are iterated over. *)
Definition level_path (p : list nat) (entered : bool) : list nat := if entered then p else removelast p.

(** *** Slices *)
(** The index of a child after the children from [a] up to [z] were replaced by [n] nodes. *)
Definition shift (a z n k : nat) : nat := if k <? a then k else k + n - (z - a).
(** A path that goes through child [k] of the node at [q] goes through the same child after that. *)
Definition carried (q : list nat) (a z n : nat) (s s' : option (list nat)) : Prop :=
  (forall k x, s = Some (q ++ k :: x) -> s' = Some (q ++ shift a z n k :: x)) /\ ((forall k x, s <> Some (q ++ k :: x)) -> s' = s).
(** The path does not go through one of the children that are replaced. *)
Definition not_through (q : list nat) (a z : nat) (s : option (list nat)) : Prop := forall k x, s = Some (q ++ k :: x) -> k < a \/ z <= k.
(** A slice of the children of the node [n] at [q] that keeps clear of the boundaries and of the node where the range stands.  When no boundary is inside the node, that is the
    first or the last child. *)
Record clear (q : list nat) (n : tree) (s e : option (list nat)) (p : list nat) (a z : nat) : Prop := {
  cl_slice : a <= z <= List.length (children n);
  cl_start : not_through q a z s;
  cl_first : (forall k x, s <> Some (q ++ k :: x)) -> 0 < a;
  cl_end : not_through q a z e;
  cl_last : (forall x, e <> Some (q ++ x)) -> z < List.length (children n);
  cl_current : not_through q a z (Some p)
}.
(** The node with these children instead. *)
Definition sliced (n : tree) (a z : nat) (v : list tree) : tree := match n with T i ts => T i (firstn a ts ++ v ++ skipn z ts) end.

(** A range of the tree [t] with the boundaries [s] and [e], that was used in any way:
    stepping forward and backward on a level (which is what all iterators do,
    whether they are exhausted or not), entering and leaving, going to a node
    of the range, resetting, setting the index, replacing the current node or a node at
    any index on the level, and assigning to slices that keep clear of the boundaries. *)
Inductive used : tree -> option (list nat) -> option (list nat) -> range -> Prop :=
| used_new t s e r : valid t s -> valid t e -> new_range t s e = Ok r -> used t s e r
| used_step t s e rv r n r' : used t s e r -> step rv r = Ok (Some (n, r')) -> used t s e r'
| used_enter t s e r r' : used t s e r -> enter r = Ok r' -> used t s e r'
| used_leave t s e r : used t s e r -> used t s e (snd (leave r))
| used_reset t s e r : used t s e r -> used t s e (reset r)
| used_goto t s e r p r' : used t s e r -> exists_at t p -> reached s e p -> goto_trail r (Some p) = Ok r' -> used t s e r'
| used_index t s e r i r' : used t s e r -> set_range_index r i = Ok r' -> used t s e r'
| used_node t s e r p b v r' t' s' e' : used t s e r -> stands r p b -> set_range_node r v = Ok r' ->
    replaced v t p t' -> retracted p s s' -> retracted p e e' -> used t' s' e' r'
| used_slice t s e r p b n a z v t' s' e' : used t s e r -> stands r p b -> reach t (level_path p b) n -> clear (level_path p b) n s e p a z ->
    replaced (sliced n a z v) t (level_path p b) t' -> carried (level_path p b) a z (List.length v) s s' -> carried (level_path p b) a z (List.length v) e e' ->
    used t' s' e' (set_range_slice r (Some (Z.of_nat a)) (Some (Z.of_nat z)) v)
| used_item t s e r p b i v r' t' s' e' : used t s e r -> stands r p b -> set_range_item r (Z.of_nat i) v = Ok r' ->
    replaced v t (level_path p b ++ [i]) t' -> retracted (level_path p b ++ [i]) s s' -> retracted (level_path p b ++ [i]) e e' -> used t' s' e' r'.

(** A node of the range. *)
Definition in_view (t : tree) (s e : option (list nat)) (p : list nat) : Prop := exists_at t p /\ reached s e p.

(** The first, or backwards the last, index with [P]. *)
Definition foremost (backwards : bool) (P : nat -> Prop) (i : nat) : Prop :=
  P i /\ forall j, P j -> if backwards then j <= i else i <= j.

(** After [i], or backwards before [i]. *)
Definition past (backwards : bool) (i j : nat) : Prop := if backwards then j < i else i < j.

(** The children of the node at [p] that are next in turn: those at an index [j]
    in the range, beyond the current one if the node was not just entered. *)
Inductive in_turn (t : tree) (s e : option (list nat)) (backwards : bool) : list nat -> bool -> list nat -> nat -> Prop :=
| turn_entered p j : in_view t s e (p ++ [j]) -> in_turn t s e backwards p true p j
| turn_beyond q i j : in_view t s e (q ++ [j]) -> past backwards i j -> in_turn t s e backwards (q ++ [i]) false q j.

(** What comes after (or backwards before) the node at [p] in the document and
    is neither above nor below it; also what is below it if it was
    just entered. *)
Definition onward (backwards : bool) (p : list nat) (entered : bool) (q : list nat) : Prop :=
  (if backwards then left_of q p else left_of p q) \/ entered = true /\ above p q.

(** All nodes of the tree are different nodes. *)
Definition all_different (t : tree) : Prop := forall p q m n, reach t p m -> reach t q n -> tid m = tid n -> p = q.

(** A loop over the level of the range, forward or backward, that replaces each node it gets: [for n in range: range.node = f(n)]. *)
Inductive edit_loop (backwards : bool) (f : tree -> tree) : range -> range -> Prop :=
| loop_end r : step backwards r = Ok None -> edit_loop backwards f r r
| loop_next r c r1 r2 r3 : step backwards r = Ok (Some (c, r1)) -> set_range_node r1 (f c) = Ok r2 -> edit_loop backwards f r2 r3 -> edit_loop backwards f r r3.
