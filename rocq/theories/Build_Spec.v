(** Specification for adding children, building trees and mapped heads. *)
From Coq Require Import List Arith Bool.
From Verif Require Import Base Build_Model.
Import ListNotations.

(** The place of a node in a child order: the first class it is an instance of; at the end if it is of none. *)
Fixpoint rank {N} (order : list (N -> bool)) (n : N) : nat :=
  match order with [] => 0 | c :: r => if c n then 0 else S (rank r n) end.

(** A list of children is in the given order. *)
Definition in_child_order {N} (order : list (N -> bool)) (l : list N) : Prop :=
  forall l1 a l2 b l3, l = l1 ++ a :: l2 ++ b :: l3 -> rank order a <= rank order b.

(** [l'] is [l] with [n] inserted once. *)
Definition inserted {N} (n : N) (l l' : list N) : Prop := exists l1 l2, l = l1 ++ l2 /\ l' = l1 ++ n :: l2.

(** The nodes of a tree in document order, identity and type. *)
Fixpoint preorder (t : bt) : list (nat * nat) :=
  match t with
  | B i y kids => (i, y) :: (fix go l := match l with [] => [] | x :: r => preorder x ++ go r end) kids
  end.
Definition preorders (l : list bt) : list (nat * nat) := flat_map preorder l.

(** Types match a beginning of a signature. *)
Inductive fits : list nat -> signature -> Prop :=
| fits_nil s : fits [] s
| fits_cons y c ys s : c y = true -> fits ys s -> fits (y :: ys) (c :: s).

(** How an output tree was made: a node of the stream and the trees added to it as arguments. *)
Inductive dt := D (t : bt) (added : list dt).
Definition d_node (d : dt) : bt := match d with D t _ => t end.
Definition d_added (d : dt) : list dt := match d with D _ l => l end.
Fixpoint tree_of (d : dt) : bt := match d with D t added => B (b_id t) (b_ty t) (b_kids t ++ map tree_of added) end.
(** The same with another way of adding arguments. *)
Fixpoint made (add_arg : bt -> bt -> bt) (d : dt) : bt :=
  match d with
  | D t added => (fix go (p : bt) (l : list dt) : bt := match l with [] => p | x :: r => go (add_arg p (made add_arg x)) r end) t added
  end.
(** The nodes of the stream it is made of, in document order. *)
Fixpoint nodes_of (d : dt) : list bt := match d with D t added => t :: flat_map nodes_of added end.

Section Grown.
Variable sigs : nat -> option (list signature).
Variable ignore : nat -> bool.

(** The types of the children that count as arguments. *)
Definition arguments (l : list bt) : list nat := filter (fun y => negb (ignore y)) (map b_ty l).

(** A node can still take [x] as an argument: there is a signature that is not
    complete yet and that [x] (if not ignored) fits in.  If there are signatures() but
    none in them, the node takes ignored nodes, until something else comes. *)
Definition accepts (u x : bt) : Prop :=
  exists ss, sigs (b_ty u) = Some ss /\
    ((ss = [] /\ arguments (b_kids u) = [] /\ ignore (b_ty x) = true) \/
     exists s, In s ss /\ length (arguments (b_kids u)) < length s /\
       fits (arguments (b_kids u) ++ (if ignore (b_ty x) then [] else [b_ty x])) s).

(** Each argument was added when the node could still take it. *)
Definition well_added (t : bt) (added : list bt) : Prop :=
  forall a x b, added = a ++ x :: b -> accepts (B (b_id t) (b_ty t) (b_kids t ++ a)) x.

(** Neither the tree, nor the argument added to it last, and so on, can take [x] as an argument. *)
Fixpoint rejects (d : dt) (x : bt) : Prop :=
  match d with
  | D t added =>
      ~ accepts (B (b_id t) (b_ty t) (b_kids t ++ map tree_of added)) x /\
      (fix lst l : Prop := match l with [] => True | d' :: r => match r with [] => rejects d' x | _ => lst r end end) added
  end.

(** Of consecutive trees, the first could not have taken the second. *)
Fixpoint greedy (l : list dt) : Prop :=
  match l with
  | [] => True
  | d :: r => match r with [] => True | d' :: _ => rejects d (tree_of d') end /\ greedy r
  end.

Fixpoint valid (d : dt) : Prop :=
  match d with
  | D t added =>
      well_added t (map tree_of added) /\ greedy added /\
      (fix all l : Prop := match l with [] => True | d' :: r => valid d' /\ all r end) added
  end.
End Grown.

(** Signatures are sensible: none is empty. *)
Definition sensible (sigs : nat -> option (list signature)) : Prop :=
  forall y ss, sigs y = Some ss -> forall s, In s ss -> s <> [].
