(** Model of the parts of class Range in node.py that say where the current node
    is, that move it to another index, and that iterate over its ancestors. *)
From Coq Require Import List ZArith Bool PeanoNat Lia.
From Verif Require Import Base Node_Model Node_Nav Range_Model.
Import ListNotations.

(** node.py 1003-1010: the getter of [index]. *)
Definition range_index (r : range) : Z :=
  let index := l_index (r_top r) in
  if (index =? -1)%Z then match r_below r with l :: _ => l_index l | [] => index end else index.

(** node.py 1012-1017: the setter of [index]. *)
Definition set_range_index (r : range) (index : Z) : res range :=
  let level := r_top r in
  if ((index <? l_start level) || (l_end level <? index))%Z then Err ValueError
  else Ok (with_top r (set_index level index)).

(** node.py 1019-1021. *)
Definition range_start (r : range) : Z := l_start (r_top r).

(** node.py 1023-1025. *)
Definition range_end (r : range) : Z := l_end (r_top r).

(** node.py 1034-1036. *)
Definition range_depth (r : range) : nat := List.length (r_below r).

(** node.py 1201-1203: the loop; the nodes yielded and the range. *)
Fixpoint leave_all (fuel : nat) (r : range) : res (list nat * range) :=
  match fuel with
  | O => Err OutOfFuel
  | S fuel =>
      if range_depth r =? 0 then Ok ([], r) else
      let (_, r) := leave r in
      let! n := current r in
      let! (ys, r) := leave_all fuel r in Ok (tid n :: ys, r)
  end.

(** node.py 1194-1207, with [leave_all]. *)
Definition range_ancestors (fuel : nat) (r : range) : res (list nat * range) :=
  let! (ys, r) := leave_all fuel r in
  if (l_index (r_top r) =? -1)%Z then Ok (ys, r) else
  let r := with_top r (set_index (r_top r) (-1)) in
  let! n := current r in Ok (ys ++ [tid n], r).

(** node.py 1146-1152 and 55-78: the children that the class test [isa] accepts,
    or with [invert] those that it does not accept. *)
Definition range_children_of (fuel : nat) (isa : nat -> bool) (invert : bool) (r : range) : res (list nat * range) :=
  let! (ys, r) := range_children fuel false r in Ok (filter (fun n => xorb invert (isa n)) ys, r).

(** The list of a trail is shared by the range and the levels that are on it; a change of it
    by [__setitem__] (node.py 944-949) is seen in all of them.  A level that
    is not on the trail has None. *)
Definition shared (changed own : option (list nat)) : option (list nat) :=
  match changed, own with Some t, Some _ => Some t | _, _ => own end.

(** node.py 951: the nodes of the levels under the one that is changed are in the same
    tree; here they get the new child. *)
Fixpoint rebuild (n : tree) (st et : option (list nat)) (below : list level) : list level :=
  match below with
  | [] => []
  | b :: rest =>
      let k := Z.to_nat (l_index b) in
      let n := set_children (l_node b) (splice (children (l_node b)) k (S k) [n]) in
      Level n (l_depth b) (shared st (l_start_trail b)) (shared et (l_end_trail b)) (l_start b) (l_end b) (l_index b) :: rebuild n st et rest
  end.

(** node.py 976-984: the setter of [node], with [set_level_item] for [__setitem__]. *)
Definition set_range_node (r : range) (node : tree) : res range :=
  let! (level, below) :=
    if (l_index (r_top r) =? -1)%Z
    then match r_below r with [] => Err ValueError | l :: rest => Ok (l, rest) end
    else Ok (r_top r, r_below r) in
  let! l := set_level_item level (l_index level) node in
  Ok (Range (shared (l_start_trail l) (r_start_trail r)) (shared (l_end_trail l) (r_end_trail r)) l (rebuild (l_node l) (l_start_trail l) (l_end_trail l) below)).

(** node.py 880-951: assigning to a slice of the children on the current level; and deleting (953-957), with no nodes. *)
Definition set_range_slice (r : range) (i j : option Z) (value : list tree) : range :=
  let l := set_level_slice (r_top r) i j value in
  Range (shared (l_start_trail l) (r_start_trail r)) (shared (l_end_trail l) (r_end_trail r)) l (rebuild (l_node l) (l_start_trail l) (l_end_trail l) (r_below r)).

(** node.py 944-951: assigning to one index on the current level. *)
Definition set_range_item (r : range) (i : Z) (value : tree) : res range :=
  let! l := set_level_item (r_top r) i value in
  Ok (Range (shared (l_start_trail l) (r_start_trail r)) (shared (l_end_trail l) (r_end_trail r)) l (rebuild (l_node l) (l_start_trail l) (l_end_trail l) (r_below r))).
