(** Model of the listings of a range: Range.ls and Range.pwd in node.py. *)
From Coq Require Import List ZArith Bool PeanoNat.
From Verif Require Import Base Heads_Model Node_Model Node_Nav Range_Model.
Import ListNotations.
Open Scope nat_scope.

(** node.py 1256-1281: the lines that are printed.  A node stands for its repr(); [Row] has the index, the node, whether "(partly)" and whether
    the arrow is added; [EmptyRange] whether the start and whether the end are in the range; [EndMore] the number of nodes. *)
Inductive line :=
| Head (node : nat) | StartBoundary | Row (i : Z) (node : nat) (partly arrow : bool)
| EmptyNode | EmptyRange (start_in end_in : bool) (at_ : Z) | EndMore (n : Z) | EndBoundary.

(** node.py 1263-1268: one turn of the loop. *)
Definition ls_row (l : level) (i : Z) : res line :=
  let! n := item_at (l_node l) i in
  let! child := level_child l i in
  let! partly := if negb (start_in_range child) then Ok true else let! e := end_in_range child in Ok (negb e) in
  Ok (Row i (tid n) partly (i =? l_index l)%Z).

(** node.py 1261-1275: the rows, or what is said if there are none. *)
Definition ls_body (l : level) : res (list line) :=
  if (l_start l <=? l_end l)%Z then
    mapr (ls_row l) (map (fun k => (l_start l + Z.of_nat k)%Z) (seq 0 (Z.to_nat (l_end l + 1 - l_start l))))
  else if List.length (children (l_node l)) =? 0 then Ok [EmptyNode]
  else let! e := end_in_range l in Ok [EmptyRange (start_in_range l) e (l_start l)].

(** node.py 1276-1281. *)
Definition ls_end (l : level) : res (list line) :=
  let! e := end_in_range l in
  let len := Z.of_nat (List.length (children (l_node l))) in
  Ok (if e then [] else if (l_end l <? len - 1)%Z then [EndMore (len - l_end l - 1)] else [EndBoundary]).

(** node.py 1244-1281. *)
Definition range_ls (r : range) : res (list line) :=
  let l := r_top r in
  let! body := ls_body l in
  let! bottom := ls_end l in
  Ok (Head (tid (l_node l)) :: (if start_in_range l then [] else [StartBoundary]) ++ body ++ bottom).

(** node.py 1289-1292: the loop over the ancestors, until the ancestor of the range. *)
Fixpoint until (ancestor : nat) (l : list nat) : list nat :=
  match l with [] => [] | n :: l => n :: (if n =? ancestor then [] else until ancestor l) end.

(** node.py 1284-1295.  The parents of the current node are the nodes of the levels; [outer] are the ancestors of the ancestor of the range, if this
    is not the root of its tree. *)
Definition range_pwd (outer : list nat) (r : range) : res (list nat) :=
  let! n := current r in
  let parents := map (fun l => tid (l_node l)) (if (l_index (r_top r) =? -1)%Z then r_below r else r_top r :: r_below r) in
  Ok (rev (tid n :: until (tid (ancestor r)) (parents ++ outer))).

(** node.py 769-771. *)
Definition range_copy (r : range) : res range := new_range (ancestor r) (r_start_trail r) (r_end_trail r).
