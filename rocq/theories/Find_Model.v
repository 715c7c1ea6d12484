(** Model of the positions of quickly/dom/element.py and the methods that find
    a node by its position (321-471). *)
From Coq Require Import List Arith Bool.
From Verif Require Import Base.
Import ListNotations.

(** An element: its identity, [(head_origin[0].pos, head_origin[-1].end)], the
    same of [tail_origin], and the children.  None if the attribute does not exist
    or is an empty tuple (AttributeError, IndexError). (for [pid], dom/element.py 330-348) *)
Inductive pn := P (id : nat) (head tail : option (nat * nat)) (kids : list pn).
(** dom/element.py 330-348 *)
Definition pid (t : pn) := match t with P i _ _ _ => i end.
(** dom/element.py 330-348 *)
Definition phead (t : pn) := match t with P _ h _ _ => h end.
(** dom/element.py 330-348 *)
Definition ptail (t : pn) := match t with P _ _ t _ => t end.
(** for [find_child], dom/element.py 372-384 *)
Definition pkids (t : pn) := match t with P _ _ _ k => k end.

(** dom/element.py 330-338 pos: the first of the node and its descendants, in document order, that has a head_origin *)
Fixpoint pos (t : pn) : option nat :=
  match t with
  | P _ (Some (i, _)) _ _ => Some i
  | P _ None _ kids =>
      (fix first (l : list pn) : option nat :=
         match l with [] => None | n :: r => match pos n with Some i => Some i | None => first r end end) kids
  end.

(** dom/element.py 350-360 end; the loop over the reversed children is the last child that has an end *)
Fixpoint pend (t : pn) : option nat :=
  match t with
  | P _ _ (Some (_, j)) _ => Some j
  | P _ head None kids =>
      match (fix last_of (l : list pn) : option nat :=
               match l with [] => None | n :: r => match last_of r with Some j => Some j | None => pend n end end) kids with
      | Some j => Some j
      | None => match head with Some (_, j) => Some j | None => None end
      end
  end.

Section Find.
Variable position : nat.

(** dom/element.py 372-384 find_child, the loop with its variable [prev]; comparing None with
    an integer is a TypeError *)
Fixpoint find_child_loop (kids : list pn) (prev : option pn) : res (option pn) :=
  match kids with
  | [] => Ok prev
  | n :: r =>
      match pos n with
      | None => find_child_loop r prev
      | Some i =>
          if i =? position then Ok (Some n)
          else if position <? i then Ok prev
          else match pend n with
               | None => Err TypeError
               | Some j =>
                   if position <? j then Ok (Some n)
                   else find_child_loop r (if j =? position then Some n else None)
               end
      end
  end.
(** dom/element.py 372-384, with [find_child_loop] *)
Definition find_child (t : pn) : res (option pn) := find_child_loop (pkids t) None.

(** dom/element.py 410-415: the while loop of find_descendants *)
Fixpoint find_descendants_loop (fuel end_ : nat) (n : option pn) : res (list pn) :=
  match fuel with
  | 0 => Err OutOfFuel
  | S fuel =>
      match n with
      | None => Ok []
      | Some n =>
          match pos n, pend n with
          | Some i, Some j =>
              if (i <=? position) && (end_ <=? j)
              then let! m := find_child n in
                   let! l := find_descendants_loop fuel end_ m in Ok (n :: l)
              else Ok []
          | _, _ => Err TypeError
          end
      end
  end.

(** for [find_descendants], dom/element.py 401-415 *)
Fixpoint height (t : pn) : nat :=
  match t with P _ _ _ kids => S ((fix m (l : list pn) : nat := match l with [] => 0 | n :: r => Nat.max (height n) (m r) end) kids) end.

(** dom/element.py 401-415 find_descendants *)
Definition find_descendants (t : pn) (end_ : option nat) : res (list pn) :=
  let end_ := match end_ with None => position | Some e => if e <? position then position else e end in
  let! n := find_child t in
  find_descendants_loop (height t) end_ n.

(** dom/element.py 386-399 find_descendant *)
Definition find_descendant (t : pn) (end_ : option nat) : res (option pn) :=
  let! l := find_descendants t end_ in
  Ok (last (map Some l) None).

(** dom/element.py 427-443 find_descendant_right: [gens] is the stack with the current iterator on top *)
Fixpoint right_loop (fuel : nat) (gens : list (list pn)) : res (option pn) :=
  match fuel with
  | 0 => Err OutOfFuel
  | S fuel =>
      match gens with
      | [] => Ok None
      | [] :: gens => right_loop fuel gens
      | (n :: gen) :: gens =>
          match pend n with
          | None => right_loop fuel (gen :: gens)
          | Some j =>
              if position <? j then
                match pos n with
                | None => Err TypeError
                | Some i => if position <=? i then Ok (Some n) else right_loop fuel (pkids n :: gen :: gens)
                end
              else right_loop fuel (gen :: gens)
          end
      end
  end.

(** dom/element.py 455-471 find_descendant_left; the iterators run over the reversed children *)
Fixpoint left_loop (fuel : nat) (gens : list (list pn)) : res (option pn) :=
  match fuel with
  | 0 => Err OutOfFuel
  | S fuel =>
      match gens with
      | [] => Ok None
      | [] :: gens => left_loop fuel gens
      | (n :: gen) :: gens =>
          match pos n with
          | None => left_loop fuel (gen :: gens)
          | Some i =>
              if i <? position then
                match pend n with
                | None => Err TypeError
                | Some j => if j <=? position then Ok (Some n) else left_loop fuel (rev (pkids n) :: gen :: gens)
                end
              else left_loop fuel (gen :: gens)
          end
      end
  end.

(** The number of steps the loops can take at most. (dom/element.py 417-443) *)
Fixpoint steps (t : pn) : nat :=
  match t with P _ _ _ kids => S (S ((fix m (l : list pn) : nat := match l with [] => 0 | n :: r => steps n + m r end) kids)) end.

(** dom/element.py 417-443 *)
Definition find_descendant_right (t : pn) : res (option pn) := right_loop (S (steps t)) [pkids t].
(** dom/element.py 445-471 *)
Definition find_descendant_left (t : pn) : res (option pn) := left_loop (S (steps t)) [rev (pkids t)].
End Find.
