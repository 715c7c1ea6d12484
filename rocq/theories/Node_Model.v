(** Model of quickly/node.py: Common and Node (50-624).

    Nodes are objects with an identity: numbers that index a heap.  The heap
    gives for every node its children (the Python list), its parent (the weak
    reference; [None] for _NO_PARENT), its class and its other attributes.
    Weak references are assumed to be alive: the user keeps the root of a tree
    (see the class docstring).  A node always has a truth value of True
    (206-208), so "while n" and "if p" test for None only.

    Generators are state machines: [resume] continues with the value sent
    (False or anything else).  The tree is not changed while iterating.
    Loops over the heap have fuel.

    Not modelled: __repr__, dump, ls, pwd (debugging), and the query operators
    (61-103), which filter the iterators below. *)
From Coq Require Import String Ascii List ZArith Bool PeanoNat.
From Verif Require Import Base.
Import ListNotations.

Section Nodes.
Context {B : Type}.

(** for [set_parent], node.py 247-258 *)
Record heap := Heap {
  kids : nat -> list nat;
  par : nat -> option nat;
  cls : nat -> nat;
  body : nat -> B;
  next : nat      (* the next fresh node *)
}.

(** for [set_parent], node.py 247-258 *)
Definition upd {A} (f : nat -> A) (k : nat) (v : A) : nat -> A := fun n => if Nat.eqb n k then v else f n.

(** list.__setitem__ etc.: the list of children only. (for [append], node.py 318-321) *)
Definition set_kids (h : heap) (p : nat) (l : list nat) : heap :=
  Heap (upd (kids h) p l) (par h) (cls h) (body h) (next h).

(** node._parent = weakref.ref(p) / _NO_PARENT (node.py 247-258). *)
Definition set_parent (h : heap) (n : nat) (p : option nat) : heap :=
  Heap (kids h) (upd (par h) n p) (cls h) (body h) (next h).

(** for [new_node], node.py 234-245 *)
Definition set_parents (h : heap) (ns : list nat) (p : nat) : heap :=
  fold_left (fun h n => set_parent h n (Some p)) ns h.

(** A new object; node.py 234-245: Node( *children). *)
Definition new_node (h : heap) (c : nat) (b : B) (children : list nat) : heap * nat :=
  let n := next h in
  let h := Heap (upd (kids h) n children) (upd (par h) n None) (upd (cls h) n c) (upd (body h) n b) (S n) in
  (set_parents h children n, n).

(** The outcome of a method: the heap afterwards, and the exception raised. (for [append], node.py 318-321) *)
Definition outcome := (heap * option exn)%type.

(** slice(i, j).indices(len)[:2], [None] for an absent bound. (for [insert], node.py 330-333) *)
Definition clamp (len : Z) (i : Z) : Z :=
  let i := if (i <? 0)%Z then (i + len)%Z else i in Z.max 0 (Z.min i len).
(** for [set_slice], node.py 352-360 *)
Definition slice_bounds {A} (l : list A) (i j : option Z) : nat * nat :=
  let len := Z.of_nat (List.length l) in
  let a := Z.to_nat (match i with Some i => clamp len i | None => 0 end) in
  let b := Z.to_nat (match j with Some j => clamp len j | None => len end) in
  (a, Nat.max a b).

(** l[a:b] = new. (for [insert], node.py 330-333) *)
Definition splice {A} (l : list A) (a b : nat) (new : list A) : list A := firstn a l ++ new ++ skipn b l.
(** for [take], node.py 345-350 *)
Definition slice {A} (l : list A) (a b : nat) : list A := firstn (b - a) (skipn a l).

(** l[i] with a possibly negative index: the position. (for [set_item], node.py 352-360) *)
Definition position {A} (l : list A) (i : Z) : option nat :=
  let len := Z.of_nat (List.length l) in
  let j := if (i <? 0)%Z then (i + len)%Z else i in
  if ((0 <=? j) && (j <? len))%Z then Some (Z.to_nat j) else None.

(** list.index; nodes compare by identity (node.py 300-306). *)
Fixpoint find_index (n : nat) (l : list nat) : option nat :=
  match l with
  | [] => None
  | x :: r => if Nat.eqb x n then Some O else option_map S (find_index n r)
  end.

(** node.py 318-321. *)
Definition append (h : heap) (p n : nat) : outcome :=
  let h := set_parent h n (Some p) in
  (set_kids h p (kids h p ++ [n]), None).

(** node.py 323-328. *)
Definition extend (h : heap) (p : nat) (ns : list nat) : outcome :=
  let index := List.length (kids h p) in
  let h := set_kids h p (kids h p ++ ns) in
  (set_parents h (skipn index (kids h p)) p, None).

(** node.py 330-333. *)
Definition insert (h : heap) (p : nat) (i : Z) (n : nat) : outcome :=
  let h := set_parent h n (Some p) in
  let l := kids h p in
  let k := Z.to_nat (clamp (Z.of_nat (List.length l)) i) in
  (set_kids h p (splice l k k [n]), None).

(** node.py 352-360, with an index.  The parent is set before an IndexError is raised. *)
Definition set_item (h : heap) (p : nat) (i : Z) (n : nat) : outcome :=
  let h := set_parent h n (Some p) in
  match position (kids h p) i with
  | Some k => (set_kids h p (splice (kids h p) k (S k) [n]), None)
  | None => (h, Some IndexError)
  end.

(** node.py 352-360, with a slice (without a step). *)
Definition set_slice (h : heap) (p : nat) (i j : option Z) (ns : list nat) : outcome :=
  let h := set_parents h ns p in
  let (a, b) := slice_bounds (kids h p) i j in
  (set_kids h p (splice (kids h p) a b ns), None).

(** list.__delitem__. (a method of list, the base class of Node (node.py 147)) *)
Definition del_item (h : heap) (p : nat) (i : Z) : outcome :=
  match position (kids h p) i with
  | Some k => (set_kids h p (splice (kids h p) k (S k) []), None)
  | None => (h, Some IndexError)
  end.
(** a method of list, the base class of Node (node.py 147) *)
Definition del_slice (h : heap) (p : nat) (i j : option Z) : outcome :=
  let (a, b) := slice_bounds (kids h p) i j in
  (set_kids h p (splice (kids h p) a b []), None).

(** node.py 345-350: take; the result and the heap. *)
Definition take (h : heap) (p : nat) (i j : option Z) : list nat * outcome :=
  let (a, b) := slice_bounds (kids h p) i j in
  (slice (kids h p) a b, del_slice h p i j).

(** list.pop, list.remove, list.clear, list.reverse. (a method of list, the base class of Node (node.py 147)) *)
Definition pop (h : heap) (p : nat) (i : Z) : outcome := del_item h p i.
(** a method of list, the base class of Node (node.py 147) *)
Definition remove (h : heap) (p n : nat) : outcome :=
  match find_index n (kids h p) with
  | Some k => (set_kids h p (splice (kids h p) k (S k) []), None)
  | None => (h, Some ValueError)
  end.
(** a method of list, the base class of Node (node.py 147) *)
Definition clear (h : heap) (p : nat) : outcome := (set_kids h p [], None).
(** a method of list, the base class of Node (node.py 147) *)
Definition reverse (h : heap) (p : nat) : outcome := (set_kids h p (rev (kids h p)), None).

(** node.py 335-343. *)
Definition replace_with (h : heap) (self n : nat) : outcome :=
  let h := set_parent h n (Some self) in
  match par h self with
  | None => (h, Some AttributeError)
  | Some p => match find_index self (kids h p) with
              | None => (h, Some ValueError)
              | Some k => set_item h p (Z.of_nat k) n
              end
  end.

(** ** Reading *)

(** node.py 457-462. *)
Fixpoint ancestors (fuel : nat) (h : heap) (n : nat) : res (list nat) :=
  match fuel with
  | O => Err OutOfFuel
  | S fuel => match par h n with
              | None => Ok []
              | Some p => let! r := ancestors fuel h p in Ok (p :: r)
              end
  end.

(** node.py 464-469; p.index(n) raises ValueError if the parent does not list the node
    (anymore).  The whole list is made, while Python stops as soon as the
    consumer stops. *)
Fixpoint with_index (h : heap) (n : nat) (l : list nat) : res (list (nat * nat)) :=
  match l with
  | [] => Ok []
  | p :: r => match find_index n (kids h p) with
              | None => Err ValueError
              | Some i => let! r := with_index h p r in Ok ((p, i) :: r)
              end
  end.
(** node.py 464-469, with [with_index] *)
Definition ancestors_with_index (fuel : nat) (h : heap) (n : nat) : res (list (nat * nat)) :=
  let! l := ancestors fuel h n in with_index h n l.

(** node.py 260-265. *)
Definition root (fuel : nat) (h : heap) (n : nat) : res nat :=
  let! l := ancestors fuel h n in Ok (List.last l n).

(** node.py 267-296. *)
Definition trail (fuel : nat) (h : heap) (n : nat) : res (list nat) :=
  let! l := ancestors_with_index fuel h n in Ok (rev (map snd l)).

(** node.py 387-397. *)
Definition is_root (h : heap) (n : nat) : bool := match par h n with None => true | _ => false end.
(** node.py 387-397, with [is_root] *)
Definition is_first (h : heap) (n : nat) : res bool :=
  match par h n with
  | None => Err TypeError
  | Some p => match kids h p with [] => Err IndexError | x :: _ => Ok (Nat.eqb x n) end
  end.
(** node.py 387-397, with [is_root] *)
Definition is_last (h : heap) (n : nat) : res bool :=
  match par h n with
  | None => Err TypeError
  | Some p => match rev (kids h p) with [] => Err IndexError | x :: _ => Ok (Nat.eqb x n) end
  end.

(** [in] for lists of nodes, node.py 399-415 *)
Definition mem (n : nat) (l : list nat) : bool := existsb (Nat.eqb n) l.

(** node.py 399-415. *)
Definition common_ancestor (fuel : nat) (h : heap) (self other : nat) : res (option nat) :=
  if Nat.eqb other self then Ok (Some self) else
  let! l := ancestors fuel h self in
  if mem other l then Ok (Some other) else
  let! m := ancestors fuel h other in
  Ok (find (fun n => mem n (self :: l)) m).

(** node.py 436-442: the first loop; the trail so far, reversed. *)
Fixpoint up_to (other : nat) (l : list (nat * nat)) (trail : list nat) : option (list nat) :=
  match l with
  | [] => None
  | (n, i) :: r => if Nat.eqb n other then Some (i :: trail) else up_to other r (i :: trail)
  end.

(** node.py 444-454: the second loop; [l] are the ancestors of self with their indices. *)
Fixpoint meet (self : nat) (l m : list (nat * nat)) (trail_other : list nat) : option (nat * list nat * list nat) :=
  match m with
  | [] => None
  | (n, i) :: r =>
      let trail_other := i :: trail_other in
      if Nat.eqb n self then Some (n, [], trail_other) else
      match find_index n (map fst l) with
      | Some k => Some (n, rev (firstn (S k) (map snd l)), trail_other)
      | None => meet self l r trail_other
      end
  end.

(** node.py 417-455; the lists built with append and reversed at the end are kept in
    reverse here. *)
Definition common_ancestor_with_trail (fuel : nat) (h : heap) (self other : nat)
  : res (option (nat * list nat * list nat)) :=
  if Nat.eqb other self then Ok (Some (self, [], [])) else
  let! l := ancestors_with_index fuel h self in
  match up_to other l [] with
  | Some t => Ok (Some (other, t, []))
  | None => let! m := ancestors_with_index fuel h other in Ok (meet self l m [])
  end.

(** *** Generators: node.py 471-494 *)

(** The current iterator, the stack, and the node just yielded. (node.py 471-494) *)
Definition gen_state := (list nat * list (list nat) * option nat)%type.

(** node.py 471-494 *)
Definition order (reverse : bool) (l : list nat) : list nat := if reverse then rev l else l.

(** node.py 471-494 *)
Definition gen_start (h : heap) (reverse : bool) (n : nat) : gen_state := (order reverse (kids h n), [], None).

(** The loop up to the next yield: an exhausted iterator is replaced by the
    last one on the stack. (node.py 471-494) *)
Fixpoint pop_next (gen : list nat) (stack : list (list nat)) : option (nat * gen_state) :=
  match gen with
  | n :: r => Some (n, (r, stack, Some n))
  | [] => match stack with
          | [] => None
          | g :: s => match g with
                      | n :: r => Some (n, (r, s, Some n))
                      | [] => pop_next [] s
                      end
          end
  end.

(** next() is send(None): [answer] is "not False". (node.py 471-494) *)
Definition resume (h : heap) (reverse : bool) (st : gen_state) (answer : bool) : option (nat * gen_state) :=
  let '(gen, stack, pending) := st in
  match pending with
  | Some n => if answer && negb (List.length (kids h n) =? 0)%nat
              then pop_next (order reverse (kids h n)) (gen :: stack)
              else pop_next gen stack
  | None => pop_next gen stack
  end.

(** A consumer that exhausts the generator, and answers False for the nodes in
    [prune].  (A node is yielded at most once, so that any consumer is like
    this.). (node.py 471-494) *)
Fixpoint run (fuel : nat) (h : heap) (reverse : bool) (prune : nat -> bool) (st : gen_state) (answer : bool)
  : res (list nat) :=
  match fuel with
  | O => Err OutOfFuel
  | S fuel => match resume h reverse st answer with
              | None => Ok []
              | Some (n, st) => let! r := run fuel h reverse prune st (negb (prune n)) in Ok (n :: r)
              end
  end.

(** node.py 471-494 *)
Definition descendants (fuel : nat) (h : heap) (reverse : bool) (prune : nat -> bool) (n : nat) : res (list nat) :=
  run fuel h reverse prune (gen_start h reverse n) true.

(** node.py 105-124: filter_descendants on descendants(). [answer] is the value to be
    sent for the node before. *)
Fixpoint filter_loop (fuel : nat) (h : heap) (predicate : nat -> bool) (st : gen_state) (answer : bool)
  : res (list nat) :=
  match fuel with
  | O => Err OutOfFuel
  | S fuel =>
      match resume h false st answer with
      | None => Ok []
      | Some (n, st) =>
          if predicate n
          then let! r := filter_loop fuel h predicate st false in Ok (n :: r)
          else filter_loop fuel h predicate st true
      end
  end.

(** node.py 125-144: filter and instances_of (with the class test as predicate). *)
Definition filter_nodes (fuel : nat) (h : heap) (predicate : nat -> bool) (n : nat) : res (list nat) :=
  filter_loop fuel h predicate (gen_start h false n) true.

(** node.py 496-508. *)
Definition right_siblings (h : heap) (n : nat) : res (list nat) :=
  match par h n with
  | None => Ok []
  | Some p => match find_index n (kids h p) with
              | None => Err ValueError
              | Some i => Ok (skipn (S i) (kids h p))
              end
  end.
(** node.py 496-508, with [right_siblings] *)
Definition left_siblings (h : heap) (n : nat) : res (list nat) :=
  match par h n with
  | None => Ok []
  | Some p => match find_index n (kids h p) with
              | None => Err ValueError
              | Some i => Ok (rev (firstn i (kids h p)))
              end
  end.

(** node.py 510-522; IndexError and ValueError do not occur if the parent lists the node. *)
Definition right_sibling (h : heap) (n : nat) : res (option nat) :=
  match par h n with
  | None => Ok None
  | Some p => match rev (kids h p) with
              | [] => Err IndexError
              | x :: _ => if Nat.eqb x n then Ok None else
                  match find_index n (kids h p) with
                  | None => Err ValueError
                  | Some i => Ok (nth_error (kids h p) (S i))
                  end
              end
  end.
(** node.py 510-522, with [right_sibling] *)
Definition left_sibling (h : heap) (n : nat) : res (option nat) :=
  match par h n with
  | None => Ok None
  | Some p => match kids h p with
              | [] => Err IndexError
              | x :: _ => if Nat.eqb x n then Ok None else
                  match find_index n (kids h p) with
                  | None => Err ValueError
                  | Some i => Ok (nth_error (kids h p) (i - 1))
                  end
              end
  end.

(** node.py 536-539, 553-556: the siblings with their descendants. *)
Fixpoint with_descendants (fuel : nat) (h : heap) (reverse : bool) (prune : nat -> bool) (l : list nat) : res (list nat) :=
  match l with
  | [] => Ok []
  | n :: r =>
      let! d := if negb (prune n) && negb (List.length (kids h n) =? 0)%nat
                then descendants fuel h reverse prune n else Ok [] in
      let! r := with_descendants fuel h reverse prune r in
      Ok (n :: d ++ r)
  end.

(** node.py 524-556 ([reverse] for backward). *)
Definition same (upto : option nat) (n : nat) : bool := match upto with Some u => Nat.eqb n u | None => false end.

(** node.py 524-540 *)
Fixpoint walk (fuel : nat) (h : heap) (reverse : bool) (prune : nat -> bool) (upto : option nat) (n : nat) : res (list nat) :=
  match fuel with
  | O => Err OutOfFuel
  | S fuel' =>
      match par h n with
      | None => Ok []
      | Some p =>
          if same upto n then Ok [] else
          let! s := (if reverse then left_siblings h n else right_siblings h n) in
          let! l := with_descendants fuel h reverse prune s in
          let! r := walk fuel' h reverse prune upto p in
          Ok (l ++ r)
      end
  end.
(** node.py 524-540 *)
Definition forward (fuel : nat) (h : heap) := walk fuel h false.
(** node.py 541-556 *)
Definition backward (fuel : nat) (h : heap) := walk fuel h true.

(** node.py 558-560. *)
Definition depth (fuel : nat) (h : heap) (n : nat) : res nat :=
  let! l := ancestors fuel h n in Ok (List.length l).

(** node.py 562-578: the state is the iterator, the stack and the height so far. *)
Fixpoint height_loop (fuel : nat) (h : heap) (gen : list nat) (stack : list (list nat)) (height : nat) : res nat :=
  match fuel with
  | O => Err OutOfFuel
  | S fuel =>
      match gen with
      | n :: r =>
          match kids h n with
          | [] => height_loop fuel h r stack height
          | ks => let stack := r :: stack in
                  height_loop fuel h ks stack (Nat.max height (List.length stack))
          end
      | [] => match stack with
              | g :: s => height_loop fuel h g s height
              | [] => Ok height
              end
      end
  end.
(** node.py 562-578, with [height_loop] *)
Definition height (fuel : nat) (h : heap) (n : nat) : res nat := height_loop fuel h [n] [] 0.

(** node.py 362-376; [body_equals] (378-385) may be overridden. *)
Fixpoint equals (body_equals : B -> B -> bool) (fuel : nat) (h : heap) (a b : nat) : res bool :=
  match fuel with
  | O => Err OutOfFuel
  | S fuel =>
      if negb (Nat.eqb (cls h a) (cls h b)) then Ok false else
      if negb (List.length (kids h a) =? List.length (kids h b))%nat then Ok false else
      if negb (body_equals (body h a) (body h b)) then Ok false else
      (fix all (l m : list nat) : res bool :=
         match l, m with
         | x :: l, y :: m => let! e := equals body_equals fuel h x y in if e then all l m else Ok false
         | _, _ => Ok true
         end) (kids h a) (kids h b)
  end.

(** node.py 308-316; the attributes in [body] are copied by subclasses. *)
Fixpoint copy (fuel : nat) (h : heap) (n : nat) : res (heap * nat) :=
  match fuel with
  | O => Err OutOfFuel
  | S fuel =>
      let! (h', l) :=
        (fix go (h : heap) (l : list nat) : res (heap * list nat) :=
           match l with
           | [] => Ok (h, [])
           | x :: r => let! (h, y) := copy fuel h x in
                       let! (h, r) := go h r in Ok (h, y :: r)
           end) h (kids h n) in
      Ok (new_node h' (cls h' n) (body h' n) l)
  end.

(** node.py 308-316, with_children=False. *)
Definition copy_node (h : heap) (n : nat) : heap * nat := new_node h (cls h n) (body h n) [].
End Nodes.
Arguments heap : clear implicits.
Arguments outcome : clear implicits.
