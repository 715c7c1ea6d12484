(** Specification of node trees. *)
From Coq Require Import List ZArith Bool PeanoNat Relations Sorting.Sorted.
From Verif Require Import Base Node_Model.
Import ListNotations.

(** [at_path h r p n]: following the indices [p] from [r] leads to [n]. *)
Inductive at_path {B} (h : heap B) : nat -> list nat -> nat -> Prop :=
| at_here n : at_path h n [] n
| at_child r i c p n : nth_error (kids h r) i = Some c -> at_path h c p n -> at_path h r (i :: p) n.

(** [n] is [r] or below it. *)
Definition inside {B} (h : heap B) (r n : nat) : Prop := exists p, at_path h r p n.

Definition listed {B} (h : heap B) (n : nat) : Prop := exists p, In n (kids h p).

(** The integrity of a forest: every child has the node that lists it as
    parent, a node is listed at most once (in one place), no node is inside
    itself; and below every node there are finitely many levels. *)
Record integrity {B} (h : heap B) : Prop := {
  i_parent : forall p c, In c (kids h p) -> par h c = Some p;
  i_once : forall p, NoDup (kids h p);
  i_finite : well_founded (fun c p => In c (kids h p));
  i_fresh : forall n, next h <= n -> kids h n = [] /\ ~ listed h n
}.

Lemma acyclic {B} (h : heap B) : integrity h -> forall n p, at_path h n p n -> p = [].
Proof.
  intros I n. induction (i_finite h I n) as [n _ IH]. intros p A. inversion A as [|? i c q ? E A' ]; subst; [reflexivity|].
  (* the first child is inside itself as well *)
  assert (T : forall x y z q r, at_path h x q y -> at_path h y r z -> at_path h x (q ++ r) z).
  { intros x y z q' r A1. induction A1; cbn; [auto|]. intros A2. econstructor; eauto. }
  assert (C : at_path h c (q ++ [i]) c). { eapply T; [exact A'|]. econstructor; [exact E|constructor]. }
  apply IH in C; [now destruct q|]. now apply nth_error_In in E.
Qed.

Lemma listed_once {B} (h : heap B) p q c : integrity h -> In c (kids h p) -> In c (kids h q) -> p = q.
Proof. intros I P Q. apply (i_parent h I) in P, Q. congruence. Qed.

(** ** Orders on paths *)

(** [a] is a proper prefix of [b]: the node at [a] is an ancestor. *)
Definition above (a b : list nat) : Prop := exists x r, b = a ++ x :: r.

(** At the first difference, the index of [a] is smaller. *)
Definition left_of (a b : list nat) : Prop :=
  exists p i j r s, a = p ++ i :: r /\ b = p ++ j :: s /\ i < j.

(** Document order. *)
Definition before (a b : list nat) : Prop := above a b \/ left_of a b.

(** Two paths that have no step in common. *)
Definition diverge (x y : list nat) : Prop := match x, y with i :: _, j :: _ => i <> j | _, _ => True end.

(** Backwards, but with parents before their children. *)
Definition mirror (a b : list nat) : Prop := above a b \/ left_of b a.

(** The nodes [ys] are, in the order [ord], exactly the nodes inside [n] at the
    paths in [P]. *)
Definition visits {B} (h : heap B) (n : nat) (ord : list nat -> list nat -> Prop) (P : list nat -> Prop) (ys : list nat) : Prop :=
  exists ps, Forall2 (at_path h n) ps ys /\ StronglySorted ord ps /\
    forall p, In p ps <-> P p /\ exists m, at_path h n p m.

(** A path below a pruned node, where the nodes at paths in [Q] are asked. *)
Definition cut {B} (h : heap B) (n : nat) (Q : list nat -> Prop) (prune : nat -> bool) (p : list nat) : Prop :=
  exists q m, above q p /\ Q q /\ at_path h n q m /\ prune m = true.

(** ** Histories of edits *)

Inductive edit {B} :=
| New (c : nat) (b : B) (children : list nat)
| Append (p n : nat) | Extend (p : nat) (ns : list nat) | Insert (p : nat) (i : Z) (n : nat)
| SetItem (p : nat) (i : Z) (n : nat) | SetSlice (p : nat) (i j : option Z) (ns : list nat)
| DelItem (p : nat) (i : Z) | DelSlice (p : nat) (i j : option Z) | Take (p : nat) (i j : option Z)
| Pop (p : nat) (i : Z) | Remove (p n : nat) | Clear (p : nat) | Reverse (p : nat)
| ReplaceWith (self n : nat) | ClearParent (n : nat).
Arguments edit : clear implicits.

Definition perform {B} (h : heap B) (e : edit B) : heap B :=
  match e with
  | New c b l => fst (new_node h c b l)
  | Append p n => fst (append h p n)
  | Extend p ns => fst (extend h p ns)
  | Insert p i n => fst (insert h p i n)
  | SetItem p i n => fst (set_item h p i n)
  | SetSlice p i j ns => fst (set_slice h p i j ns)
  | DelItem p i => fst (del_item h p i)
  | DelSlice p i j => fst (del_slice h p i j)
  | Take p i j => fst (snd (take h p i j))
  | Pop p i => fst (pop h p i)
  | Remove p n => fst (remove h p n)
  | Clear p => fst (clear h p)
  | Reverse p => fst (reverse h p)
  | ReplaceWith s n => fst (replace_with h s n)
  | ClearParent n => set_parent h n None
  end.

(** A node that may be added to [p]: an existing node that is not (or no longer) in
    another node, and does not contain [p]. *)
Definition detached {B} (h : heap B) (n : nat) : Prop := n < next h /\ ~ listed h n.
Definition may_add {B} (h : heap B) (p n : nat) : Prop := detached h n /\ ~ inside h n p.

(** The rules for the user: only existing nodes are used, and only such
    nodes are added, each once; a slice of children may also be replaced by some of the
    same children (as in node[:] = node ^ cls). *)
Definition permitted {B} (h : heap B) (e : edit B) : Prop :=
  match e with
  | New _ _ l => NoDup l /\ forall n, In n l -> detached h n
  | Append p n | Insert p _ n | SetItem p _ n => p < next h /\ may_add h p n
  | Extend p ns => p < next h /\ NoDup ns /\ forall n, In n ns -> may_add h p n
  | SetSlice p i j ns =>
      p < next h /\ NoDup ns /\
      let (a, b) := slice_bounds (kids h p) i j in
      forall n, In n ns -> may_add h p n \/ In n (slice (kids h p) a b)
  | DelItem _ _ | DelSlice _ _ _ | Take _ _ _ | Pop _ _ | Remove _ _ | Clear _ | Reverse _ => True
  | ReplaceWith s n => detached h n /\ (forall p, par h s = Some p -> ~ inside h n p) /\ n <> s
  | ClearParent n => detached h n
  end.

Fixpoint history {B} (h : heap B) (es : list (edit B)) : Prop :=
  match es with [] => True | e :: r => permitted h e /\ history (perform h e) r end.
Definition performs {B} (h : heap B) (es : list (edit B)) : heap B := fold_left perform es h.

(** Before any node exists. *)
Definition empty_heap {B} (b : B) : heap B := Heap (fun _ => []) (fun _ => None) (fun _ => 0) (fun _ => b) 0.

(** ** Equality *)

(** The same structure below [a] in [h] and below [b] in [h']: the same positions, and at
    every position nodes related by [R]. *)
Definition alike {B} (R : nat -> nat -> Prop) (h : heap B) (a : nat) (h' : heap B) (b : nat) : Prop :=
  (forall p, (exists x, at_path h a p x) <-> (exists y, at_path h' b p y)) /\
  (forall p x y, at_path h a p x -> at_path h' b p y -> R x y).

Definition same_node {B} (body_equals : B -> B -> bool) (h h' : heap B) (x y : nat) : Prop :=
  cls h x = cls h' y /\ body_equals (body h x) (body h' y) = true.

(** Everything about the nodes that existed in [h] is the same in [h']. *)
Definition untouched {B} (h h' : heap B) : Prop :=
  forall x, x < next h -> kids h' x = kids h x /\ par h' x = par h x /\ cls h' x = cls h x /\ body h' x = body h x.

(** ** What the edits do to the list of children *)

(** Python's item l[i] and slice l[i:j]: what is before, what is meant and what is after. *)
Definition item (l : list nat) (i : Z) (a : list nat) (x : nat) (b : list nat) : Prop :=
  l = a ++ x :: b /\ (i = Z.of_nat (List.length a) \/ i = Z.of_nat (List.length a) - Z.of_nat (List.length l))%Z.
Definition bound (l : list nat) (i : option Z) (default : nat) : nat :=
  match i with
  | None => default
  | Some i => if (0 <=? i)%Z then Nat.min (Z.to_nat i) (List.length l) else List.length l - Z.to_nat (- i)
  end.
Definition part (l : list nat) (i j : option Z) (a m b : list nat) : Prop :=
  l = a ++ m ++ b /\ List.length a = bound l i 0 /\ List.length m = bound l j (List.length l) - bound l i 0.

(** The node that is edited. *)
Definition target {B} (h : heap B) (e : edit B) : option nat :=
  match e with
  | New _ _ _ => Some (next h)
  | ReplaceWith s _ => par h s
  | ClearParent _ => None
  | Append p _ | Extend p _ | Insert p _ _ | SetItem p _ _ | SetSlice p _ _ _ | DelItem p _ | DelSlice p _ _ | Take p _ _
  | Pop p _ | Remove p _ | Clear p | Reverse p => Some p
  end.

Definition effect {B} (e : edit B) (l l' : list nat) : Prop :=
  match e with
  | New _ _ ns => l' = ns
  | Append _ n => l' = l ++ [n]
  | Extend _ ns => l' = l ++ ns
  | Insert _ i n => exists a b, l = a ++ b /\ List.length a = bound l (Some i) 0 /\ l' = a ++ n :: b
  | SetItem _ i n => (forall a x b, item l i a x b -> l' = a ++ n :: b) /\ ((forall a x b, ~ item l i a x b) -> l' = l)
  | SetSlice _ i j ns => exists a m b, part l i j a m b /\ l' = a ++ ns ++ b
  | DelItem _ i | Pop _ i => (forall a x b, item l i a x b -> l' = a ++ b) /\ ((forall a x b, ~ item l i a x b) -> l' = l)
  | DelSlice _ i j | Take _ i j => exists a m b, part l i j a m b /\ l' = a ++ b
  | Remove _ n => (~ In n l -> l' = l) /\ (forall a b, l = a ++ n :: b -> l' = a ++ b)
  | Clear _ => l' = []
  | Reverse _ => l' = rev l
  | ReplaceWith s n => forall a b, l = a ++ s :: b -> l' = a ++ n :: b
  | ClearParent _ => True
  end.
