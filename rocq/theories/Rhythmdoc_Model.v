(** Documents of elements whose durations are edited: the nodes that rhythm.py
    sees in them and what its edits do to the elements. *)
From Coq Require Import List ZArith QArith Bool.
From Verif Require Import Base Element_Model Duration_Model Heads_Model Rhythm_Model.
Import ListNotations.
Open Scope nat_scope.

(** A Duration element (lily.py 1692-1771) with its value, and its
    DurationScaling children (lily.py 1785) with theirs, which have no children. *)
Definition ddur := (attrs * Q * list (attrs * Q))%type.

(** An element (element.py 150-176): its class and its line as in [rn], its
    attributes, the place of the Duration children among the others, the
    Duration children and the other children.  Simplification: the Duration
    children are next to each other. *)
Inductive rdoc := RD (k : kind) (blk : option nat) (a : attrs) (at_ : nat) (durs : list ddur) (kids : list rdoc).

(** The values of a Duration (lily.py 1761-1771). *)
Definition dvalue (d : ddur) : dnode := (snd (fst d), map snd (snd d)).

(** The document as rhythm.py 41-81 sees it. *)
Fixpoint rhythm (d : rdoc) : rn :=
  match d with RD k b _ _ durs kids => RN k b (map dvalue durs) (map rhythm kids) end.

(** The element of a DurationScaling (lily.py 1785). *)
Definition scaling_element (s : attrs * Q) : elem := E (fst s) [].
(** The element of a Duration with its children (lily.py 1692). *)
Definition duration_element (d : ddur) : elem := E (fst (fst d)) (map scaling_element (snd d)).

(** The elements themselves (element.py 150-176). *)
Fixpoint relements (d : rdoc) : elem :=
  match d with
  | RD _ _ a n durs kids =>
      E a (firstn n (map relements kids) ++ map duration_element durs ++ skipn n (map relements kids))
  end.

(** The DurationScaling nodes that stay when all are removed from the list that is
    iterated over (lily.py 152, 159-160); as [remove_all], for the elements. *)
Fixpoint remove_each {A} (l : list A) : list A :=
  match l with [] | [_] => [] | _ :: y :: r => y :: remove_each r end.

(** What the removal of a duration (lily.py 121-125) or of its scalings (lily.py
    148-170) does to the elements; [ds] are the durations after it. *)
Definition take_away (durs : list ddur) (ds : list dnode) : list ddur :=
  if length ds <? length durs then tl durs
  else match durs, ds with
       | (a, h, s) :: r, (_, s') :: _ => if length s' <? length s then (a, h, remove_each s) :: r else durs
       | _, _ => durs
       end.

(** The document after the removals that lead to the nodes [t] (rhythm.py 84-140). *)
Fixpoint rredo (d : rdoc) (t : rn) {struct d} : rdoc :=
  match d with
  | RD k b a n durs kids =>
      RD k b a n (take_away durs (durs_of t))
        ((fix go (l : list rdoc) (ts : list rn) : list rdoc :=
            match l, ts with x :: l, t :: ts => rredo x t :: go l ts | _, _ => [] end) kids (kids_of t))
  end.

(** element.py 478-482, the head setter: the value, and what write_head gives for it. *)
Definition set_value (a : attrs) (old new : Q) (text : res str) : attrs :=
  if Qeq_bool new old then a
  else Attrs (a_kind a) (a_id a) text (a_tail a) (a_head_origin a) (a_tail_origin a) true (a_tail_modified a)
    (a_before a) (a_after_head a) (a_between a) (a_before_tail a) (a_after a).

(** A new element with a value (lily.py 1713-1716, 1795-1798); [id] stands for its type. *)
Definition new_value (id : nat) (text : res str) : attrs := Attrs Head id text [] None None false false [] [] [] [] [].

(** A new DurationScaling (lily.py 1795-1812). *)
Definition new_scaling (scaling_id : nat) (v : Q) : attrs * Q := (new_value scaling_id (Ok (scaling_write v)), v).
(** A new Duration, or a copy of one with its scalings (lily.py 1743-1759, rhythm.py 124, element.py 915-923). *)
Definition new_duration (duration_id scaling_id : nat) (d : dnode) : ddur :=
  (new_value duration_id (Duration_Model.to_string (fst d)), fst d, map (new_scaling scaling_id) (snd d)).

(** The scaling setter (lily.py 148-166) for a Duration with at most one
    DurationScaling, as they are when they were read (lily.py 1799-1806); [s] are the scalings after it. *)
Definition put_scaling (scaling_id : nat) (old : list (attrs * Q)) (s : list Q) : list (attrs * Q) :=
  match old, s with
  | _, [] => []
  | [], v :: _ => [new_scaling scaling_id v]
  | (a, q) :: _, v :: _ => [(set_value a q v (Ok (scaling_write v)), v)]
  end.

(** The duration and duration_scaling setters (lily.py 108-125, 182-191) and
    rhythm.py 124; [ds] are the durations after it. *)
Definition put_duration (duration_id scaling_id : nat) (durs : list ddur) (ds : list dnode) : list ddur :=
  if length ds <? length durs then tl durs
  else match durs, ds with
       | [], d :: _ => [new_duration duration_id scaling_id d]
       | (a, h, s) :: r, (h', s') :: _ => (set_value a h h' (Duration_Model.to_string h'), h', put_scaling scaling_id s s') :: r
       | _, [] => durs
       end.

(** The document after edits that lead to the nodes [t] (rhythm.py 84-305).
    A new Duration comes at the place of Durations among the children (element.py 719-739). *)
Fixpoint rset (duration_id scaling_id : nat) (d : rdoc) (t : rn) {struct d} : rdoc :=
  match d with
  | RD k b a n durs kids =>
      RD k b a n (put_duration duration_id scaling_id durs (durs_of t))
        ((fix go (l : list rdoc) (ts : list rn) : list rdoc :=
            match l, ts with x :: l, t :: ts => rset duration_id scaling_id x t :: go l ts | _, _ => [] end) kids (kids_of t))
  end.
