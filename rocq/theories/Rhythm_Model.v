(** Model of quickly/rhythm.py and of the duration attributes of quickly/dom/lily.py. *)
From Coq Require Import List ZArith QArith Bool.
From Verif Require Import Base Duration_Model.
Import ListNotations.
Open Scope nat_scope.

(** The element classes of dom/lily.py, as far as the code looks at them: Durable (194-203) and
    its subclasses Unpitched (1518), Skip (1562) and LyricItem (1815); [KDurable] is any
    other Durable, like Note, Chord, Rest, Space, LyricText.  [KText] is a Scheme, String,
    Symbol or Markup (1828), [KTempo] a Tempo (2082) and [KHandle] any other HandleDuration that is
    not a Durable (After, Partial, Tuplet).  [KOther] is any other element, and says if it writes a
    head and a tail. *)
Inductive kind :=
| KDurable | KUnpitched | KSkip | KLyricItem
| KText | KArticulations | KTempo | KHandle | KComment | KOther (head tail : bool).

(** A Duration element (dom/lily.py 1692): the head and the heads of the DurationScaling children (1785). *)
Definition dnode := (Q * list Q)%type.

(** An element: its class, the line it is on in the document (None if not known: edit.py 74-79
    find_block), the Duration children, and the other children.  Simplification: Duration children are
    kept apart from the others, their place among them is not modelled (a Duration is
    never the right sibling of a Durable). *)
Inductive rn := RN (k : kind) (blk : option nat) (durs : list dnode) (kids : list rn).
(** dom/element.py 150-176 *)
Definition kind_of (n : rn) := match n with RN k _ _ _ => k end.
(** dom/element.py 150-176 *)
Definition blk_of (n : rn) := match n with RN _ b _ _ => b end.
(** dom/element.py 150-176 *)
Definition durs_of (n : rn) := match n with RN _ _ d _ => d end.
(** dom/element.py 150-176 *)
Definition kids_of (n : rn) := match n with RN _ _ _ c => c end.

(** [isinstance(n, lily.Durable)]. (for [sets_previous], lily.py 94, 203, 1581) *)
Definition is_durable (k : kind) : bool := match k with KDurable | KUnpitched | KSkip | KLyricItem => true | _ => false end.
(** [isinstance(n, lily.HandleDuration)]. (for [p_transform], rhythm.py 217-230) *)
Definition handles (k : kind) : bool := is_durable k || match k with KTempo | KHandle => true | _ => false end.
(** for [duration_required], lily.py 93, 202, 1520, 1580, 1826-1828 *)
Definition is_text (k : kind) : bool := match k with KText => true | _ => false end.
(** for [may_remove], rhythm.py 52-75 *)
Definition is_art (k : kind) : bool := match k with KArticulations => true | _ => false end.
(** for [sets_previous], lily.py 94, 203, 1581 *)
Definition is_skip (k : kind) : bool := match k with KSkip => true | _ => false end.

(** lily.py 94, 203, 1581: duration_sets_previous *)
Definition sets_previous (k : kind) : bool := is_durable k && negb (is_skip k).
(** lily.py 93, 202, 1520, 1580, 1826-1828: duration_required *)
Definition duration_required (n : rn) : bool :=
  match kind_of n with
  | KUnpitched | KSkip => true
  | KLyricItem => negb (existsb (fun c => is_text (kind_of c)) (kids_of n))
  | _ => false
  end.

(** ** The duration attributes, lily.py 96-191 *)

(** dom/lily.py 1761-1771 Duration.duration *)
Definition dur_value (d : dnode) : Q * Q := (fst d, fold_left Qmult (snd d) 1%Q).
(** dom/lily.py 1743-1759 Duration.from_duration *)
Definition from_duration (duration scaling : Q) : dnode := (duration, if Qeq_bool scaling 1 then [] else [scaling]).
(** dom/lily.py 172-180 duration_scaling *)
Definition duration_scaling (durs : list dnode) : option (Q * Q) :=
  match durs with [] => None | d :: _ => Some (dur_value d) end.
(** dom/lily.py 108-119 duration.setter.  The values are exact fractions (or integers), so limit_denominator does nothing. *)
Definition set_duration (value : option Q) (durs : list dnode) : list dnode :=
  match durs, value with
  | _ :: r, None => r
  | (_, s) :: r, Some v => (v, s) :: r
  | [], Some v => [(v, [])]
  | [], None => []
  end.
(** dom/lily.py 121-125 duration.deleter *)
Definition del_duration (durs : list dnode) : list dnode := match durs with [] => [] | _ :: r => r end.
(** dom/lily.py 152, 159-160: removing items from the list that is iterated over: the item after a removed one is skipped. *)
Fixpoint remove_all (l : list Q) : list Q :=
  match l with [] | [_] => [] | _ :: y :: r => y :: remove_all r end.
(** [value in (1, None)]. (for [set_scaling], dom/lily.py 148-166) *)
Definition one_or_none (value : option Q) : bool := match value with None => true | Some v => Qeq_bool v 1 end.
(** dom/lily.py 148-166 scaling.setter *)
Definition set_scaling (value : option Q) (durs : list dnode) : res (list dnode) :=
  match durs with
  | (h, s :: l) :: r =>
      if one_or_none value then Ok ((h, remove_all (s :: l)) :: r)
      else Ok ((h, (match value with Some v => v | None => s end) :: remove_all l) :: r)
  | (h, []) :: r => if one_or_none value then Ok durs else Ok ((h, match value with Some v => [v] | None => [] end) :: r)
  | [] => if one_or_none value then Ok [] else Err ValueError
  end.
(** dom/lily.py 168-170 scaling.deleter *)
Definition del_scaling (durs : list dnode) : res (list dnode) := set_scaling None durs.
(** dom/lily.py 127-146 scaling *)
Definition scaling (durs : list dnode) : option Q := option_map snd (duration_scaling durs).
(** dom/lily.py 182-187 duration_scaling.setter *)
Definition set_duration_scaling (value : option (Q * Q)) (durs : list dnode) : res (list dnode) :=
  match value with
  | Some (d, s) => set_scaling (Some s) (set_duration (Some d) durs)
  | None => Ok (del_duration durs)
  end.

(** ** Going back, node.py 541-556 *)

(** The node and its descendants, reversed. (for [visit], rhythm.py 77-81) *)
Fixpoint bwd (n : rn) : list rn :=
  n :: (fix go (l : list rn) : list rn := match l with [] => [] | c :: r => go r ++ bwd c end) (kids_of n).

(** lily.py 3363-3366: the first Durable that sets the previous duration and has a duration. *)
Definition search (before : list rn) : option (Q * Q) :=
  match find (fun n => sets_previous (kind_of n) && match durs_of n with [] => false | _ => true end) before with
  | Some n => duration_scaling (durs_of n)
  | None => None
  end.
(** lily.py 3347-3367 previous_duration, for a node that has [before] when going back. *)
Definition previous_duration (before : list rn) : Q * Q :=
  match search before with Some d => d | None => (1 # 4, 1)%Q end.

(** ** Editing, rhythm.py *)

(** rhythm.py 41-50 durables: is the node yielded *)
Definition yielded (n : rn) : bool :=
  is_durable (kind_of n) && negb (is_skip (kind_of n) && match durs_of n with [] => true | _ => false end).

(** rhythm.py 52-75 may_remove *)
Definition may_remove (right : option rn) (n : rn) : bool :=
  if duration_required n then false
  else if existsb (fun c => is_art (kind_of c)) (kids_of n) then true
  else match right with
       | Some m => match kind_of m with KUnpitched => false | KLyricItem => negb (duration_required m) | _ => true end
       | None => true
       end.

(** What an edit does with a node: it gets the right sibling, the nodes before it (going
    back) and the node, and returns the new Duration children. (for [visit], rhythm.py 77-81) *)
Definition process S := option rn -> list rn -> rn -> S -> res (S * list dnode).

(** rhythm.py 77-81 (and 222, 262, 298): the nodes of a range in document order, each followed by its children.
    [inr] tells which paths are in the range.  *)
Fixpoint visit {S} (f : process S) (inr : list nat -> bool) (path : list nat) (right : option rn) (before : list rn) (st : S) (n : rn)
  : res (S * rn) :=
  match n with
  | RN k b durs kids =>
      let! (st, durs) := (if inr path then f right before n st else Ok (st, durs)) in
      let! (st, kids) :=
        (fix go (i : nat) (before : list rn) (st : S) (l : list rn) : res (S * list rn) :=
           match l with
           | [] => Ok (st, [])
           | c :: r =>
               let! (st, c) := visit f inr (path ++ [i]) (hd_error r) before st c in
               let! (st, r) := go (Datatypes.S i) (bwd c ++ before) st r in
               Ok (st, c :: r)
           end) 0 before st kids in
      Ok (st, RN k b durs kids)
  end.
(** The root of the document is not in any range. (rhythm.py 77-81) *)
Definition edit {S} (f : process S) (inr : list nat -> bool) (st : S) (t : rn) : res (S * rn) :=
  visit f (fun p => match p with [] => false | _ => inr p end) [] None [] st t.

(** Only the Durables, 80. (for [p_remove], rhythm.py 93-98) *)
Definition on_durables {S} (f : process S) : process S :=
  fun right before n st => if yielded n then f right before n st else Ok (st, durs_of n).

(** rhythm.py 93-98 Remove *)
Definition p_remove : process unit := on_durables (fun right _ n st =>
  Ok (st, if may_remove right n then del_duration (durs_of n) else durs_of n)).
(** rhythm.py 101-105 RemoveScaling *)
Definition p_remove_scaling : process unit := on_durables (fun _ _ n st =>
  let! d := del_scaling (durs_of n) in Ok (st, d)).
(** rhythm.py 108-114 RemoveFractionScaling *)
Definition p_remove_fraction_scaling : process unit := on_durables (fun _ _ n st =>
  match scaling (durs_of n) with
  | Some s => if negb (Qeq_bool (inject_Z (Z.quot (Qnum s) (Zpos (Qden s)))) s) then let! d := del_scaling (durs_of n) in Ok (st, d) else Ok (st, durs_of n)
  | None => Ok (st, durs_of n)
  end).
(** rhythm.py 117-127 RhythmExplicit *)
Definition p_explicit : process (option dnode) := on_durables (fun _ before n prev =>
  match durs_of n with
  | [] =>
      let p := match prev with
               | Some p => p
               | None => let (d, s) := previous_duration before in from_duration d s
               end in
      Ok (Some p, [p])
  | d :: _ => Ok (if sets_previous (kind_of n) then Some d else prev, durs_of n)
  end).
(** Equality of (duration, scaling) tuples, and of None. (for [p_implicit_line], rhythm.py 143-167) *)
Definition dur_eqb (a b : Q * Q) : bool := Qeq_bool (fst a) (fst b) && Qeq_bool (snd a) (snd b).
(** for [p_implicit], rhythm.py 130-140 *)
Definition is_prev (dur : Q * Q) (prev : option (Q * Q)) : bool := match prev with Some p => dur_eqb dur p | None => false end.
(** rhythm.py 130-140 RhythmImplicit *)
Definition p_implicit : process (option (Q * Q)) := on_durables (fun right _ n prev =>
  match duration_scaling (durs_of n) with
  | Some dur =>
      if is_prev dur prev && may_remove right n then Ok (prev, del_duration (durs_of n))
      else if sets_previous (kind_of n) then Ok (Some dur, durs_of n)
      else Ok (prev, durs_of n)
  | None => Ok (prev, durs_of n)
  end).
(** rhythm.py 152-167 *)
Definition blk_eqb (a b : option nat) : bool :=
  match a, b with Some a, Some b => Nat.eqb a b | None, None => true | _, _ => false end.
(** rhythm.py 143-167 RhythmImplicitPerLine *)
Definition p_implicit_line : process (option ((Q * Q) * option nat)) := on_durables (fun right _ n prev =>
  let block := blk_of n in
  match duration_scaling (durs_of n) with
  | Some dur =>
      if match prev with Some (p, b) => dur_eqb dur p && blk_eqb block b | None => false end && may_remove right n
      then Ok (prev, del_duration (durs_of n))
      else if sets_previous (kind_of n) then Ok (Some (dur, block), durs_of n)
      else Ok (prev, durs_of n)
  | None =>
      match block, prev with
      | Some _, Some (p, b) =>
          if negb (blk_eqb b block) then let! d := set_duration_scaling (Some p) (durs_of n) in Ok (Some (p, block), d)
          else Ok (prev, durs_of n)
      | _, _ => Ok (prev, durs_of n)
      end
  end).
(** rhythm.py 217-230 RhythmTransform *)
Definition p_transform (t : transform) : process unit := fun _ _ n st =>
  if handles (kind_of n) then
    match duration_scaling (durs_of n) with
    | Some (d, s) =>
        let! (d, s) := transform_apply t d s in
        match kind_of n with
        | KTempo => Ok (st, set_duration (Some d) (durs_of n))
        | _ => let! l := set_duration_scaling (Some (d, s)) (durs_of n) in Ok (st, l)
        end
    | None => Ok (st, durs_of n)
    end
  else Ok (st, durs_of n).
(** rhythm.py 254-270 CopyRhythm, not explicit: the state is the list so far *)
Definition p_copy : process (list (option (Q * Q))) := on_durables (fun _ _ n out =>
  Ok (out ++ [duration_scaling (durs_of n)], durs_of n)).
(** rhythm.py 259-269 CopyRhythm, explicit *)
Definition p_copy_explicit : process (list (Q * Q) * option (Q * Q)) := on_durables (fun _ before n '(out, prev) =>
  let prev := match duration_scaling (durs_of n) with
              | Some dur => dur
              | None => match prev with Some p => p | None => previous_duration before end
              end in
  Ok ((out ++ [prev], Some prev), durs_of n)).
(** rhythm.py 273-305 PasteRhythm: the state is the number of durables so far and prev. *)
Definition p_paste (durations : list (option (Q * Q))) (cycle : bool) : process (nat * option (Q * Q)) := on_durables (fun right _ n '(i, prev) =>
  let duration := match durations with
                  | [] => None
                  | _ => nth_error durations (if cycle then i mod length durations else i)
                  end in
  match duration with
  | None => Ok ((i, prev), durs_of n)
  | Some (Some d) => let! l := set_duration_scaling (Some d) (durs_of n) in Ok ((S i, Some d), l)
  | Some None =>
      if may_remove right n then Ok ((S i, prev), del_duration (durs_of n))
      else match prev with
           | Some p => let! l := set_duration_scaling (Some p) (durs_of n) in Ok ((S i, prev), l)
           | None => Ok ((S i, prev), durs_of n)
           end
  end).

(** rhythm.py 308-418 the functions *)
Definition remove inr t := let! (_, t) := edit p_remove inr tt t in Ok t.
(** rhythm.py 320-322 *)
Definition remove_scaling inr t := let! (_, t) := edit p_remove_scaling inr tt t in Ok t.
(** rhythm.py 325-328 *)
Definition remove_fraction_scaling inr t := let! (_, t) := edit p_remove_fraction_scaling inr tt t in Ok t.
(** rhythm.py 331-333 *)
Definition explicit inr t := let! (_, t) := edit p_explicit inr None t in Ok t.
(** rhythm.py 336-363 *)
Definition implicit inr (per_line : bool) t :=
  if per_line then let! (_, t) := edit p_implicit_line inr None t in Ok t
  else let! (_, t) := edit p_implicit inr None t in Ok t.
(** rhythm.py 366-385 *)
Definition rtransform inr tr t := let! (_, t) := edit (p_transform tr) inr tt t in Ok t.
(** rhythm.py 388-397 *)
Definition copy inr t := let! (l, _) := edit p_copy inr [] t in Ok l.
(** rhythm.py 388-397 *)
Definition copy_explicit inr t := let! (s, _) := edit p_copy_explicit inr ([], None) t in Ok (fst s).
(** rhythm.py 400-418 *)
Definition paste inr durations cycle t := let! (_, t) := edit (p_paste durations cycle) inr (0, None) t in Ok t.
