(** Specification of rhythm: the durables of a document in order, their effective durations, and the written text as far
    as durations are concerned. *)
From Coq Require Import List ZArith QArith Bool.
From Verif Require Import Base Rhythm_Model.
Import ListNotations.
Open Scope nat_scope.

(** Written as a duration only. *)
Definition duration_only (n : rn) : bool :=
  match n with
  | RN KUnpitched _ _ _ => true
  | RN KLyricItem _ _ kids => forallb (fun c => negb (is_text (kind_of c))) kids
  | _ => false
  end.
(** The duration may be removed: the durable is not only a duration, is not a skip, and has articulations or is not followed by a
    sibling that is only a duration. *)
Definition removable (right : option rn) (n : rn) : bool :=
  negb (is_skip (kind_of n)) && negb (duration_only n) &&
  (existsb (fun c => is_art (kind_of c)) (kids_of n) || match right with Some m => negb (duration_only m) | None => true end).

(** A durable: is it in the selection, its kind, is the duration removable, the line, the Duration children. *)
Record item := Item { i_sel : bool; i_kind : kind; i_free : bool; i_blk : option nat; i_durs : list dnode }.

(** The durables in document order. *)
Fixpoint durables (inr : list nat -> bool) (path : list nat) (right : option rn) (n : rn) : list item :=
  match n with
  | RN k b durs kids =>
      (if is_durable k then [Item (inr path) k (removable right n) b durs] else []) ++
      (fix go (i : nat) (l : list rn) : list item :=
         match l with [] => [] | c :: r => durables inr (path ++ [i]) (hd_error r) c ++ go (S i) r end) 0 kids
  end.
Definition document (inr : list nat -> bool) (t : rn) : list item :=
  durables (fun p => match p with [] => false | _ => inr p end) [] None t.

(** The tree without the durations of the durables. *)
Fixpoint bare (n : rn) : rn :=
  match n with RN k b durs kids => RN k b (if is_durable k then [] else durs) (map bare kids) end.

(** The written duration, and the duration in effect: if not written it is the last written one, not counting skips. *)
Definition written (x : item) : option (Q * Q) := duration_scaling (i_durs x).
Definition now (prev : Q * Q) (x : item) : Q * Q := match written x with Some d => d | None => prev end.
Definition next (prev : Q * Q) (x : item) : Q * Q := if sets_previous (i_kind x) then now prev x else prev.
Fixpoint effective (prev : Q * Q) (l : list item) : list (Q * Q) :=
  match l with [] => [] | x :: r => now prev x :: effective (next prev x) r end.
(** At the start it is a quarter note. *)
Definition quarter : Q * Q := (1 # 4, 1)%Q.
Definition same (a b : Q * Q) : Prop := (fst a == fst b /\ snd a == snd b)%Q.

(** What is selected is contiguous. *)
Definition unselected (l : list item) : Prop := Forall (fun x => i_sel x = false) l.
Definition selected (l : list item) : Prop := Forall (fun x => i_sel x = true) l.
Definition contiguous (l : list item) : Prop := exists a b c, l = a ++ b ++ c /\ unselected a /\ selected b /\ unselected c.

(** Below a durable that has a duration and is not selected (a chord) nothing is selected and has a duration. *)
Fixpoint outside_ok (inr : list nat -> bool) (path : list nat) (n : rn) : Prop :=
  match n with
  | RN k b durs kids =>
      let inside := (fix go (i : nat) (l : list rn) : list item :=
         match l with [] => [] | c :: r => durables inr (path ++ [i]) (hd_error r) c ++ go (S i) r end) 0 kids in
      (inr path = false -> sets_previous k = true -> durs <> [] ->
        Forall (fun x => i_sel x = false /\ i_durs x = []) inside) /\
      (fix go (i : nat) (l : list rn) : Prop := match l with [] => True | c :: r => outside_ok inr (path ++ [i]) c /\ go (S i) r end) 0 kids
  end.
Definition starts_outside_chords (inr : list nat -> bool) (t : rn) : Prop :=
  outside_ok (fun p => match p with [] => false | _ => inr p end) [] t.

(** A \skip with music instead of a duration is not regarded as a durable. *)
Definition sounds (x : item) : bool := negb (is_skip (i_kind x) && match i_durs x with [] => true | _ => false end).
(** At most one duration, with at most one scaling; so it is in every document that is read from text. *)
Definition one_duration (x : item) : Prop := length (i_durs x) <= 1.
Definition plain (x : item) : Prop := length (i_durs x) <= 1 /\ Forall (fun d => length (snd d) <= 1) (i_durs x).
Definition same_written (x y : item) : Prop :=
  match written x, written y with Some d, Some e => same d e | None, None => True | _, _ => False end.

(** The same durable with other durations. *)
Definition same_place (x y : item) : Prop :=
  i_sel x = i_sel y /\ i_kind x = i_kind y /\ i_free x = i_free y /\ i_blk x = i_blk y.
Definition untouched (x y : item) : Prop := i_sel x = false -> x = y.

(** In the selection no duration is written that could be left out because it is the last one written in the selection. *)
Fixpoint tidy (prev : option (Q * Q)) (l : list item) : Prop :=
  match l with
  | [] => True
  | x :: r =>
      (i_sel x = true -> i_free x = true -> forall d p, written x = Some d -> prev = Some p -> ~ same d p) /\
      tidy (if i_sel x && sets_previous (i_kind x) then match written x with Some d => Some d | None => prev end else prev) r
  end.

(** The same with lines: a duration may be left out only on the line where it was last written, and must be left out there. *)
Fixpoint tidy_lines (prev : option ((Q * Q) * option nat)) (l : list item) : Prop :=
  match l with
  | [] => True
  | x :: r =>
      (i_sel x = true -> forall p b, prev = Some (p, b) ->
         match written x with
         | Some d => i_free x = true -> same d p -> b <> i_blk x
         | None => sounds x = true -> i_blk x <> None -> b = i_blk x
         end) /\
      tidy_lines (if i_sel x && sets_previous (i_kind x) then match written x with Some d => Some (d, i_blk x) | None => prev end else prev) r
  end.

(** Every selected HandleDuration node that has a duration gets the transformed one, everything else stays the same. *)
Inductive transformed (tr : Q * Q -> res (Q * Q)) (inr : list nat -> bool) : list nat -> rn -> rn -> Prop :=
| transformed_node path k b durs durs' kids kids' :
    (if inr path && handles k then
       match duration_scaling durs with
       | None => durs' = []
       | Some (d, s) => exists d' s' e, tr (d, s) = Ok (d', s') /\ duration_scaling durs' = Some e /\
            same e (d', match k with KTempo => s | _ => s' end) /\ length durs' = length durs
       end
     else durs' = durs) ->
    length kids' = length kids ->
    (forall i c c', nth_error kids i = Some c -> nth_error kids' i = Some c' -> transformed tr inr (path ++ [i]) c c') ->
    transformed tr inr path (RN k b durs kids) (RN k b durs' kids').

(** ** The written text, as far as durations are concerned *)

(** [Bare] is the end of a durable without duration: a duration that comes directly after it is read as its
    duration.  [Only] is an item that is written as a duration. *)
Inductive token := Bare | Only | Other.
Fixpoint text (n : rn) : list token :=
  match n with
  | RN k _ durs kids =>
      let inner := (fix go (l : list rn) : list token := match l with [] => [] | c :: r => text c ++ go r end) kids in
      let before_articulations :=
        (fix go (l : list rn) : list token := match l with [] => [] | c :: r => (if is_art (kind_of c) then [] else text c) ++ go r end) kids in
      let duration := match durs with [] => Bare | _ => Other end in
      match k with
      | KComment => []
      | KText | KArticulations => [Other]
      | KUnpitched => Only :: inner
      | KDurable | KLyricItem =>
          if duration_only n then Only :: inner
          else Other :: before_articulations ++ duration :: (if existsb (fun c => is_art (kind_of c)) kids then [Other] else [])
      | KSkip | KTempo | KHandle => Other :: (match durs with [] => [] | _ => [Other] end) ++ inner
      | KOther head tail => (if head then [Other] else []) ++ inner ++ (if tail then [Other] else [])
      end
  end.
(** No duration is read as the duration of the durable before it. *)
Fixpoint safe (l : list token) : Prop :=
  match l with
  | [] => True
  | x :: r => match x, r with Bare, Only :: _ => False | _, _ => True end /\ safe r
  end.

(** Writes something. *)
Definition visible (n : rn) : bool := match kind_of n with KComment => false | KOther head _ => head | _ => true end.
(** Every durable is followed by a sibling that writes something, or by the tail of its parent. *)
Fixpoint followed (tail : bool) (l : list rn) : Prop :=
  match l with
  | [] => True
  | c :: r => (is_durable (kind_of c) = true -> match r with [] => tail = true | m :: _ => visible m = true end) /\ followed tail r
  end.
Fixpoint walled (n : rn) : Prop :=
  match n with
  | RN k _ _ kids =>
      (match k with
       | KDurable | KUnpitched | KLyricItem => Forall (fun c => is_durable (kind_of c) = false) kids
       | KOther _ tail => followed tail kids
       | _ => followed false kids
       end) /\
      (fix go (l : list rn) : Prop := match l with [] => True | c :: r => walled c /\ go r end) kids
  end.

(** The node at a path, and: no Duration in the tree has more than one scaling. *)
Fixpoint node_at (n : rn) (path : list nat) : option rn :=
  match path with [] => Some n | i :: p => match nth_error (kids_of n) i with Some c => node_at c p | None => None end end.
Definition one_scaling (t : rn) : Prop := forall path n d, node_at t path = Some n -> In d (durs_of n) -> length (snd d) <= 1.

(** Pasting: the duration for the i-th durable (None if there is no more), and the last one pasted before it. *)
Definition pasted (ds : list (option (Q * Q))) (cycle : bool) (i : nat) : option (option (Q * Q)) :=
  match ds with [] => None | _ => if cycle then Some (nth (i mod length ds) ds None) else nth_error ds i end.
Fixpoint last_pasted (ds : list (option (Q * Q))) (cycle : bool) (i : nat) : option (Q * Q) :=
  match i with
  | 0 => None
  | S j => match pasted ds cycle j with Some (Some d) => Some d | _ => last_pasted ds cycle j end
  end.
