(** Specification that joins rhythm.py and time.py: the time tree (Time_Model) of a document that is edited (Rhythm_Model). *)
From Coq Require Import List ZArith QArith Bool.
From Verif Require Import Base Duration_Model Time_Model Time_Spec.
From Verif Require Rhythm_Model Rhythm_Spec Getter_Model Getter_Spec.
Import ListNotations.
Open Scope nat_scope.

(** Notes, rests, chords etc.: what is inside them takes no time of its own. *)
Definition is_event (k : kind) : bool := match k with Note _ _ | Durable _ _ | Chord _ _ => true | _ => false end.
(** The classes that have a duration, with another duration. *)
Definition with_duration (k : kind) (d s : Q) : option kind :=
  match k with
  | Note _ _ => Some (Note d s)
  | Durable _ _ => Some (Durable d s)
  | Chord _ _ => Some (Chord d s)
  | Skip _ _ => Some (Skip d s)
  | _ => None
  end.
Definition duration_in (k : kind) : list (Q * Q) :=
  match k with Note d s | Durable d s | Chord d s | Skip d s => [(d, s)] | _ => [] end.
(** The durations in a tree, in document order, not those inside chords. *)
Fixpoint durations_of (m : mn) : list (Q * Q) :=
  match m with MN k _ _ kids => duration_in k ++ if is_event k then [] else flat_map durations_of kids end.

(** The tree with other durations, taken from a list in document order; and what is left of the list.  Chords stay the same inside. *)
Fixpoint play (m : mn) (ds : list (Q * Q)) : mn * list (Q * Q) :=
  match m with
  | MN k tr v kids =>
      let event := is_event k in
      let (k, ds) := match ds with (d, s) :: r => match with_duration k d s with Some k => (k, r) | None => (k, ds) end | [] => (k, ds) end in
      if event then (MN k tr v kids, ds) else
      let (kids, ds) := (fix go (l : list mn) (ds : list (Q * Q)) : list mn * list (Q * Q) :=
        match l with [] => ([], ds) | c :: r => let (c, ds) := play c ds in let (r, ds) := go r ds in (c :: r, ds) end) kids ds in
      (MN k tr v kids, ds)
  end.

(** The durables in the other tree that set the previous duration. *)
Definition event_class (k : Rhythm_Model.kind) : bool :=
  match k with Rhythm_Model.KDurable | Rhythm_Model.KUnpitched | Rhythm_Model.KLyricItem => true | _ => false end.
(** Both are trees of the same document: the durables are the same.  The Duration children are kept apart in the one and are among
    the children in the other; time.py looks at them only for a \skip, so only there they must be the same. *)
Inductive same_document : Rhythm_Model.rn -> mn -> Prop :=
| same_event rk b durs rkids k tr v kids : event_class rk = true -> is_event k = true -> same_document (Rhythm_Model.RN rk b durs rkids) (MN k tr v kids)
| same_skip b durs rkids d s tr v kids : (durs <> [] <-> exists n, In n kids /\ kind_of n = Duration) -> same_documents rkids kids ->
    same_document (Rhythm_Model.RN Rhythm_Model.KSkip b durs rkids) (MN (Skip d s) tr v kids)
| same_other rk b durs rkids k tr v kids : event_class rk = false -> rk <> Rhythm_Model.KSkip -> duration_in k = [] -> same_documents rkids kids ->
    same_document (Rhythm_Model.RN rk b durs rkids) (MN k tr v kids)
with same_documents : list Rhythm_Model.rn -> list mn -> Prop :=
| same_nil : same_documents [] []
| same_duration tr v rkids kids : same_documents rkids kids -> same_documents rkids (MN Duration tr v [] :: kids)
| same_child r m rkids kids : same_document r m -> same_documents rkids kids -> same_documents (r :: rkids) (m :: kids).

(** The places of the durables that are not inside another one that may have a duration, in document order. *)
Fixpoint outermost (p : list nat) (n : Rhythm_Model.rn) : list (list nat) :=
  match n with
  | Rhythm_Model.RN k _ _ kids =>
      let inside := (fix go (i : nat) (l : list Rhythm_Model.rn) : list (list nat) := match l with [] => [] | c :: r => outermost (p ++ [i]) c ++ go (S i) r end) 0 kids in
      if event_class k then [p] else match k with Rhythm_Model.KSkip => p :: inside | _ => inside end
  end.
(** What duration_getter() should return for them: the written duration or the one that previous_duration() finds. *)
Definition heard (t : Rhythm_Model.rn) : list (Q * Q) :=
  map (fun p => match Getter_Spec.effective t p with Some d => d | None => Rhythm_Spec.quarter end) (outermost [] t).
(** The music with the durations of the document. *)
Definition score (t : Rhythm_Model.rn) (m : mn) : mn := fst (play m (heard t)).

(** No durations are written inside a chord: inside a durable that sets the previous duration. *)
Definition no_durations_in_chords (t : Rhythm_Model.rn) : Prop := forall p q n c,
  Getter_Model.node_at t p = Some n -> event_class (Rhythm_Model.kind_of n) = true ->
  q <> [] -> Getter_Model.node_at n q = Some c -> Rhythm_Model.durs_of c = [].

(** The place is not inside a note, rest or chord. *)
Definition outside_events (m : mn) (p : list nat) : Prop := forall q r n, p = q ++ r -> r <> [] -> node_at m q = Some n -> is_event (kind_of n) = false.

(** Positions multiplied by f, or the same exception. *)
Definition same_position (f : Q) (a b : res (list nat * Q)) : Prop :=
  match a, b with Ok (p, x), Ok (q, y) => p = q /\ (x == f * y)%Q | Err e, Err e' => e = e' | _, _ => False end.

(** There are no references in the music. *)
Inductive no_references : mn -> Prop :=
| no_references_node k tr kids : k <> Reference -> (forall c, In c kids -> no_references c) -> no_references (MN k tr None kids).

(** No durable has the default duration. *)
Definition begins_written (t : Rhythm_Model.rn) : Prop := forall p n, In p (outermost [] t) -> Getter_Model.node_at t p = Some n ->
  Rhythm_Model.durs_of n <> [] \/
  exists q c, In (q, c) (Getter_Model.backward t p) /\ Rhythm_Model.durs_of c <> [] /\ event_class (Rhythm_Model.kind_of c) = true.
