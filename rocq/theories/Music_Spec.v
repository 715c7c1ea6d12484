(** Specification of reading music: what a stream of LilyPond music consists of, and the elements that it stands for. *)
From Coq Require Import List Bool PeanoNat.
From Verif Require Import Base Music_Model.
Import ListNotations.
Open Scope nat_scope.

(** ** Tokens *)
(** The tokens of an element in the order of the text. *)
Fixpoint toks (t : tree) : list nat := match t with N _ h kids tl => h ++ flat_map toks kids ++ tl end.
Definition opt_toks (o : option tree) : list nat := match o with Some t => toks t | None => [] end.
(** The tokens of an item. *)
Definition item_toks (i : item) : list nat :=
  match i with
  | TMusic _ h => h
  | TPitch _ h | TRest h | TEvent _ h | TDur h | TUnknown h => [h]
  | TArt t | TChordMod t | TNumber t | TFloat t | TAssign t | CMusic t | CArg t | CRef t | CComment t => toks t
  | TOut l | CModifier l | CFlatten l | CPitch l | CMarkup l => flat_map toks l
  | CDuration d s => d ++ opt_toks s
  end.

(** ** The parts of music *)
Definition comment (t : tree) : Prop := kind_of t = KComment.
(** The last thing in the element is not a comment. *)
Inductive quiet : tree -> Prop :=
| quiet_leaf k h tl : k <> KComment -> quiet (N k h [] tl)
| quiet_last k h kids t tl : k <> KComment -> quiet t -> quiet (N k h (kids ++ [t]) tl).

(** A command with its arguments, before an articulation or before the next note: a tweak, tag, shape or spanner id, or a direction. *)
Inductive arg := AObject (t : tree) (* a string, Scheme or list *) | ANumber (t : tree) (* a number or symbol *) | AFloat (t : tree) | APitch (token : nat).
Record event := { ev_kind : kind; ev_token : nat; ev_args : list arg }.
Definition arg_tree (a : arg) : tree := match a with AObject t | ANumber t | AFloat t => t | APitch h => N KSymbol [h] [] [] end.
Definition arg_item (a : arg) : item := match a with AObject t => CArg t | ANumber t => TNumber t | AFloat t => TFloat t | APitch h => TPitch KNote h end.
Definition event_items (e : event) : list item := TEvent (ev_kind e) (ev_token e) :: map arg_item (ev_args e).
Definition event_tree (e : event) (more : list tree) : tree := N (ev_kind e) [ev_token e] (map arg_tree (ev_args e) ++ more) [].
(** a complete command of those: it has its arguments *)
Definition event_ok (e : event) : Prop :=
  match ev_kind e with
  | KDirection => ev_args e = []
  | KSpannerId => exists t, ev_args e = [AObject t] \/ ev_args e = [ANumber t]
  | KTag => exists t, ev_args e = [AObject t]
  | KTweak => length (ev_args e) = 2
  | KShape | KVShape => exists t u, ev_args e = [AObject t; AObject u]
  | _ => False
  end.
Definition for_next_note (e : event) : Prop := ev_kind e = KTweak \/ ev_kind e = KTag \/ ev_kind e = KShape \/ ev_kind e = KVShape.

(** An articulation: commands, and then a script, dynamic, slur ...; or, if there is a command, a string, markup or identifier. *)
Inductive abody := BScript (t : tree) | BString (t : tree) | BMarkup (t : tree) | BRef (t : tree).
Definition body_tree (b : abody) : tree := match b with BScript t | BString t | BMarkup t | BRef t => t end.
Definition body_item (b : abody) : item := match b with BScript t => TArt t | BString t => CArg t | BMarkup t => CMarkup [t] | BRef t => CRef t end.
Record articulation := { ar_events : list event; ar_body : abody }.
Definition articulation_items (a : articulation) : list item := flat_map event_items (ar_events a) ++ [body_item (ar_body a)].
(** every command has the next one as its last child *)
Definition articulation_tree (a : articulation) : tree := fold_right (fun e t => event_tree e [t]) (body_tree (ar_body a)) (ar_events a).
Definition articulation_ok (a : articulation) : Prop :=
  Forall event_ok (ar_events a) /\ quiet (body_tree (ar_body a)) /\ match ar_body a with BScript _ => True | _ => ar_events a <> [] end.

(** What a piece of music begins with: nothing (an isolated duration), a pitch with its octave, accidental ... and the comments that follow,
    a rest, skip or lyric word, or a chord or figured bass. *)
Inductive start := SNone | SPitch (k : kind) (token : nat) (oct cs : list tree) | SToken (k : kind) (tokens : list nat) | SNode (t : tree).
(** The modifiers: [\rest] after a pitch, or chord modifiers, each with what follows it in the chord modifier context, and comments. *)
Inductive mods := MNone | MRest (token : nat) (cs : list tree) | MChord (l : list (tree * list tree * list tree)).
Record music_piece := { g_start : start; g_before : list tree (* comments before the duration *);
  g_dur : option (nat * list nat * option tree) (* the duration, its dots and scaling *); g_after : list tree (* comments *);
  g_mods : mods; g_arts : list (articulation * list tree) (* articulations, each followed by comments *);
  g_next : list event (* the commands meant for the next note *) }.

Definition start_items (s : start) : list item :=
  match s with SNone => [] | SPitch k h oct cs => TPitch k h :: match oct ++ cs with [] => [] | l => [CPitch l] end | SToken k h => [TMusic k h] | SNode t => [CMusic t] end.
Definition dur_items (d : option (nat * list nat * option tree)) : list item :=
  match d with Some (h, [], None) => [TDur h] | Some (h, dots, sc) => [TDur h; CDuration dots sc] | None => [] end.
Definition mods_items (m : mods) : list item :=
  match m with
  | MNone => []
  | MRest h cs => TRest h :: map CComment cs
  | MChord l => flat_map (fun x => let '(t, ext, cs) := x in TChordMod t :: match ext with [] => [] | _ => [CModifier ext] end ++ map CComment cs) l
  end.
Definition arts_items (l : list (articulation * list tree)) : list item :=
  flat_map (fun x => articulation_items (fst x) ++ map CComment (snd x)) l.
Definition music_items (g : music_piece) : list item :=
  start_items (g_start g) ++ map CComment (g_before g) ++ dur_items (g_dur g) ++ map CComment (g_after g) ++
  mods_items (g_mods g) ++ arts_items (g_arts g) ++ flat_map event_items (g_next g).

(** A list of elements, each followed by comments: the elements with the comments in between, and the comments after the last one. *)
Fixpoint between (l : list (tree * list tree)) : list tree * list tree :=
  match l with
  | [] => ([], [])
  | [(t, cs)] => ([t], cs)
  | (t, cs) :: l => (t :: cs ++ fst (between l), snd (between l))
  end.
Definition with_more (t : tree) (l : list tree) : tree := match t with N k h kids tl => N k h (kids ++ l) tl end.
(** The elements of a piece of music: the note with all that belongs to it; the comments after it; and the commands for the next note.
    A comment between the first part and the duration goes after the duration. *)
Definition music_trees (g : music_piece) : list tree :=
  let d := match g_dur g with
           | Some (h, dots, sc) => [N KDuration (h :: dots) (match sc with Some t => [t] | None => [] end) []]
           | None => []
           end in
  let note := match g_start g, g_mods g with
              | SNone, _ => N KUnpitched [] [] []
              | SPitch _ h oct cs, MRest _ _ => N KPitchedRest [h] (if g_dur g then oct ++ cs else oct) []
              | SPitch k h oct cs, _ => N k [h] (if g_dur g then oct ++ cs else oct) []
              | SToken k h, _ => N k h [] []
              | SNode t, _ => t
              end in
  let cs := (match g_dur g, g_start g with None, SPitch _ _ _ cs => cs | _, _ => [] end) ++ g_before g ++ g_after g in
  let (ms, cs) := match g_mods g with
                  | MNone => ([], cs)
                  | MRest h cs' => (cs ++ [N KRestModifier [h] [] []], cs')
                  | MChord l => let b := between (map (fun x => let '(t, ext, cs) := x in (with_more t ext, cs)) l) in (cs ++ [N KChordModifiers [] (fst b) []], snd b)
                  end in
  let (ars, cs) := match g_arts g with
                   | [] => ([], cs)
                   | l => let b := between (map (fun x => (articulation_tree (fst x), snd x)) l) in (cs ++ [N KArticulations [] (fst b) []], snd b)
                   end in
  with_more note (d ++ ms ++ ars) :: cs ++ map (fun e => event_tree e []) (g_next g).

(** The comments are comments, and what is not a comment does not end with one. *)
Definition music_ok (g : music_piece) : Prop :=
  Forall comment (g_before g ++ g_after g) /\
  match g_start g with
  | SNone => g_dur g <> None /\ g_mods g = MNone /\ g_before g = []
  | SPitch k _ oct cs => k <> KComment /\ Forall comment cs /\ Forall quiet oct
  | SToken k _ => k <> KComment
  | SNode t => quiet t
  end /\
  (* without a duration, a comment is only possible after a pitch *)
  (g_dur g = None -> g_before g = [] /\ g_after g = []) /\
  match g_mods g with
  | MNone => True
  | MRest _ cs => (exists h oct cs', g_start g = SPitch KNote h oct cs') /\ Forall comment cs
  | MChord l => l <> [] /\ Forall (fun x => let '(t, ext, cs) := x in quiet (with_more t ext) /\ Forall comment cs) l
  end /\
  Forall (fun x => articulation_ok (fst x) /\ Forall comment (snd x)) (g_arts g) /\
  (* with a modifier, no comments after the articulations *)
  (g_mods g <> MNone -> Forall (fun x => snd x = []) (g_arts g)) /\
  Forall (fun e => event_ok e /\ for_next_note e) (g_next g).

(** ** Whole streams *)
Inductive piece :=
| PMusic (g : music_piece)
| PEvents (l : list event)      (* commands for the next note, at the beginning *)
| POut (l : list tree)          (* a command, keyword, bar check ..., or an element built by another context *)
| PFloat (t : tree) | PEqual (t : tree) | PString (t : tree) | PMarkup (t : tree) | PRef (t : tree)
| PList (l : list tree)         (* the elements of a context like \lyricmode { } *)
| PComment (t : tree).
Definition piece_items (p : piece) : list item :=
  match p with
  | PMusic g => music_items g
  | PEvents l => flat_map event_items l
  | POut l => [TOut l]
  | PFloat t => [TFloat t] | PEqual t => [TAssign t] | PString t => [CArg t] | PMarkup t => [CMarkup [t]] | PRef t => [CRef t]
  | PList l => [CFlatten l]
  | PComment t => [CComment t]
  end.
Definition piece_trees (p : piece) : list tree :=
  match p with
  | PMusic g => music_trees g
  | PEvents l => map (fun e => event_tree e []) l
  | POut l | PList l => l
  | PFloat t | PEqual t | PString t | PMarkup t | PRef t | PComment t => [t]
  end.
(** What comes before a piece: nothing that is unfinished; music that has a duration or articulations, or has not; and whether there are
    commands for the next note. *)
Inductive before := Clear | Unfinished (complete : bool) (commands : bool).
Definition after_piece (p : piece) : before :=
  match p with
  | PMusic g => Unfinished (if g_dur g then true else match g_arts g with [] => false | _ => true end) (match g_next g with [] => false | _ => true end)
  | PEvents l => Unfinished false true
  | _ => Clear
  end.
Definition may_follow (b : before) (p : piece) : Prop :=
  match p with
  | PMusic g => match g_start g with SNone => b = Clear \/ exists c, b = Unfinished true c | _ => True end
  | PEvents l => b = Clear /\ l <> []
  | POut _ | PFloat _ => True
  | PEqual _ | PString _ | PMarkup _ | PRef _ => b = Clear \/ exists c, b = Unfinished c false
  | PList _ | PComment _ => b = Clear
  end.
Definition piece_ok (p : piece) : Prop :=
  match p with
  | PMusic g => music_ok g
  | PEvents l => Forall (fun e => event_ok e /\ for_next_note e) l
  | _ => True
  end.
Inductive stream : before -> list piece -> Prop :=
| stream_nil b : stream b []
| stream_cons b p l : may_follow b p -> piece_ok p -> stream (after_piece p) l -> stream b (p :: l).

(** A chord and a chord modifier have no tail of their own (the tail [>] is that of the body of a chord). *)
Definition tail_of (t : tree) : list nat := match t with N _ _ _ tl => tl end.
Definition no_tail (p : piece) : Prop :=
  match p with
  | PMusic g => match g_start g with SNode t => tail_of t = [] | _ => True end /\
                match g_mods g with MChord l => Forall (fun x => tail_of (fst (fst x)) = []) l | _ => True end
  | _ => True
  end.
(** No comment has to move: no comment before a duration in the music, except after a pitch. *)
Definition in_place (p : piece) : Prop := match p with PMusic g => g_before g = [] | _ => True end.

(** ** Lyrics *)
Fixpoint lnode_toks (n : lnode) : list nat := match n with L _ h kids => h ++ flat_map lnode_toks kids end.
Definition lout_toks (o : lout) : list nat := match o with ONode n => lnode_toks n | OItem l => flat_map lnode_toks l end.
(** How a list of lyrics divides into items. *)
Definition syllable (k : lkind) : Prop := k = LString \/ k = LSymbol \/ k = LScheme \/ k = LMarkup.
Inductive lyrics : list lnode -> list lout -> Prop :=
| lyrics_nil : lyrics [] []
| lyrics_timed k h kids h' d l o : syllable k -> lyrics l o -> lyrics (L k h kids :: L LUnpitched h' d :: l) (OItem (L k h kids :: d) :: o)
| lyrics_untimed k h kids l o : syllable k -> (forall h' d l', l <> L LUnpitched h' d :: l') -> lyrics l o -> lyrics (L k h kids :: l) (OItem [L k h kids] :: o)
| lyrics_duration h d l o : lyrics l o -> lyrics (L LUnpitched h d :: l) (OItem d :: o)
| lyrics_other n h kids l o : lyrics l o -> lyrics (L (LElse n) h kids :: l) (ONode (L (LElse n) h kids) :: o).

(** ** Figured bass *)
Definition fitem_toks (i : fitem) : list nat :=
  match i with FStep _ h | FOther h => [h] | FAcc t | FAlt t | FElem t => toks t | FMarkup l => flat_map toks l end.
(** A figure: a number or skip, a markup or another element; and the accidentals and alterations that follow. *)
Inductive fhead := HStep (k : kind) (token : nat) | HMarkup (t : tree) | HElem (t : tree).
Definition figure_items (f : fhead * list (bool * tree)) : list fitem :=
  (match fst f with HStep k h => FStep k h | HMarkup t => FMarkup [t] | HElem t => FElem t end) ::
  map (fun x : bool * tree => if fst x then FAcc (snd x) else FAlt (snd x)) (snd f).
Definition figure_tree (f : fhead * list (bool * tree)) : tree :=
  with_more (match fst f with HStep k h => N k [h] [] [] | HMarkup t | HElem t => t end) (map snd (snd f)).
