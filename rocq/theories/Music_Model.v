(** Model of MusicBuilder in quickly/lang/lilypond.py 671-1216, and of postprocess_lyriclist 531-555. *)
From Coq Require Import List Bool PeanoNat.
From Verif Require Import Base.
Import ListNotations.
Open Scope nat_scope.

(** The classes of elements that the builder distinguishes; every other class is [KElem] with a number. (for [item], lang/lilypond.py 707-717) *)
Inductive kind := KNote | KPitchedRest | KUnpitched | KDuration | KSymbol | KComment | KTweak | KTag | KShape | KVShape | KSpannerId |
  KDirection | KRestModifier | KChordModifiers | KArticulations | KElem (n : nat).
(** An element: its class, the tokens of its head_origin, its children and the tokens of its tail_origin.  A token is a number. (for [pop_comments], quickly/dom/util.py 159-169) *)
Inductive tree := N (k : kind) (head : list nat) (kids : list tree) (tail : list nat).
(** for [next_event], lang/lilypond.py 767-769 *)
Definition kind_of (t : tree) : kind := match t with N k _ _ _ => k end.
(** for [add_spanner_id], lang/lilypond.py 790-796 *)
Definition kids_of (t : tree) : list tree := match t with N _ _ l _ => l end.
(** Node.append and Node.extend. (for [attach], lang/lilypond.py 751-760) *)
Definition extend (t : tree) (l : list tree) : tree := match t with N k h kids tl => N k h (kids ++ l) tl end.
(** for [attach], lang/lilypond.py 751-760 *)
Definition append (t u : tree) : tree := extend t [u].
(** for [pop_comments], quickly/dom/util.py 159-169 *)
Definition is_comment (t : tree) : bool := match kind_of t with KComment => true | _ => false end.

(** quickly/dom/util.py 159-169 pop_comments (see Util_Model.v for the same function on other trees) *)
Fixpoint pop_comments (t : tree) : tree * list tree :=
  match t with
  | N k h kids tl =>
      let (kids, cs) := (fix go (l : list tree) : list tree * list tree :=
        match l with
        | [] => ([], [])
        | x :: r =>
            match go r with
            | ([], cs) => if is_comment x then ([], x :: cs) else let (x, cs') := pop_comments x in ([x], cs' ++ cs)
            | (r, cs) => (x :: r, cs)
            end
        end) kids in
      (N k h kids tl, cs)
  end.

(** What comes in: tokens ([T...]) and objects built by the transform for a context ([C...]).
    Simplified: the dispatch on the text and the action of a token (lang/lilypond.py 707-717) and on the name of a context (720-728) is done: an item says
    which method is called.  Where a method reads further tokens from the items (tremolo_action 959-961, chord_modifier_action 983-986,
    lyric_text_action 1033-1038, markup 1179) these are part of the item, and the elements they become are given. *)
Inductive item :=
| TMusic (k : kind) (tokens : list nat)     (* skip_token, after_token, rest_action, lyric_..._action *)
| TPitch (k : kind) (token : nat)           (* pitch_action, drum_action; [k] the class: Note, Q or Drum *)
| TRest (token : nat)                       (* rest_token *)
| TEvent (k : kind) (token : nat)           (* tweak_token, tag_token, shape_token, vshape_token, direction_action, spanner_action 945 *)
| TArt (t : tree)                           (* nobeam_token, dynamic_action, articulation_action, spanner_action 947, tremolo_action; script *)
| TDur (token : nat)                        (* duration_action *)
| TOut (l : list tree)                      (* name_type_action, pipe_symbol_action, voice_separator_action, fraction_action,
                                               name_builtin_action, keyword_action (no element if the keyword is unknown); 722-724 *)
| TChordMod (t : tree)                      (* chord_modifier_action *)
| TNumber (t : tree)                        (* number_action, symbol_action *)
| TFloat (t : tree)                         (* float_action *)
| TAssign (t : tree)                        (* assignment_action *)
| TUnknown (token : nat)                    (* 715, 727 *)
| CModifier (l : list tree)                 (* chord_modifier *)
| CFlatten (l : list tree)                  (* flatten_elements *)
| CPitch (l : list tree)                    (* pitch *)
| CDuration (dots : list nat) (scaling : option tree)  (* duration *)
| CMusic (t : tree)                         (* music_element *)
| CArg (t : tree)                           (* string_scheme *)
| CMarkup (l : list tree)                   (* markup; [l] what create_markup yields *)
| CRef (t : tree)                           (* identifier_ref *)
| CComment (t : tree).                      (* comment. (for [reset], lang/lilypond.py 692-700) *)

Record st := mk_st { music : option tree; dur : option (list nat); scaling : option tree; modifier : option tree; arts : option tree;
                     events : list tree; comments : list tree }.
(** lang/lilypond.py 692-700 reset *)
Definition reset : st := mk_st None None None None None [] [].
(** [if self._duration]: not None and not empty. (for [pending], lang/lilypond.py 736-770) *)
Definition has_dur (s : st) : bool := match dur s with Some (_ :: _) => true | _ => false end.
(** for [add_articulation], lang/lilypond.py 772-788 *)
Definition has {A} (o : option A) : bool := match o with Some _ => true | None => false end.
(** for [steps], lang/lilypond.py 702-734 *)
Definition set_music (m : option tree) (s : st) : st := mk_st m (dur s) (scaling s) (modifier s) (arts s) (events s) (comments s).
(** for [steps], lang/lilypond.py 702-734 *)
Definition set_modifier (m : option tree) (s : st) : st := mk_st (music s) (dur s) (scaling s) m (arts s) (events s) (comments s).
(** for [add_articulation], lang/lilypond.py 772-788 *)
Definition set_arts (a : option tree) (s : st) : st := mk_st (music s) (dur s) (scaling s) (modifier s) a (events s) (comments s).
(** for [add_articulation], lang/lilypond.py 772-788 *)
Definition set_events (e : list tree) (s : st) : st := mk_st (music s) (dur s) (scaling s) (modifier s) (arts s) e (comments s).
(** for [steps], lang/lilypond.py 702-734 *)
Definition set_comments (c : list tree) (s : st) : st := mk_st (music s) (dur s) (scaling s) (modifier s) (arts s) (events s) c.

(** lang/lilypond.py 767-769 the events that are meant for the next note *)
Definition next_event (e : tree) : bool := match kind_of e with KTweak | KTag | KShape | KVShape => true | _ => false end.
(** lang/lilypond.py 751-760: attach the modifier or the articulations: the comments before it, then the node, of which the last comments are popped *)
Definition attach (o : option tree) (mc : tree * list tree) : tree * list tree :=
  match o with
  | Some n => let (n, cs) := pop_comments n in (append (extend (fst mc) (snd mc)) n, cs)
  | None => mc
  end.
(** lang/lilypond.py 736-770 pending_music: what is yielded; the state is reset afterwards.  748-749 replaces all the comments by those of the music. *)
Definition pending (s : st) : list tree :=
  let mc :=
    if has_dur s then
      let d := N KDuration (match dur s with Some l => l | None => [] end) (match scaling s with Some t => [t] | None => [] end) [] in
      Some (match music s with Some m => append m d | None => N KUnpitched [] [d] [] end, comments s)
    else match music s with Some m => Some (pop_comments m) | None => None end in
  (match mc with
   | Some mc => let (m, cs) := attach (arts s) (attach (modifier s) mc) in m :: cs
   | None => []
   end) ++ filter next_event (events s).

(** lang/lilypond.py 775-780: every event becomes the last child of the one before it, the articulation of the last one *)
Fixpoint chain (es : list tree) (art : tree) : tree :=
  match es with [] => art | e :: es => append e (chain es art) end.
(** lang/lilypond.py 772-788 add_articulation *)
Definition add_articulation (art : tree) (s : st) : st :=
  if has (music s) || has_dur s then
    let a := match arts s with Some a => a | None => N KArticulations [] [] [] end in
    set_arts (Some (append a (chain (events s) art))) (set_events [] s)
  else s.

(** [e[-1].append(node)] if the last event is one of the given kinds and has fewer than [n] children. (for [add_spanner_id], lang/lilypond.py 790-796) *)
Definition add_to_last (p : kind -> bool) (n : nat) (node : tree) (s : st) : option st :=
  match rev (events s) with
  | e :: r => if p (kind_of e) && (length (kids_of e) <? n) then Some (set_events (rev r ++ [append e node]) s) else None
  | [] => None
  end.
(** lang/lilypond.py 790-796 *)
Definition add_spanner_id := add_to_last (fun k => match k with KSpannerId => true | _ => false end) 1.
(** lang/lilypond.py 798-804 *)
Definition add_tweak := add_to_last (fun k => match k with KTweak => true | _ => false end) 2.
(** lang/lilypond.py 806-812 *)
Definition add_tag := add_to_last (fun k => match k with KTag => true | _ => false end) 1.
(** lang/lilypond.py 814-820 *)
Definition add_shape := add_to_last (fun k => match k with KShape | KVShape => true | _ => false end) 2.
(** for the articulations in lang/lilypond.py 772-820 *)
Definition orelse {A} (a b : option A) : option A := match a with Some _ => a | None => b end.
(** lang/lilypond.py 822-827 *)
Definition add_event_argument (t : tree) (s : st) : option st :=
  orelse (add_spanner_id t s) (orelse (add_tweak t s) (orelse (add_tag t s) (add_shape t s))).
(** [self._modifier[-1].extend(obj)]. (for [steps], lang/lilypond.py 702-734) *)
Fixpoint extend_last (kids l : list tree) : list tree :=
  match kids with [] => [] | [x] => [extend x l] | x :: r => x :: extend_last r l end.

(** One item: the new state and what is yielded. (for [steps], lang/lilypond.py 702-734) *)
Definition step (s : st) (i : item) : res (st * list tree) :=
  match i with
  | TMusic k h => Ok (set_music (Some (N k h [] [])) reset, pending s)
  | TPitch k h =>
      match add_tweak (N KSymbol [h] [] []) s with
      | Some s => Ok (s, [])
      | None => Ok (set_music (Some (N k [h] [] [])) reset, pending s)
      end
  | TRest h =>
      match music s with
      | Some (N KNote hd kids tl) => Ok (set_modifier (Some (N KRestModifier [h] [] [])) (set_music (Some (N KPitchedRest hd kids tl)) s), [])
      | _ => Ok (s, [])
      end
  | TEvent k h => Ok (set_events (events s ++ [N k [h] [] []]) s, [])
  | TArt t => Ok (add_articulation t s, [])
  | TDur h =>
      let (s, out) := if has_dur s || has (arts s) then (reset, pending s) else (s, []) in
      Ok (mk_st (music s) (Some [h]) (scaling s) (modifier s) (arts s) (events s) (comments s), out)
  | TOut l => Ok (reset, pending s ++ l)
  | TChordMod t =>
      if has (music s) && negb (has (arts s)) then
        let m := match modifier s with Some m => m | None => N KChordModifiers [] [] [] end in
        Ok (set_modifier (Some (append m t)) s, [])
      else Ok (s, [])
  | TNumber t => Ok (match orelse (add_spanner_id t s) (add_tweak t s) with Some s => s | None => s end, [])
  | TFloat t =>
      match add_tweak t s with
      | Some s => Ok (s, [])
      | None => Ok (reset, pending s ++ [t])
      end
  | TAssign t => match events s with [] => Ok (reset, pending s ++ [t]) | _ => Ok (s, []) end
  | TUnknown _ => Ok (s, [])
  | CModifier l =>
      match modifier s with
      | Some (N k h [] tl) => Err IndexError
      | Some (N k h kids tl) => Ok (set_modifier (Some (N k h (extend_last kids l) tl)) s, [])
      | None => Err TypeError
      end
  | CFlatten l => Ok (s, l)
  | CPitch l =>
      match music s with
      | Some m => Ok (set_music (Some (extend m l)) s, [])
      | None => Ok (reset, pending s ++ l)
      end
  | CDuration dots sc =>
      match dur s with
      | Some d => Ok (mk_st (music s) (Some (d ++ dots)) sc (modifier s) (arts s) (events s) (comments s), [])
      | None => Err AttributeError
      end
  | CMusic t => Ok (set_music (Some t) reset, pending s)
  | CArg t =>
      match events s with
      | [] => Ok (reset, pending s ++ [t])
      | _ => Ok (match add_event_argument t s with Some s => s | None => add_articulation t s end, [])
      end
  | CMarkup l =>
      Ok (fold_left (fun (so : st * list tree) t =>
            let (s, out) := so in
            match events s with [] => (reset, out ++ pending s ++ [t]) | _ => (add_articulation t s, out) end) l (s, []))
  | CRef t => match events s with [] => Ok (reset, pending s ++ [t]) | _ => Ok (add_articulation t s, []) end
  | CComment t =>
      match modifier s with
      | Some m => Ok (set_modifier (Some (append m t)) s, [])
      | None =>
          match rev (events s) with
          | e :: r => Ok (set_events (rev r ++ [append e t]) s, [])
          | [] =>
              match arts s with
              | Some a => Ok (set_arts (Some (append a t)) s, [])
              | None => if negb (has (music s)) && negb (has_dur s) then Ok (s, [t]) else Ok (set_comments (comments s ++ [t]) s, [])
              end
          end
      end
  end.

(** lang/lilypond.py 702-734 __iter__ *)
Fixpoint steps (s : st) (l : list item) : res (list tree) :=
  match l with
  | [] => Ok (pending s)
  | i :: l => let! (s, out) := step s i in let! rest := steps s l in Ok (out ++ rest)
  end.
(** lang/lilypond.py 702-734, with [steps] *)
Definition build (l : list item) : res (list tree) := steps reset l.

(** ** postprocess_lyriclist 531-555 *)
(** A node: its kind and the rest of it. (lang/lilypond.py 531-558 postprocess_lyriclist) *)
Inductive lkind := LUnpitched | LString | LSymbol | LScheme | LMarkup | LElse (n : nat).
(** lang/lilypond.py 531-558 postprocess_lyriclist *)
Inductive lnode := L (k : lkind) (tokens : list nat) (kids : list lnode).
(** what is yielded: a node as it is, or a new LyricItem with the nodes in it. (lang/lilypond.py 531-558 postprocess_lyriclist) *)
Inductive lout := ONode (n : lnode) | OItem (l : list lnode).
(** lang/lilypond.py 531-558 postprocess_lyriclist *)
Definition is_syllable (n : lnode) : bool :=
  match n with L (LString | LSymbol | LScheme | LMarkup) _ _ => true | _ => false end.
(** lang/lilypond.py 531-558 postprocess_lyriclist *)
Definition yield_item (p : option (list lnode)) : list lout := match p with Some l => [OItem l] | None => [] end.
(** lang/lilypond.py 531-558 postprocess_lyriclist *)
Fixpoint lyric_loop (p : option (list lnode)) (nodes : list lnode) : list lout :=
  match nodes with
  | [] => yield_item p
  | L LUnpitched _ kids :: nodes => OItem (match p with Some l => l | None => [] end ++ kids) :: lyric_loop None nodes
  | n :: nodes => yield_item p ++ (if is_syllable n then lyric_loop (Some [n]) nodes else ONode n :: lyric_loop None nodes)
  end.
(** lang/lilypond.py 531-558 postprocess_lyriclist *)
Definition postprocess_lyriclist (nodes : list lnode) : list lout := lyric_loop None nodes.

(** ** create_figure 496-525 *)
(** The items: a figure number or skip, an accidental, an alteration (each one token), a markup (what create_markup yields, at most the
    first is used), an element, or a token or object of another kind. (lang/lilypond.py 496-525 create_figure) *)
Inductive fitem := FStep (k : kind) (token : nat) | FAcc (t : tree) | FAlt (t : tree) | FMarkup (l : list tree) | FElem (t : tree) | FOther (token : nat).
(** lang/lilypond.py 496-525 create_figure *)
Definition yield_step (p : option tree) : list tree := match p with Some t => [t] | None => [] end.
(** lang/lilypond.py 496-525 create_figure *)
Fixpoint figure_loop (p : option tree) (l : list fitem) : list tree :=
  match l with
  | [] => yield_step p
  | FStep k h :: l => yield_step p ++ figure_loop (Some (N k [h] [] [])) l
  | (FAcc t | FAlt t) :: l => figure_loop (match p with Some s => Some (append s t) | None => None end) l
  | FMarkup m :: l => yield_step p ++ figure_loop (hd_error m) l
  | FElem t :: l => yield_step p ++ figure_loop (Some t) l
  | FOther _ :: l => figure_loop p l
  end.
(** lang/lilypond.py 496-525 create_figure *)
Definition create_figure (l : list fitem) : list tree := figure_loop None l.
