(** Model of quickly/time.py and of Music.time_length in quickly/dom/lily.py. *)
From Coq Require Import List ZArith QArith Bool.
From Verif Require Import Base Duration_Model.
Import ListNotations.
Open Scope nat_scope.

(** The element classes of dom/lily.py as far as time.py looks at them.  A Durable carries the value that
    Time.get_duration (lily.py 3299-3344, see the Rhythm model) returns for it. *)
Inductive kind :=
| MusicList                       (* 1361 *)
| SimultaneousMusicList           (* 1375 *)
| Simultaneous                    (* 1395 *)
| Note (d s : Q)                  (* 1479 *)
| Durable (d s : Q)               (* 194: any other Durable that does not override time_length *)
| Chord (d s : Q)                 (* 1443 *)
| Skip (d s : Q)                  (* 1562 *)
| AfterGrace                      (* 2349 *)
| OtherMusic                      (* 35: any other Music *)
| Reference                       (* 309 *)
| Duration                        (* 1692 *)
| Other.                          (* any other element *)

(** An element: its class, what its transform() returns (Times dom/lily.py 2235, Tuplet 2253, ScaleDurations
    2276, ShiftDurations 2294, Grace 2314 and subclasses; None for any other), for a
    Reference the value that get_value_with_scope() finds, and the children.
    Simplifications: the value is part of the tree, so lookups do not go on forever; properties() is
    left out, no class has it. *)
Inductive mn := MN (k : kind) (tr : option transform) (value : option mn) (kids : list mn).
(** dom/element.py 150-176 *)
Definition kind_of (n : mn) := match n with MN k _ _ _ => k end.
(** dom/element.py 150-176 *)
Definition transform_of (n : mn) := match n with MN _ t _ _ => t end.
(** dom/element.py 150-176 *)
Definition value_of (n : mn) := match n with MN _ _ v _ => v end.
(** dom/element.py 150-176 *)
Definition kids_of (n : mn) := match n with MN _ _ _ c => c end.

(** [isinstance(node, lily.Music)]. (for [time_length], dom/lily.py 69-80, 205-213) *)
Definition is_music (k : kind) : bool := match k with Reference | Duration | Other => false | _ => true end.
(** for [ctx_length], time.py 330-343 *)
Definition is_reference (k : kind) : bool := match k with Reference => true | _ => false end.
(** for [time_length], dom/lily.py 69-80, 205-213 *)
Definition is_note (k : kind) : bool := match k with Note _ _ => true | _ => false end.
(** for [nearest_chord], time.py 145-156 *)
Definition is_chord (k : kind) : bool := match k with Chord _ _ => true | _ => false end.
(** for [time_length], dom/lily.py 69-80, 205-213 *)
Definition is_duration (k : kind) : bool := match k with Duration => true | _ => false end.

(** lily.py 37-45, 1367-1369, 1381-1383 is_sequential, given the class of the parent. *)
Definition is_sequential (parent : option kind) (k : kind) : bool :=
  match k with
  | MusicList => match parent with Some Simultaneous => false | _ => true end
  | _ => false
  end.

(** time.py 311-328 TimeContext.enter: the transform *)
Definition enter (t : transform) (n : mn) : transform :=
  match transform_of n with
  | Some u => if transform_bool u then transform_add t u else t
  | None => t
  end.

(** sum() and max(..., default=0) over values that are computed one by one. (for [music_time_length], lily.py 69-80) *)
Fixpoint sum (acc : Q) (l : list (res Q)) : res Q :=
  match l with [] => Ok acc | r :: l => let! q := r in sum (acc + q)%Q l end.
(** for [music_time_length], lily.py 69-80 *)
Fixpoint maximum (acc : option Q) (l : list (res Q)) : res Q :=
  match l with
  | [] => Ok match acc with Some m => m | None => 0%Q end
  | r :: l => let! q := r in maximum (match acc with Some m => if Qle_bool q m then acc else Some q | None => Some q end) l
  end.
(** [self[:end]]. (for [music_time_length], lily.py 69-80) *)
Definition upto {A} (e : option nat) (l : list A) : list A := match e with Some e => firstn e l | None => l end.

(** lily.py 69-80 Music.time_length, given the lengths of the children *)
Definition music_time_length (sequential : bool) (lens : list (res Q)) (e : option nat) : res Q :=
  if sequential then sum 0 (upto e lens)
  else match e with None => maximum None lens | Some _ => Ok 0%Q end.
(** dom/lily.py 2364-2374 AfterGrace.time_length *)
Fixpoint after_grace (l : list (bool * res Q)) : res Q :=
  match l with [] => Ok 0%Q | (music, r) :: l => if music then r else after_grace l end.
(** time_length of every class: dom/lily.py 69-80, 205-213 Durable, 1446-1457 Chord, 1583-1592 Skip, 2364-2374 AfterGrace.  [t] is the
    transform of the context, [lens] the lengths of the children. *)
Definition time_length (t : transform) (parent : option kind) (k : kind) (kids : list mn) (lens : list (res Q)) (e : option nat) : res Q :=
  match k with
  | Note d s | Durable d s => transform_length t d s
  | Chord d s => if existsb (fun body => existsb (fun n => is_note (kind_of n)) (kids_of body)) kids then transform_length t d s else Ok 0%Q
  | Skip d s => if existsb (fun n => is_duration (kind_of n)) kids then transform_length t d s else music_time_length false lens e
  | AfterGrace => after_grace (upto e (combine (map (fun n => is_music (kind_of n)) kids) lens))
  | _ => music_time_length (is_sequential parent k) lens e
  end.

(** time.py 330-343 TimeContext.length, 349-362 remote_length.  A value that is found is not a child of Simultaneous. *)
Fixpoint ctx_length (t : transform) (parent : option kind) (n : mn) : res Q :=
  match n with
  | MN k _ v kids =>
      if is_reference k then
        match v with
        | None => Err TypeError        (* 354, 356: cannot unpack None *)
        | Some m => ctx_length t None m
        end
      else if is_music k then
        let t := enter t n in
        time_length t parent k kids (map (ctx_length t (Some k)) kids) None
      else Ok 0%Q
  end.

(** node.py: the node at a path from the root of the document; its parent. (for [preceding_rev], time.py 158-174) *)
Fixpoint node_at (n : mn) (path : list nat) : option mn :=
  match path with [] => Some n | i :: p => match nth_error (kids_of n) i with Some c => node_at c p | None => None end end.

(** time.py 158-174 _preceding_music: the path of the topmost Music ancestor and the trail from there; the path of
    the node is given from the node to the root. *)
Fixpoint preceding_rev (root : mn) (rp : list nat) : list nat * list nat :=
  match rp with
  | [] => ([], [])
  | i :: rp' =>
      match node_at root (rev rp') with
      | Some p => if is_music (kind_of p) then let (m, trail) := preceding_rev root rp' in (m, trail ++ [i]) else (rev rp, [])
      | None => (rev rp, [])
      end
  end.
(** time.py 158-174, with [preceding_rev] *)
Definition preceding_music (root : mn) (path : list nat) : list nat * list nat := preceding_rev root (rev path).

(** time.py 300-309 TimeContext._follow_trail.  [parent] is the class of the parent of the node. *)
Fixpoint follow_trail (t : transform) (parent : option kind) (n : mn) (length : Q) (trail : list nat) : res (transform * option kind * mn * Q) :=
  match trail with
  | [] => Ok (t, parent, n, length)
  | i :: trail =>
      let t := enter t n in
      let k := kind_of n in
      let! length :=
        (if negb (i =? 0) && is_sequential parent k
         then let! l := time_length t parent k (kids_of n) (map (ctx_length t (Some k)) (kids_of n)) (Some i) in Ok (length + l)%Q
         else Ok length) in
      match nth_error (kids_of n) i with
      | Some c => follow_trail t (Some k) c length trail
      | None => Err IndexError
      end
  end.

(** The class of the parent of the node at a path. (for [length], time.py 176-183) *)
Definition parent_kind (root : mn) (path : list nat) : option kind :=
  match rev path with [] => None | _ :: rp => option_map kind_of (node_at root (rev rp)) end.

(** time.py 176-183 Time.length: the ancestors as long as they are Music, outermost first *)
Fixpoint music_ancestors (root : mn) (rp : list nat) : list mn :=
  match rp with
  | [] => []
  | _ :: rp' => match node_at root (rev rp') with Some p => if is_music (kind_of p) then music_ancestors root rp' ++ [p] else [] | None => [] end
  end.
(** time.py 176-183, with [music_ancestors] *)
Definition length (root : mn) (path : list nat) : res Q :=
  match node_at root path with
  | None => Err IndexError
  | Some n =>
      let t := if is_music (kind_of n) || is_reference (kind_of n)
               then fold_left enter (music_ancestors root (rev path)) transform_default else transform_default in
      ctx_length t (parent_kind root path) n
  end.

(** time.py 185-201 Time.position *)
Definition position (root : mn) (path : list nat) (include : bool) : res (list nat * Q) :=
  let (music, trail) := preceding_music root path in
  match node_at root music with
  | None => Err IndexError
  | Some m =>
      let! (t, parent, node, length) := follow_trail transform_default (parent_kind root music) m 0%Q trail in
      if include then let! l := ctx_length t parent node in Ok (music, (length + l)%Q)
      else Ok (music, length)
  end.

(** time.py 218-229: the common part of the trails *)
Fixpoint common (t : transform) (parent : option kind) (n : mn) (a b : list nat) : res (transform * option kind * mn * list nat * list nat) :=
  match a, b with
  | i :: a', j :: b' =>
      let t := enter t n in
      if negb (i =? j) then Ok (t, parent, n, a, b)
      else match nth_error (kids_of n) i with
           | Some c => common t (Some (kind_of n)) c a' b'
           | None => Err IndexError
           end
  | _, _ => Ok (t, parent, n, a, b)
  end.
(** time.py 203-235 Time.duration *)
Definition list_eqb (a b : list nat) : bool := if list_eq_dec Nat.eq_dec a b then true else false.
(** time.py 203-235, with [list_eqb] *)
Definition duration (root : mn) (start end_ : list nat) : res (option (list nat * Q)) :=
  let (music, start_trail) := preceding_music root start in
  let (end_music, end_trail) := preceding_music root end_ in
  if negb (list_eqb end_music music) then Ok None
  else match node_at root music with
       | None => Err IndexError
       | Some m =>
           let! (t, parent, n, a, b) := common transform_default (parent_kind root music) m start_trail end_trail in
           let! (_, _, _, start_time) := follow_trail t parent n 0%Q a in
           let! (t, parent, node, end_time) := follow_trail t parent n 0%Q b in
           let! l := ctx_length t parent node in
           Ok (Some (music, (end_time + l - start_time)%Q))
       end.

(** time.py 145-156 _music_child: the path of the node it returns *)
Fixpoint nearest_chord (root : mn) (rp : list nat) : option (list nat) :=
  match rp with
  | [] => None
  | _ :: rp' => match node_at root (rev rp') with
                | Some p => if is_chord (kind_of p) then Some (rev rp') else nearest_chord root rp'
                | None => None
                end
  end.
(** time.py 145-156, with [nearest_chord] *)
Fixpoint nearest_music (root : mn) (rp : list nat) : option (list nat) :=
  match node_at root (rev rp) with
  | None => None
  | Some n =>
      if is_music (kind_of n) then Some (rev rp)
      else match rp with
           | [] => None
           | _ :: rp' =>
               if match node_at root (rev rp') with Some p => is_music (kind_of p) | None => false end then Some (rev rp)
               else nearest_music root rp'
           end
  end.
(** time.py 145-156, with [nearest_chord] *)
Definition music_child (root : mn) (path : list nat) : option (list nat) :=
  match node_at root path with
  | None => None
  | Some n =>
      if is_chord (kind_of n) then Some path
      else match nearest_chord root (rev path) with
           | Some c => Some c
           | None => nearest_music root (rev path)
           end
  end.
(** time.py 237-252 cursor_position, given the path of the node that find_descendant_right() finds (None if it does not find any). *)
Definition cursor_position (root : mn) (found : option (list nat)) : res (option (list nat * Q)) :=
  match found with
  | None => Err TypeError            (* _music_child(None): None << lily.Chord *)
  | Some path =>
      match music_child root path with
      | Some c => let! r := position root c false in Ok (Some r)
      | None => Ok None
      end
  end.
(** time.py 254-278 cursor_duration, with a selection; the nodes found right of its start and left of its end. *)
Definition cursor_duration (root : mn) (found_start found_end : option (list nat)) : res (option (list nat * Q)) :=
  match found_start with
  | None => Ok None
  | Some s =>
      match music_child root s with
      | None => Ok None
      | Some s =>
          match found_end with
          | None => Ok None
          | Some e =>
              match music_child root e with
              | None => Ok None
              | Some e =>
                  let! r := duration root s e in
                  match r with
                  | Some (m, q) => if Qle_bool 0 q then Ok r else Ok None
                  | None => Ok None
                  end
              end
          end
      end
  end.
