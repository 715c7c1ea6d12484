(** Model of quickly/pitch.py.

    Alterations and scale positions are exact rationals: Python uses ints,
    Fractions or floats that are multiples of 1/4, on which float arithmetic is
    exact.  Text is the UTF-8 encoding of a Python str; the operations used
    (equality, containment, endswith, comparison) agree on both.

    The pitch name tables live in parce (parce.lang.lilypond_words.pitch_names);
    they are a parameter of every definition that uses them. *)
From Coq Require Import String Ascii List ZArith QArith Qround Bool.
From Verif Require Import Base.
Import ListNotations.
Open Scope Z_scope.

(** * Python building blocks *)

(** A dict in insertion order. (for [reversed], pitch.py 58-65) *)
Definition dict (K V : Type) := list (K * V).

(** for [language_set], pitch.py 252-256 *)
Fixpoint dget {K V} (eqb : K -> K -> bool) (d : dict K V) (k : K) : option V :=
  match d with
  | [] => None
  | (k', v) :: r => if eqb k' k then Some v else dget eqb r k
  end.

(** d[k] = f(d.get(k)): in place, or appended at the end. (for [add_name], pitch.py 58-65) *)
Fixpoint dict_upd {K V} (eqb : K -> K -> bool) (k : K) (f : option V -> V) (d : dict K V) : dict K V :=
  match d with
  | [] => [(k, f None)]
  | (k', v) :: r => if eqb k' k then (k', f (Some v)) :: r else (k', v) :: dict_upd eqb k f r
  end.

(** for [language_set], pitch.py 252-256 *)
Definition str_eqb (a b : str) : bool := if list_eq_dec ascii_dec a b then true else false.

(** for [s_nederlands], pitch.py 561-565 *)
Definition in_strs (s : str) (l : list str) : bool := existsb (str_eqb s) l.

(** for [s_english], pitch.py 579-587 *)
Fixpoint is_prefix (p s : str) : bool :=
  match p, s with
  | [], _ => true
  | a :: p', b :: s' => Ascii.eqb a b && is_prefix p' s'
  | _ :: _, [] => false
  end.

(** [sub in s]. (for [s_english], pitch.py 579-587) *)
Fixpoint contains (sub s : str) : bool :=
  is_prefix sub s || match s with [] => false | _ :: r => contains sub r end.

(** [s.endswith(suf)]. (for [s_catalan], pitch.py 567-571) *)
Definition endswith (suf s : str) : bool := is_prefix (rev suf) (rev s).

(** [sorted(l, key=key)]: stable insertion sort. (for [name_octave], pitch.py 293-310) *)
Fixpoint insert_by {A} (leb : A -> A -> bool) (x : A) (l : list A) : list A :=
  match l with
  | [] => [x]
  | y :: r => if leb x y then x :: l else y :: insert_by leb x r
  end.
(** for [name_octave], pitch.py 293-310 *)
Fixpoint sort_by {A} (leb : A -> A -> bool) (l : list A) : list A :=
  match l with
  | [] => []
  | x :: r => insert_by leb x (sort_by leb r)
  end.

(** int(q): truncation towards zero. (for [to_midi], pitch.py 147-150) *)
Definition Qtrunc (q : Q) : Z := if Qle_bool 0 q then Qfloor q else - Qfloor (- q).

(** * Pitch *)

(** pitch.py 50. *)
Definition major_scale : list Q := [0; 1; 2; 5#2; 7#2; 9#2; 11#2]%Q.
(** pitch.py 54. *)
Definition major_flats : list Q := [3#2; 5]%Q.

(** pitch.py 71-99. *)
Record pitch := Pitch { octave : Z; note : Z; alter : Q }.

(** scale[note] for a note within the scale.  Simplified: Python's negative
    indices and IndexError are not modelled (0 is returned); theorems ask for
    notes in range. (for [to_midi], pitch.py 147-150) *)
Definition scale_at (scale : list Q) (n : Z) : Q := nth (Z.to_nat n) scale 0%Q.

(** pitch.py 113-141: comparison of the tuples (octave, note, alter).  Python
    looks for the first differing position and compares there. *)
Definition pitch_eq (a b : pitch) : bool :=
  (octave a =? octave b) && (note a =? note b) && Qeq_bool (alter a) (alter b).
(** pitch.py 113-141, with [pitch_eq] *)
Definition pitch_ne (a b : pitch) : bool :=
  negb ((octave a =? octave b) && (note a =? note b) && Qeq_bool (alter a) (alter b)).
(** pitch.py 113-141, with [pitch_eq] *)
Definition Qlt_bool (a b : Q) : bool := negb (Qle_bool b a).
(** pitch.py 113-141, with [pitch_eq] *)
Definition pitch_lt (a b : pitch) : bool :=
  if negb (octave a =? octave b) then octave a <? octave b
  else if negb (note a =? note b) then note a <? note b
  else if negb (Qeq_bool (alter a) (alter b)) then Qlt_bool (alter a) (alter b)
  else false.
(** pitch.py 113-141, with [pitch_eq] *)
Definition pitch_gt (a b : pitch) : bool :=
  if negb (octave a =? octave b) then octave b <? octave a
  else if negb (note a =? note b) then note b <? note a
  else if negb (Qeq_bool (alter a) (alter b)) then Qlt_bool (alter b) (alter a)
  else false.
(** pitch.py 113-141, with [pitch_eq] *)
Definition pitch_le (a b : pitch) : bool :=
  if negb (octave a =? octave b) then octave a <=? octave b
  else if negb (note a =? note b) then note a <=? note b
  else if negb (Qeq_bool (alter a) (alter b)) then Qle_bool (alter a) (alter b)
  else true.
(** pitch.py 113-141, with [pitch_eq] *)
Definition pitch_ge (a b : pitch) : bool :=
  if negb (octave a =? octave b) then octave b <=? octave a
  else if negb (note a =? note b) then note b <=? note a
  else if negb (Qeq_bool (alter a) (alter b)) then Qle_bool (alter b) (alter a)
  else true.

(** pitch.py 147-150. *)
Definition to_midi (scale : list Q) (p : pitch) : Z :=
  Qtrunc (inject_Z ((octave p + 5) * 12) + (scale_at scale (note p) + alter p) * 2).

(** bisect.bisect_left / bisect_right on a sorted list (linear instead of
    binary search: the same on sorted lists). (for [from_midi], pitch.py 152-189) *)
Fixpoint bisect_left (l : list Q) (x : Q) : Z :=
  match l with
  | [] => 0
  | y :: r => if Qle_bool x y then 0 else 1 + bisect_left r x
  end.
(** for [from_midi], pitch.py 152-189 *)
Fixpoint bisect_right (l : list Q) (x : Q) : Z :=
  match l with
  | [] => 0
  | y :: r => if Qle_bool y x then 1 + bisect_right r x else 0
  end.

(** pitch.py 152-189.  (186-188 only turn an integral float into an int.) *)
Definition from_midi (scale flats : list Q) (key : Z) : pitch :=
  let oct := key / 12 in let step := key mod 12 in
  let h := (inject_Z step / 2)%Q in
  let n := if existsb (Qeq_bool h) flats then bisect_left scale h else bisect_right scale h - 1 in
  Pitch (oct - 5) n (h - scale_at scale n)%Q.

(** pitch.py 191-199; [l] is len(scale). *)
Definition make_absolute (l : Z) (p prev : pitch) (default_octave : Z) : pitch :=
  Pitch (octave p + (octave prev - (note p - note prev + 3) / l - default_octave)) (note p) (alter p).

(** pitch.py 201-209. *)
Definition make_relative (l : Z) (p prev : pitch) (default_octave : Z) : pitch :=
  Pitch (octave p - (octave prev - (note p - note prev + 3) / l - default_octave)) (note p) (alter p).

(** pitch.py 625-632. *)
Definition octave_to_string (n : Z) : str :=
  if n <? 0 then repeat ","%char (Z.to_nat (- n)) else repeat "'"%char (Z.to_nat n).

(** for [octave_from_string], pitch.py 635-641 *)
Definition count (c : ascii) (s : str) : Z := Z.of_nat (List.length (filter (Ascii.eqb c) s)).

(** pitch.py 635-641. *)
Definition octave_from_string (s : str) : Z := count "'" s - count "," s.

(** * Pitch names *)

(** One language: name -> (octave, note, alter). (for [reverse_table], pitch.py 58-65) *)
Definition table := dict str (Z * Z * Q).
(** parce's pitch_names: language -> table.  The number is the identity of the
    table object (languages can share one). (for [language_set], pitch.py 252-256) *)
Definition tables := dict str (nat * table).

(** for [add_name], pitch.py 58-65 *)
Definition noteq (a b : Z * Q) : bool := (fst a =? fst b) && Qeq_bool (snd a) (snd b).

(** pitch.py 58-65: the reversed table of one language. *)
Definition reversed := dict (Z * Q) (dict Z (list str)).
(** pitch.py 58-65, with [reversed] *)
Definition odefault {A} (d : A) (o : option A) : A := match o with Some a => a | None => d end.
(** pitch.py 58-65, with [reversed] *)
Definition add_name (d : reversed) (e : str * (Z * Z * Q)) : reversed :=
  let '(name, (oct, n, a)) := e in
  dict_upd noteq (n, a)
    (fun od => dict_upd Z.eqb oct (fun names => odefault [] names ++ [name]) (odefault [] od)) d.
(** pitch.py 58-65, with [reversed] *)
Definition reverse_table (t : table) : reversed := fold_left add_name t [].

(** pitch.py 221-239: the preferences and the language. *)
Record processor := Processor {
  prefer_long : bool; prefer_accented : bool; prefer_x : bool;
  prefer_double_s : bool; prefer_classic : bool; prefer_deprecated : bool;
  language : str }.

(** pitch.py 241-243 *)
Definition default_processor : processor :=
  Processor false false false false true false (txt "nederlands").

(** for [language_set], pitch.py 252-256 *)
Definition set_language (P : processor) (l : str) : processor :=
  Processor (prefer_long P) (prefer_accented P) (prefer_x P) (prefer_double_s P)
    (prefer_classic P) (prefer_deprecated P) l.

(** pitch.py 252-256: the language setter. *)
Definition language_set (T : tables) (P : processor) (l : str) : res processor :=
  match dget str_eqb T l with
  | None => Err KeyError
  | Some _ => Ok (set_language P l)
  end.

(** for [pitch_of_name], pitch.py 277-291 *)
Definition lang_table (T : tables) (l : str) : res table :=
  match dget str_eqb T l with Some (_, t) => Ok t | None => Err KeyError end.

(** pitch.py 277-291. *)
Definition pitch_of_name (T : tables) (P : processor) (name : str) : res pitch :=
  let! t := lang_table T (language P) in
  match dget str_eqb t name with
  | Some (o, n, a) => Ok (Pitch o n a)
  | None => Err KeyError
  end.

(** The first name with a property: "for name in names: if ...: return name". (for [s_nederlands], pitch.py 561-565) *)
Definition first_name (f : str -> bool) (names : list str) : option str := find f names.

(** pitch.py 561-565. *)
Definition s_nederlands (P : processor) (names : list str) : option str :=
  first_name (fun n => eqb (prefer_classic P)
     (in_strs n [txt "es"; txt "eses"; txt "as"; txt "ases"])) names.
(** pitch.py 567-571. *)
Definition s_catalan (P : processor) (names : list str) : option str :=
  first_name (fun n => eqb (prefer_deprecated P) (endswith (txt "s") n)) names.
(** pitch.py 573-577. *)
Definition s_deutsch (P : processor) (names : list str) : option str :=
  first_name (fun n => eqb (prefer_deprecated P)
     (in_strs n [txt "eeh"; txt "ases"; txt "aseh"; txt "aeh"])) names.
(** pitch.py 579-587. *)
Definition s_english (P : processor) (names : list str) : option str :=
  let short := first_name (fun n => negb (contains (txt "-") n) && eqb (prefer_x P) (endswith (txt "x") n)) names in
  if prefer_long P then
    match first_name (contains (txt "-")) names with
    | Some n => Some n
    | None => short
    end
  else short.
(** pitch.py 589-594. *)
Definition s_espanol (P : processor) (names : list str) : option str :=
  first_name (fun n => eqb (prefer_x P) (endswith (txt "x") n)) names.
(** pitch.py 596-605. *)
Definition s_francais (P : processor) (names : list str) : option str :=
  let subset := filter (fun n => eqb (prefer_accented P) (contains (txt "é") n)) names in
  match subset with
  | [x] => Some x
  | _ => let names := match subset with [] => names | _ => subset end in
         first_name (fun n => eqb (prefer_x P) (endswith (txt "x") n)) names
  end.
(** pitch.py 607-616. *)
Definition s_norsk (P : processor) (names : list str) : option str :=
  let subset := filter (fun n => eqb (prefer_double_s P) (contains (txt "ss") n)) names in
  match subset with
  | [x] => Some x
  | _ => let names := match subset with [] => names | _ => subset end in
         first_name (fun n => eqb (prefer_classic P) (contains (txt "ee") n || contains (txt "ae") n)) names
  end.
(** pitch.py 618-622. *)
Definition s_suomi (P : processor) (names : list str) : option str :=
  first_name (fun n => eqb (prefer_deprecated P) (in_strs n [txt "ases"; txt "bb"; txt "heses"])) names.

(** pitch.py 559: the dispatcher; unknown languages give None. *)
Definition suitable (P : processor) (names : list str) : option str :=
  let l := language P in
  if str_eqb l (txt "nederlands") then s_nederlands P names
  else if str_eqb l (txt "catalan") then s_catalan P names
  else if str_eqb l (txt "deutsch") then s_deutsch P names
  else if str_eqb l (txt "english") then s_english P names
  else if str_eqb l (txt "espanol") || str_eqb l (txt "español") then s_espanol P names
  else if str_eqb l (txt "français") then s_francais P names
  else if str_eqb l (txt "norsk") then s_norsk P names
  else if str_eqb l (txt "suomi") then s_suomi P names
  else None.

(** pitch.py 306-309. *)
Definition choose_name (P : processor) (names : list str) : str :=
  match names with
  | [n] => n
  | _ => match suitable P names with
         | Some (c :: n) => c :: n
         | _ => last names []
         end
  end.

(** pitch.py 293-310.  ([TypeError]: the loop body never ran and the function
    returned None; it does not happen.) *)
Definition name_octave (T : tables) (P : processor) (p : pitch) : res (str * Z) :=
  let! t := lang_table T (language P) in
  match dget noteq (reverse_table t) (note p, alter p) with
  | None => Err KeyError
  | Some od =>
      match sort_by (fun a b => Z.abs (a - octave p) <=? Z.abs (b - octave p)) (map fst od) with
      | [] => Err TypeError
      | o :: _ =>
          match dget Z.eqb od o with
          | None => Err KeyError
          | Some names => Ok (choose_name P names, octave p - o)
          end
      end
  end.

(** pitch.py 312-334. *)
Definition pitch_to_string (T : tables) (P : processor) (p : pitch) : res str :=
  let! (name, oct) := name_octave T P p in Ok (name ++ octave_to_string oct).

(** * Pitchable nodes *)

(** dom/lily.py 215-304: a Pitchable with its head and the heads of its (first)
    Octave, Accidental and OctCheck children.  Other children are not touched
    by the modelled code. *)
Record pnode := PNode { head : str; octave_child : option Z; oct_check : option Z }.

(** lily.py 228-240 (getter) and 242-248 (setter). *)
Definition node_octave (n : pnode) : Z := odefault 0 (octave_child n).
(** lily.py 228-240, with [node_octave] *)
Definition set_node_octave (n : pnode) (num : Z) : pnode :=
  match octave_child n with
  | Some _ => PNode (head n) (Some num) (oct_check n)
  | None => if num =? 0 then n else PNode (head n) (Some num) (oct_check n)
  end.
(** lily.py 228-240, with [node_octave] *)
Definition set_node_head (n : pnode) (h : str) : pnode := PNode h (octave_child n) (oct_check n).
(** lily.py 288-298: the oct_check setter. *)
Definition set_oct_check (n : pnode) (v : option Z) : pnode := PNode (head n) (octave_child n) v.

(** pitch.py 362-364. *)
Definition read_node (T : tables) (P : processor) (n : pnode) : res pitch :=
  let! p := pitch_of_name T P (head n) in
  Ok (Pitch (octave p + node_octave n) (note p) (alter p)).

(** pitch.py 383-389.  The node is state: the result is the node afterwards
    and whether an exception was raised. *)
Definition write_node (T : tables) (P : processor) (n : pnode) (p : pitch) : pnode * res unit :=
  match pitch_of_name T P (head n) with
  | Err e => (n, Err e)
  | Ok q =>
      if (note q =? note p) && Qeq_bool (alter q) (alter p)
      then (set_node_octave n (octave p - octave q), Ok tt)
      else match name_octave T P p with
           | Err e => (n, Err e)
           | Ok (h, o) => (set_node_octave (set_node_head n h) o, Ok tt)
           end
  end.

(** pitch.py 391-423; [body] is what the with-block does with the pitch. *)
Definition process (T : tables) (P : processor) (n : pnode) (write : bool)
    (body : pitch -> res pitch) : pnode * res pitch :=
  match read_node T P n with
  | Err e => (n, Err e)
  | Ok p =>
      match body p with
      | Err e => (n, Err e)
      | Ok p' => if write then
                   let (n', r) := write_node T P n p' in
                   (n', match r with Ok _ => Ok p' | Err e => Err e end)
                 else (n, Ok p')
      end
  end.

(** * Languages *)

(** pitch.py 461-478: the nodes walked over.  A Language or Include node
    carries its language attribute; None (or empty) if there is none. *)
Inductive walked (A : Type) := WLang (l : option str) (n : A) | WOther (n : A).
Arguments WLang {A} l n. Arguments WOther {A} n.

(** Every yielded node with the language of the processor at that moment; the
    second component is the final result (KeyError stops the walk). (pitch.py 461-481) *)
Fixpoint follow_language {A} (T : tables) (P : processor) (nodes : list (walked A))
    : list (A * str) * res processor :=
  match nodes with
  | [] => ([], Ok P)
  | WOther n :: r => let (l, e) := follow_language T P r in ((n, language P) :: l, e)
  | WLang lang n :: r =>
      match lang with
      | Some (c :: s) =>
          match language_set T P (c :: s) with
          | Ok P' => follow_language T P' r
          | Err e => ([], Err e)
          end
      | _ => let (l, e) := follow_language T P r in ((n, language P) :: l, e)
      end
  end.

(** pitch.py 447-459; [langs] are the language attributes of the Language and
    Include nodes before the node, nearest first. *)
Fixpoint find_language (T : tables) (P : processor) (langs : list (option str)) : res processor :=
  match langs with
  | [] => Ok P
  | Some (c :: s) :: _ => language_set T P (c :: s)
  | _ :: r => find_language T P r
  end.

(** pitch.py 480-557.  The local variables of the loop. *)
Record distilled := Distilled {
  d_accented : option bool; d_classic : option bool; d_double_s : option bool;
  d_long : option bool; d_x : option bool; d_deprecated : option bool }.

(** for [distill_name], pitch.py 506-541 *)
Definition truthy (o : option bool) : bool := match o with Some true => true | _ => false end.

(** "if yes: v = True elif not v and no: v = False". (for [distill_name], pitch.py 506-541) *)
Definition vote (v : option bool) (yes no : bool) : option bool :=
  if yes then Some true else if negb (truthy v) && no then Some false else v.

(** for [distill_name], pitch.py 506-541 *)
Definition firstn2_in (name : str) (l : list str) : bool := in_strs (firstn 2 name) l.

(** pitch.py 519: pnames[name][1] is the note (not the alteration). *)
Definition english_short (t : table) (name : str) : bool :=
  match dget str_eqb t name with
  | Some (_, n, _) => existsb (Qeq_bool (inject_Z n)) [-1; -(1#2); 1#2; 1]%Q
  | None => false
  end.

(** pitch.py 506-541: the votes of one name of the table. *)
Definition distill_name (lang : str) (t : table) (d : distilled) (name : str) : distilled :=
  let nl := str_eqb lang (txt "nederlands") in let no := str_eqb lang (txt "norsk") in
  let en := str_eqb lang (txt "english") in let fr := str_eqb lang (txt "français") in
  let de := str_eqb lang (txt "deutsch") in let fi := str_eqb lang (txt "suomi") in
  let es := str_eqb lang (txt "espanol") || str_eqb lang (txt "español") in
  Distilled
    (if fr then vote (d_accented d) (contains (txt "é") name) (contains (txt "e") name) else d_accented d)
    (if nl || no then vote (d_classic d) (firstn2_in name [txt "es"; txt "as"])
                        (firstn2_in name [txt "ee"; txt "ae"]) else d_classic d)
    (if no then vote (d_double_s d) (contains (txt "ss") name) (contains (txt "s") name) else d_double_s d)
    (if en then vote (d_long d) (contains (txt "-") name) (english_short t name) else d_long d)
    (vote (d_x d) (endswith (txt "x") name)
       ((endswith (txt "ss") name && (en || es)) || (endswith (txt "dd") name && fr)))
    (if de then vote (d_deprecated d) (in_strs name [txt "eeh"; txt "ases"; txt "aseh"; txt "aeh"])
                  (in_strs name [txt "eh"; txt "asas"; txt "asah"; txt "ah"])
     else if fi then vote (d_deprecated d) (in_strs name [txt "ases"; txt "bb"; txt "heses"])
                  (in_strs name [txt "asas"; txt "bes"])
     else d_deprecated d).

(** pitch.py 504-544: the loop. *)
Fixpoint distill_loop (T : tables) (lang : str) (t : table) (d : distilled) (names : list str) : distilled :=
  match names with
  | [] => d
  | name :: r =>
      if match dget str_eqb t name with Some _ => true | None => false end then distill_loop T lang t (distill_name lang t d name) r
      else match dget str_eqb T name with
           | Some (_, t') => distill_loop T name t' d r
           | None => distill_loop T lang t d r
           end
  end.

(** pitch.py 493-503 and 546-557. *)
Definition distill_preferences (T : tables) (P : processor) (names : list str) : res processor :=
  let! t := lang_table T (language P) in
  let d := distill_loop T (language P) t (Distilled None None None None None None) names in
  Ok (Processor (odefault (prefer_long P) (d_long d)) (odefault (prefer_accented P) (d_accented d))
        (odefault (prefer_x P) (d_x d)) (odefault (prefer_double_s P) (d_double_s d))
        (odefault (prefer_classic P) (d_classic d)) (odefault (prefer_deprecated P) (d_deprecated d))
        (language P)).

(** * Determining the language *)

(** pitch.py 661-662. *)
Definition ubiquitous : list str :=
  [txt "nederlands"; txt "english"; txt "deutsch"; txt "français"; txt "italiano"].
(** pitch.py 661-662, with [ubiquitous] *)
Definition exotic : list str := [txt "arabic"; txt "bagpipe"; txt "persian"].

(** id(pitch_names[name]). (for [langs], pitch.py 659-674) *)
Definition table_id (T : tables) (name : str) : res nat :=
  match dget str_eqb T name with Some (i, _) => Ok i | None => Err KeyError end.

(** for [langs], pitch.py 659-674 *)
Fixpoint map_res {A B} (f : A -> res B) (l : list A) : res (list B) :=
  match l with
  | [] => Ok []
  | a :: r => let! b := f a in let! bs := map_res f r in Ok (b :: bs)
  end.

(** pitch.py 667-670. *)
Fixpoint others (T : tables) (seen : list nat) : list str :=
  match T with
  | [] => []
  | (name, (i, _)) :: r =>
      if existsb (Nat.eqb i) seen then others r seen else name :: others r (i :: seen)
  end.

(** for [langs], pitch.py 659-674 *)
Fixpoint str_leb (a b : str) : bool :=
  match a, b with
  | [], _ => true
  | _ :: _, [] => false
  | x :: a', y :: b' =>
      if Ascii.eqb x y then str_leb a' b' else Nat.leb (nat_of_ascii x) (nat_of_ascii y)
  end.

(** pitch.py 659-674. *)
Definition langs (T : tables) : res (list str) :=
  let! seen := map_res (table_id T) (ubiquitous ++ exotic) in
  Ok (ubiquitous ++ sort_by str_leb (others T seen) ++ exotic).

(** pitch.py 676-679. *)
Definition determine_language (T : tables) (names : list str) : res (list str) :=
  let names := filter (fun n => negb (in_strs n [txt "r"; txt "R"; txt "s"; txt "q"])) names in
  let! ls := langs T in
  Ok (filter (fun l => match dget str_eqb T l with
                       | Some (_, t) => forallb (fun n => in_strs n (map fst t)) names
                       | None => false
                       end) ls).
