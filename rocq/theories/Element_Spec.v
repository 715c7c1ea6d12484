(** Specification of written text: what a tree asks for, and how texts are
    joined; independent of points, loops and collapsing. *)
From Coq Require Import String Ascii List Arith Bool.
From Verif Require Import Base Element_Model.
Import ListNotations.

(** How often a character occurs. *)
Definition occurrences (c : ascii) (s : str) : nat := length (filter (Ascii.eqb c) s).
Definition newlines := occurrences nl.
Definition spaces := occurrences sp.

(** [w] is a stronger whitespace request than [v]: more newlines, or as many
    newlines and more spaces. *)
Definition stronger (w v : str) : Prop :=
  newlines v < newlines w \/ (newlines v = newlines w /\ spaces v < spaces w).

(** [g] is the whitespace to write for the requests [ws]: the first of the
    strongest ones, nothing if there are no requests. *)
Definition strongest (ws : list str) (g : str) : Prop :=
  (ws = [] /\ g = []) \/
  exists l1 l2, ws = l1 ++ g :: l2 /\ (forall w, In w l1 -> stronger g w) /\ (forall w, In w l2 -> ~ stronger w g).

(** A document is a sequence of texts and whitespace requests. *)
Record frag := Frag { f_span : option (nat * nat); f_text : res str; f_modified : bool }.
Inductive item := Req (w : str) | Txt (f : frag).

Definition has_head (a : attrs) : bool := match a_kind a with Plain => false | _ => true end.
Definition has_tail (a : attrs) : bool := match a_kind a with Block => true | _ => false end.

(** The element displays something: it or a descendant has a head. *)
Fixpoint shown (e : elem) : bool :=
  match e with E a kids => has_head a || existsb shown kids end.

Definition span_of (o : option (list token)) : option (nat * nat) :=
  match o with
  | None | Some [] => None
  | Some (t :: r) => Some (t_pos t, t_end (last r t))
  end.

Section Layout.
Variable concat_space : attrs -> elem -> elem -> str.

(** The head, the children in order and the tail, with the whitespace
    requests between them: [space_before] before the head, [space_after_head] after
    the head if children or a tail follow, else [space_after]; [concat_space]
    between two children (after a child that displays something);
    [space_before_tail] before the tail; [space_after] after the
    tail or after the last child if there is no tail. *)
Fixpoint layout (e : elem) : list item :=
  match e with
  | E a kids =>
      (if has_head a
       then [Req (a_before a);
             Txt (Frag (span_of (a_head_origin a)) (a_head a) (a_head_modified a));
             Req (match kids, a_tail a with [], [] => a_after a | _, _ => a_after_head a end)]
       else [])
      ++ (fix children (l : list elem) : list item :=
            match l with
            | [] => []
            | n :: r =>
                layout n
                ++ (if shown n
                    then match r with
                         | m :: _ => [Req (concat_space a n m)]
                         | [] => if has_tail a then [] else [Req (a_after a)]
                         end
                    else [])
                ++ children r
            end) kids
      ++ (if has_tail a
          then [Req (a_before_tail a);
                Txt (Frag (span_of (a_tail_origin a)) (Ok (a_tail a)) (a_tail_modified a));
                Req (a_after a)]
          else [])
  end.
End Layout.

(** The heads and tails in document order. *)
Fixpoint texts (e : elem) : list (res str) :=
  match e with
  | E a kids =>
      (if has_head a then [a_head a] else [])
      ++ (fix go (l : list elem) := match l with [] => [] | n :: r => texts n ++ go r end) kids
      ++ (if has_tail a then [Ok (a_tail a)] else [])
  end.

(** No element has an empty tuple of origin tokens for its head. *)
Fixpoint has_origins (e : elem) : Prop :=
  match e with
  | E a kids =>
      (a_kind a = Plain \/ a_head_origin a <> Some [])
      /\ (fix go (l : list elem) : Prop := match l with [] => True | n :: r => has_origins n /\ go r end) kids
  end.

Definition is_text (t : res str) (s : str) : Prop := t = Ok s.

(** The non-empty texts of a document, each with the requests that follow it up to
    the next non-empty text; preceded by the requests before the first text. *)
Fixpoint sections (l : list item) : list str * list (str * list str) :=
  match l with
  | [] => ([], [])
  | Req w :: r => let (ws, s) := sections r in (w :: ws, s)
  | Txt f :: r =>
      let (ws, s) := sections r in
      match f_text f with
      | Ok (c :: t) => ([], (c :: t, ws) :: s)
      | _ => (ws, s)
      end
  end.

(** The requests after the last text. *)
Fixpoint trailing (d : list str) (secs : list (str * list str)) : list str :=
  match secs with [] => d | (_, ws) :: r => trailing ws r end.

(** Texts joined by the strongest of the requests between them. *)
Inductive joined : list (str * list str) -> str -> Prop :=
| joined_nil : joined [] []
| joined_one t ws : joined [(t, ws)] t
| joined_cons t ws g x l s : strongest ws g -> joined (x :: l) s -> joined ((t, ws) :: x :: l) (t ++ g ++ s).

(** Whitespace text. *)
Definition is_ws (c : ascii) : bool := Ascii.eqb c nl || Ascii.eqb c sp || Ascii.eqb c (ascii_of_nat 9) || Ascii.eqb c (ascii_of_nat 13).
Definition blank (s : str) : Prop := forall c, In c s -> is_ws c = true.

(** Text interleaved with whitespace. *)
Inductive spaced : list str -> str -> Prop :=
| spaced_nil : spaced [] []
| spaced_one t : spaced [t] t
| spaced_cons t g x l s : blank g -> spaced (x :: l) s -> spaced (t :: x :: l) (t ++ g ++ s).

(** Applying text changes, all in terms of positions in the original text, in
    the order given: text before the change is kept, the changed region is replaced. *)
Definition between (text : str) (i j : nat) : str := firstn (j - i) (skipn i text).
Fixpoint apply_changes (text : str) (from : nat) (cs : list change) : str :=
  match cs with
  | [] => skipn from text
  | c :: r => between text from (c_pos c) ++ c_text c ++ apply_changes text (c_end c) r
  end.

(** Changes are in order and do not overlap, from position [from] on. *)
Fixpoint in_order (from : nat) (cs : list change) : Prop :=
  match cs with
  | [] => True
  | c :: r => from <= c_pos c /\ c_pos c <= c_end c /\ in_order (c_end c) r
  end.

(** ** Source positions *)
(** Tokens in source order, not overlapping, from position [from] on. *)
Fixpoint tokens_from (from : nat) (ts : list token) : Prop :=
  match ts with
  | [] => True
  | t :: r => from <= t_pos t /\ t_pos t < t_end t /\ tokens_from (t_end t) r
  end.

(** Position [i] does not fall inside a token. *)
Definition cuts_no_token (ts : list token) (i : nat) : Prop := forall t, In t ts -> t_end t <= i \/ i <= t_pos t.

(** The character at [i] belongs to no token. *)
Definition outside (ts : list token) (i : nat) : Prop := forall t, In t ts -> ~ (t_pos t <= i < t_end t).

(** The points that have a place in the source are in source order from position
    [from] on, start at a token and cut no token. *)
Fixpoint placed (ts : list token) (from : nat) (ps : list point) : Prop :=
  match ps with
  | [] => True
  | p :: r =>
      match p_span p with
      | None => placed ts from r
      | Some (i, j) => from <= i /\ i < j /\ (exists t, In t ts /\ t_pos t = i) /\ cuts_no_token ts j /\ placed ts j r
      end
  end.

(** The end of the last point that has a place in the source. *)
Fixpoint last_end (from : nat) (ps : list point) : nat :=
  match ps with [] => from | p :: r => last_end (match p_span p with None => from | Some (_, j) => j end) r end.

(** [rewritten text after ps s]: [s] is the new text for the points [ps],
    where [after] is the whitespace wanted after the text preceding them.  A new
    point is written with exactly the wanted whitespace, a point already in the source
    keeps its text unless it is modified; it is preceded by some whitespace, and
    by at least some if there was whitespace wanted. *)
Inductive rewritten (text : str) : str -> list point -> str -> Prop :=
| rw_nil a : rewritten text a [] []
| rw_empty a p r s : p_span p = None -> p_text p = Ok [] -> rewritten text a r s -> rewritten text a (p :: r) s
| rw_new a p r s g t : p_span p = None -> p_text p = Ok t -> t <> [] -> strongest [a; p_before p] g ->
    rewritten text (p_after p) r s -> rewritten text a (p :: r) (g ++ t ++ s)
| rw_kept a p r s g i j : p_span p = Some (i, j) -> p_modified p = false ->
    blank g -> (strongest [a; p_before p] [] \/ g <> []) ->
    rewritten text (p_after p) r s -> rewritten text a (p :: r) (g ++ between text i j ++ s)
| rw_modified a p r s g t i j : p_span p = Some (i, j) -> p_modified p = true -> p_text p = Ok t ->
    blank g -> (strongest [a; p_before p] [] \/ g <> []) ->
    rewritten text (p_after p) r s -> rewritten text a (p :: r) (g ++ t ++ s).

(** The texts that are needed can be written. *)
Definition writable (p : point) : Prop := (p_span p = None \/ p_modified p = true) -> exists t, p_text p = Ok t.

(** No point is new or modified, texts that touch want no whitespace, every token
    that starts at or after [from] starts within a point. *)
Fixpoint untouched (all : list token) (from : nat) (a : str) (ps : list point) : Prop :=
  match ps with
  | [] => True
  | p :: r =>
      match p_span p with
      | None => False
      | Some (i, j) =>
          p_modified p = false /\ (from = i -> strongest [a; p_before p] []) /\
          (forall t, In t all -> from <= t_pos t -> t_pos t < i -> False) /\ untouched all j (p_after p) r
      end
  end.


(** ** Spacing attributes *)
(** A history of assignments and deletions; the value of an attribute is what was last
    assigned to it, or its default if it was never assigned or was deleted since. *)
Inductive space_op := SetSpace (name : nat) (v : str) | DelSpace (name : nat).
Definition op_on (o : space_op) : nat := match o with SetSpace n _ => n | DelSpace n => n end.
Fixpoint last_value (default : nat -> str) (name : nat) (h : list space_op) (now : str) : str :=
  match h with
  | [] => now
  | o :: r =>
      last_value default name r
        (if Nat.eqb (op_on o) name then match o with SetSpace _ v => v | DelSpace n => default n end else now)
  end.
