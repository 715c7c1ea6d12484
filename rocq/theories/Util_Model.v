(** Model of add_newlines() and pop_comments() in quickly/dom/util.py. *)
From Coq Require Import String Ascii List ZArith Bool PeanoNat.
From Verif Require Import Base.
Import ListNotations.
Open Scope nat_scope.

(** ** add_newlines 76-134 *)
(** A node: the position of the first token of its head_origin and tail_origin (None if there is no such attribute; the origins are
    never empty), its space_before and space_before_tail, and its children. (for [handle_node], dom/util.py 110-130) *)
Inductive un := UN (head tail : option nat) (space_before space_before_tail : str) (kids : list un).

(** for [whitespace_key], dom/util.py 25-33 *)
Definition newline : ascii := "010"%char.
(** dom/util.py 25-33 whitespace_key, and [>] on the tuples *)
Definition count (c : ascii) (s : str) : nat := List.length (filter (Ascii.eqb c) s).
(** dom/util.py 25-33, with [count] *)
Definition whitespace_key (s : str) : nat * nat := (count newline s, count " " s).
(** dom/util.py 25-33, with [count] *)
Definition key_gt (a b : nat * nat) : bool := (fst b <? fst a) || ((fst a =? fst b) && (snd b <? snd a)).

(** [text.find(sep, start)]: [i] is the index of the start of [text]. (for [block_from], dom/util.py 95-97) *)
Fixpoint is_prefix (p s : str) : bool :=
  match p, s with [], _ => true | _, [] => false | a :: p, b :: s => Ascii.eqb a b && is_prefix p s end.
(** for [block_from], dom/util.py 95-97 *)
Fixpoint find_from (sep text : str) (i start : nat) : option nat :=
  if (start <=? i) && is_prefix sep text then Some i
  else match text with [] => None | _ :: r => find_from sep r (S i) start end.

Section AddNewlines.
Variables (text sep : str) (max_blank_lines : Z).

(** dom/util.py 95-97: the next block, searched from [start] *)
Definition block_from (start : nat) : nat := match find_from sep text 0 start with Some i => i | None => length text end.
(** dom/util.py 101-108 get_newlines with 92-99 next_block; the loop *)
Fixpoint loop (fuel : nat) (pos current_block cnt : nat) : res (nat * nat) :=
  match fuel with
  | O => Err OutOfFuel
  | S fuel =>
      if current_block <? pos then
        if current_block <? length text then loop fuel pos (block_from (current_block + 1)) (S cnt)
        else Ok (current_block, cnt)
      else Ok (current_block, cnt)
  end.
(** dom/util.py 101-108, with [loop] *)
Definition get_newlines (pos current_block : nat) : res (str * nat) :=
  let! (cb, cnt) := loop (S (S (length text))) pos current_block 0 in
  Ok (repeat newline (Z.to_nat (Z.min (Z.of_nat cnt) max_blank_lines)), cb).
(** dom/util.py 116-118, 128-130: the new value of the property *)
Definition update (pos : option nat) (space : str) (cb : nat) : res (str * nat) :=
  match pos with
  | None => Ok (space, cb)
  | Some p =>
      let! (s, cb) := get_newlines p cb in
      Ok (match s with [] => space | _ => if key_gt (whitespace_key s) (whitespace_key space) then s else space end, cb)
  end.
(** dom/util.py 110-130 handle_node *)
Fixpoint handle_node (n : un) (cb : nat) : res (un * nat) :=
  match n with
  | UN h t sb st kids =>
      let! (sb, cb) := update h sb cb in
      let! (kids, cb) := (fix go (l : list un) (cb : nat) : res (list un * nat) :=
        match l with [] => Ok ([], cb) | c :: l => let! (c, cb) := handle_node c cb in let! (l, cb) := go l cb in Ok (c :: l, cb) end) kids cb in
      let! (st, cb) := update t st cb in
      Ok (UN h t sb st kids, cb)
  end.
(** dom/util.py 132-134; [current_block + 1] is 0 *)
Definition add_newlines (n : un) : res un := let! (n, _) := handle_node n (block_from 0) in Ok n.
End AddNewlines.

(** ** pop_comments 159-169 *)
(** A node with an identity, whether it is a Comment, and its children. (for [kids_of], dom/util.py 163-167) *)
Inductive cn := CN (id : nat) (comment : bool) (kids : list cn).
(** for [pop_comments], dom/util.py 163-167 *)
Definition is_comment (n : cn) : bool := match n with CN _ c _ => c end.
(** dom/util.py 163-167 *)
Definition kids_of (n : cn) : list cn := match n with CN _ _ k => k end.
(** The loop in dom/util.py 163-167.  It pops comments off the end of the children, and goes on in the last child that is not a comment; the comments
    that are found there come before those that were popped, because of the reverse in 168.  Simplified: written as a recursion that
    looks at the last children first. *)
Fixpoint pop_comments (n : cn) : cn * list cn :=
  match n with
  | CN i c kids =>
      let (kids, cs) := (fix go (l : list cn) : list cn * list cn :=
        match l with
        | [] => ([], [])
        | x :: r =>
            match go r with
            | ([], cs) => if is_comment x then ([], x :: cs) else let (x, cs') := pop_comments x in ([x], cs' ++ cs)
            | (r, cs) => (x :: r, cs)
            end
        end) kids in
      (CN i c kids, cs)
  end.
