(** Model of read_head() and write_head() of the elements in quickly/dom/base.py, scm.py, lily.py, htm.py and tex.py. *)
From Coq Require Import Decimal DecimalString String Ascii List ZArith QArith Bool.
From Verif Require Import Base Duration_Model.
Import ListNotations.
Open Scope Z_scope.

(** A token of parce: whether its action is String.Escape, and its text. (for [string_read], base.py 53-56) *)
Inductive token := Tok (escape : bool) (text : str).
(** for [multi_read], lily.py 2392-2398 *)
Definition text_of (t : token) : str := match t with Tok _ s => s end.
(** for [multi_read], lily.py 2392-2398 *)
Definition str_eqb (a b : str) : bool := if list_eq_dec ascii_dec a b then true else false.
(** [''.join(t.text for t in l)]. (for [single_read], lily.py 2404-2410) *)
Definition join_text (l : list token) : str := flat_map text_of l.

(** for [escape_char], base.py 58-59 *)
Definition quote : ascii := """"%char. Definition backslash : ascii := "\"%char.

(** ** Strings *)
(** base.py 53-56 String.read_head; [origin[1:-1]] is all but the first and the last. *)
Definition string_read (origin : list token) : str :=
  flat_map (fun t => match t with Tok e s => if e then skipn 1 s else s end) (removelast (skipn 1 origin)).
(** base.py 58-59 String.write_head *)
Definition escape_char (c : ascii) : str := if Ascii.eqb c backslash || Ascii.eqb c quote then [backslash; c] else [c].
(** base.py 58-59, with [escape_char] *)
Definition string_write (head : str) : str := quote :: flat_map escape_char head ++ [quote].

(** ** Comments, commands, characters *)
(** lily.py 2404-2410, scm.py 80-85, tex.py 142-147: SinglelineComment after the character [c] *)
Definition single_read (origin : list token) : str := join_text (skipn 1 origin).
(** lily.py 2404-2410, with [single_read] *)
Definition single_write (c : ascii) (head : str) : str := c :: head.
(** lily.py 2392-2398, scm.py 90-96: MultilineComment.  [last] is the text that is looked for at the end ("%}" in LilyPond), [op] and [cl] are
    written around the head.  An empty origin does not occur. *)
Definition multi_read (cl : str) (origin : list token) : str :=
  let o := skipn 1 origin in
  if match List.rev origin with t :: _ => str_eqb (text_of t) cl | [] => false end then join_text (removelast o) else join_text o.
(** lily.py 2392-2398, with [multi_read] *)
Definition multi_write (op cl head : str) : str := op ++ head ++ cl.
(** base.py 90-103 BackslashCommand *)
Definition backslash_check (head : str) : bool := match head with c :: _ => negb (Ascii.eqb c backslash) | [] => true end.
(** base.py 90-103, with [backslash_check] *)
Definition backslash_read (origin : list token) : str := skipn 1 (join_text origin).
(** base.py 90-103, with [backslash_check] *)
Definition backslash_write (head : str) : str := backslash :: head.
(** scm.py 101-106 Char *)
Definition char_read (origin : list token) : str := match origin with t :: _ => skipn 2 (text_of t) | [] => [] end.
(** scm.py 101-106, with [char_read] *)
Definition char_write (head : str) : str := "#"%char :: backslash :: head.
(** tex.py 128-135 EnvironmentName.  [t.text not in "{}"] is false for "", "{", "}" and "{}". *)
Definition in_braces (s : str) : bool := existsb (str_eqb s) [[]; txt "{"; txt "}"; txt "{}"].
(** tex.py 128-135, with [in_braces] *)
Definition environment_read (origin : list token) : option str := option_map text_of (find (fun t => negb (in_braces (text_of t))) origin).
(** tex.py 128-135, with [in_braces] *)
Definition environment_write (head : str) : str := "{"%char :: head ++ ["}"%char].

(** ** Numbers *)
(** [str(z)]. (for [int_write], lily.py 594-596, 610-612) *)
Definition str_int (z : Z) : str := if z <? 0 then "-"%char :: dec (Z.to_N (- z)) else dec (Z.to_N z).
(** [str.split('/')]. (for [fraction_read], lily.py 636-641) *)
Fixpoint split_on (c : ascii) (cur : str) (s : str) : list str :=
  match s with [] => [List.rev cur] | x :: r => if Ascii.eqb x c then List.rev cur :: split_on c [] r else split_on c (x :: cur) r end.
(** for [fraction_read], lily.py 636-641 *)
Definition split (c : ascii) (s : str) : list str := split_on c [] s.
(** [map(f, l)] where [f] may raise. (for [fraction_read], lily.py 636-641) *)
Fixpoint mapr {A B} (f : A -> res B) (l : list A) : res (list B) :=
  match l with [] => Ok [] | x :: l => let! y := f x in let! r := mapr f l in Ok (y :: r) end.
(** lily.py 594-596, 610-612: Int *)
Definition int_write (z : Z) : str := str_int z.
(** lily.py 594-596, 610-612, with [int_write] *)
Definition int_read (origin : list token) : res Z := match origin with t :: _ => py_int (text_of t) | [] => Err IndexError end.
(** lily.py 636-641: Fraction; the head is a tuple *)
Definition fraction_write (a b : Z) : str := str_int a ++ "/"%char :: str_int b.
(** lily.py 636-641, with [fraction_write] *)
Definition fraction_read (origin : list token) : res (list Z) := match origin with t :: _ => mapr py_int (split "/" (text_of t)) | [] => Err IndexError end.

(** [fractions.Fraction(text)].  Simplified: an int, or an int and digits separated by a slash (no decimals, exponents, spaces). (for [scaling_read], lily.py 1799-1806) *)
Definition py_fraction (s : str) : res Q :=
  match split "/" s with
  | [a] => let! a := py_int a in Ok (inject_Z a)
  | [a; b] =>
      let! n := py_int a in
      match b with
      | "-"%char :: _ | "+"%char :: _ => Err ValueError
      | _ => let! d := py_int b in match d with Zpos p => Ok (Qred (n # p)) | _ => Err ZeroDivisionError end
      end
  | _ => Err ValueError
  end.
(** [str(fractions.Fraction)]; a Fraction is always in lowest terms. (for [scaling_write], lily.py 1808-1812) *)
Definition str_fraction (q : Q) : str :=
  let q := Qred q in
  match Qden q with 1%positive => str_int (Qnum q) | d => str_int (Qnum q) ++ "/"%char :: str_int (Zpos d) end.
(** lily.py 1799-1806 DurationScaling.read_head *)
Fixpoint scaling_read (scaling : Q) (origin : list token) : res Q :=
  match origin with
  | [] => Ok scaling
  | t :: l => if str_eqb (text_of t) (txt "*") then scaling_read scaling l else let! f := py_fraction (text_of t) in scaling_read (scaling * f)%Q l
  end.
(** lily.py 1808-1812 write_head *)
Definition scaling_write (q : Q) : str := if Qeq_bool q 1 then [] else "*"%char :: str_fraction q.

(** ** scm.py 148-203 Number, Bin, Oct, Hex: integers and fractions.  Floats, complex numbers, infinity and nan are not modelled. *)
Inductive radix := Bin | Oct | Dec | Hex.
(** scm.py 148-203, with [radix] *)
Definition base (r : radix) : N := match r with Bin => 2 | Oct => 8 | Dec => 10 | Hex => 16 end.
(** dom/scm.py 157 _prefix *)
Definition prefix (r : radix) : str := match r with Bin => txt "#b" | Oct => txt "#o" | Dec => [] | Hex => txt "#x" end.
(** [format(n, fmt)] with the formats of dom/scm.py 158: digits in the base, most significant first, "0" for 0 *)
Definition digit_char (n : N) : ascii := ascii_of_N (if (n <? 10)%N then 48 + n else 87 + n).
(** dom/scm.py 158, with [digit_char] *)
Fixpoint digits_loop (fuel : nat) (b n : N) (acc : str) : str :=
  match fuel with
  | O => acc
  | S fuel => let acc := digit_char (n mod b) :: acc in if (n / b =? 0)%N then acc else digits_loop fuel b (n / b) acc
  end.
(** dom/scm.py 158, with [digit_char] *)
Definition format_nat (b n : N) : str := digits_loop (S (N.to_nat (N.log2 n))) b n [].
(** dom/scm.py 158, with [digit_char] *)
Definition format_int (r : radix) (z : Z) : str := if z <? 0 then "-"%char :: format_nat (base r) (Z.to_N (- z)) else format_nat (base r) (Z.to_N z).
(** dom/scm.py 164-184 write_head, for ints (183) and Fractions (172-177) *)
Definition number_write_int (r : radix) (z : Z) : str := prefix r ++ format_int r z.
(** dom/scm.py 164-184, with [number_write_int] *)
Definition number_write_fraction (r : radix) (q : Q) : str :=
  let q := Qred q in
  prefix r ++ format_int r (Qnum q) ++ (if (Qden q =? 1)%positive then [] else "/"%char :: format_int r (Zpos (Qden q))).
(** dom/scm.py 206-213 Bool *)
Definition bool_read (origin : list token) : res bool :=
  match origin with t :: _ => match text_of t with _ :: c :: _ => Ok (Ascii.eqb c "t" || Ascii.eqb c "T") | _ => Err IndexError end | [] => Err IndexError end.
(** dom/scm.py 206-213, with [bool_read] *)
Definition bool_write (b : bool) : str := if b then txt "#t" else txt "#f".

(** ** htm.py *)
(** dom/htm.py 206-209 Text.write_head: [html.escape] with quote=True *)
Definition html_char (c : ascii) : str :=
  if Ascii.eqb c "&" then txt "&amp;" else if Ascii.eqb c "<" then txt "&lt;" else if Ascii.eqb c ">" then txt "&gt;"
  else if Ascii.eqb c quote then txt "&quot;" else if Ascii.eqb c "'" then txt "&#x27;" else [c].
(** dom/htm.py 206-209, with [html_char] *)
Definition html_write (head : str) : str := flat_map html_char head.
(** dom/htm.py 222-227 EntityRef *)
Definition entity_read (origin : list token) : str := match origin with t :: _ => removelast (skipn 1 (text_of t)) | [] => [] end.
(** dom/htm.py 222-227, with [entity_read] *)
Definition entity_write (head : str) : str := "&"%char :: head ++ [";"%char].
(** dom/htm.py 240-243 CData.write_head *)
Fixpoint replace_cdata (s : str) : str :=
  match s with
  | "]"%char :: (("]"%char :: (">"%char :: r)) as r') => txt "]]>]]&gt;<[CDATA[" ++ replace_cdata r
  | c :: r => c :: replace_cdata r
  | [] => []
  end.
(** dom/htm.py 240-243, with [replace_cdata] *)
Definition cdata_write (head : str) : str := txt "<[CDATA[" ++ replace_cdata head ++ txt "]]>".
