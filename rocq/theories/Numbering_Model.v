(** Model of quickly/numbering.py. *)
From Coq Require Import String Ascii List ZArith Bool.
From Verif Require Import Base.
Import ListNotations.
Open Scope Z_scope.

(** numbering.py 41-45: the table of int2roman. *)
Definition roman_numerals : list (str * Z) :=
  [ (txt "M", 1000); (txt "CM", 900); (txt "D", 500); (txt "CD", 400);
    (txt "C", 100); (txt "XC", 90); (txt "L", 50); (txt "XL", 40);
    (txt "X", 10); (txt "IX", 9); (txt "V", 5); (txt "IV", 4); (txt "I", 1) ].

(** Python's [char * k] on strings (empty for k <= 0). (for [roman_loop], numbering.py 47-51) *)
Definition str_times (s : str) (k : Z) : str := concat (repeat s (Z.to_nat k)).

(** numbering.py 47-51: the loop of int2roman over the table. *)
Fixpoint roman_loop (table : list (str * Z)) (n : Z) : str :=
  match table with
  | [] => []
  | (c, num) :: rest => str_times c (n / num) ++ roman_loop rest (n mod num)
  end.

(** numbering.py 30-51. *)
Definition int2roman (n : Z) : res str :=
  if n <? 1 then Err ValueError else Ok (roman_loop roman_numerals n).

(** [str.upper], for ASCII characters only. (for [roman2int], numbering.py 54-72) *)
Definition upper_char (c : ascii) : ascii :=
  let n := nat_of_ascii c in
  if ((97 <=? n) && (n <=? 122))%nat then ascii_of_nat (n - 32) else c.
(** for [roman2int], numbering.py 54-72 *)
Definition upper (s : str) : str := map upper_char s.

(** numbering.py 63: the dictionary of roman2int. *)
Definition roman_value (c : ascii) : res Z :=
  match c with
  | "I"%char => Ok 1 | "V"%char => Ok 5 | "X"%char => Ok 10 | "L"%char => Ok 50
  | "C"%char => Ok 100 | "D"%char => Ok 500 | "M"%char => Ok 1000
  | _ => Err KeyError
  end.

(** numbering.py 65-71: the loop of roman2int over the reversed string. *)
Fixpoint roman_read (s : str) (num prev : Z) : res (Z * Z) :=
  match s with
  | [] => Ok (num, prev)
  | c :: s' =>
      let! val := roman_value c in
      if val <? prev then roman_read s' (num - val) prev
      else roman_read s' (num + val) val
  end.

(** numbering.py 54-72. *)
Definition roman2int (s : str) : res Z :=
  let! (num, _) := roman_read (rev (upper s)) 0 0 in Ok num.

(** numbering.py 87-89: the loop of int2letter; the result list is built in
    the order of the appends.  Fuel counts the iterations. *)
Fixpoint letter_loop (fuel : nat) (modulus n : Z) (result : list Z) : res (list Z) :=
  if n >? 0 then
    if modulus =? 0 then Err ZeroDivisionError
    else match fuel with
         | O => Err OutOfFuel
         | S f => letter_loop f modulus ((n - 1) / modulus) (result ++ [(n - 1) mod modulus])
         end
  else Ok result.

(** [chars[c]] as a string of length one; [c] is always in range in
    int2letter (it is a remainder modulo the length), [[]] otherwise. (for [int2letter], numbering.py 75-90) *)
Definition char_at (chars : str) (c : Z) : str :=
  match nth_error chars (Z.to_nat c) with Some x => [x] | None => [] end.

(** numbering.py 75-90. *)
Definition int2letter (n : Z) (chars : str) : res str :=
  let! ds := letter_loop (Z.to_nat n) (Z.of_nat (List.length chars)) n [] in
  Ok (flat_map (char_at chars) (rev ds)).

(** [str.index] of a single character. (for [letter_read], numbering.py 102-107) *)
Fixpoint index_of (c : ascii) (chars : str) : res Z :=
  match chars with
  | [] => Err ValueError
  | x :: r => if Ascii.eqb x c then Ok 0 else let! i := index_of c r in Ok (i + 1)
  end.

(** numbering.py 102-107. *)
Fixpoint letter_read (s chars : str) (result : Z) : res Z :=
  match s with
  | [] => Ok result
  | c :: s' =>
      let! i := index_of c chars in
      letter_read s' chars (result * Z.of_nat (List.length chars) + (i + 1))
  end.
(** numbering.py 102-107, with [letter_read] *)
Definition letter2int (s chars : str) : res Z := letter_read s chars 0.

(** The words int2text can yield.  [WOnes i] is ENGLISH_TO19[i], [WTens i] is
    ENGLISH_TENS[i] (tables imported from parce.lang.numbers). (for [below1000], numbering.py 124-132) *)
Inductive word := WOnes (i : Z) | WTens (i : Z) | WHundred | WThousand | WMillion.

(** numbering.py 124-132: the part below one thousand. *)
Definition below1000 (n : Z) : list word :=
  let w1 := if n >=? 100 then [WOnes (n / 100); WHundred] else [] in
  let n := if n >=? 100 then n mod 100 else n in
  let w2 := if n >=? 20 then [WTens (n / 10 - 2)] else [] in
  let n := if n >=? 20 then n mod 10 else n in
  w1 ++ w2 ++ (if n =? 0 then [] else [WOnes n]).

(** numbering.py 118-132: the recursive generator [_int2text].  [None] when
    the recursion fuel is exhausted. *)
Fixpoint words_of (fuel : nat) (n : Z) : option (list word) :=
  match fuel with
  | O => None
  | S f =>
      let m := if n >=? 1000000 then
                 match words_of f (n / 1000000) with
                 | Some l => Some (l ++ [WMillion]) | None => None end
               else Some [] in
      let n1 := if n >=? 1000000 then n mod 1000000 else n in
      let t := if n1 >=? 1000 then
                 match words_of f (n1 / 1000) with
                 | Some l => Some (l ++ [WThousand]) | None => None end
               else Some [] in
      let n2 := if n1 >=? 1000 then n1 mod 1000 else n1 in
      match m, t with
      | Some m, Some t => Some (m ++ t ++ below1000 n2)
      | _, _ => None
      end
  end.

(** numbering.py 133: joining the title-cased words, ['Zero'] when there are
    none.  [spell] gives the title-cased text of a word (tables of parce). *)
Definition int2text (spell : word -> str) (n : Z) : res str :=
  match words_of (S (Z.to_nat (Z.log2 n))) n with
  | None => Err OutOfFuel
  | Some ws => let s := flat_map spell ws in
               Ok (match s with [] => txt "Zero" | _ => s end)
  end.
