(** Specification side for numbering: what number words, and lengths-first
    order of strings, mean.  Independent of the code. *)
From Coq Require Import String Ascii List ZArith Bool.
From Verif Require Import Base Numbering_Model.
Import ListNotations.
Open Scope Z_scope.

(** Reading a sequence of English number words from left to right:
    [total] is what has been closed by "thousand" or "million" so far and
    [cur] is the group being read. *)
Fixpoint read_words (ws : list word) (total cur : Z) : Z :=
  match ws with
  | [] => total + cur
  | WOnes i :: r => read_words r total (cur + i)
  | WTens i :: r => read_words r total (cur + 10 * (i + 2))
  | WHundred :: r => read_words r total (cur * 100)
  | WThousand :: r => read_words r (total + cur * 1000) 0
  | WMillion :: r => read_words r ((total + cur) * 1000000) 0
  end.
Definition value_of_words (ws : list word) : Z := read_words ws 0 0.

(** A word that can occur in a number name. *)
Definition usable (w : word) : Prop :=
  match w with
  | WOnes i => 1 <= i <= 19
  | WTens i => 0 <= i <= 7
  | _ => True
  end.

Definition is_upper (c : ascii) : Prop := (65 <= nat_of_ascii c <= 90)%nat.
Definition is_lower (c : ascii) : Prop := (97 <= nat_of_ascii c <= 122)%nat.

(** A title-cased word: one capital, then small letters. *)
Definition titled (s : str) : Prop :=
  exists c r, s = c :: r /\ is_upper c /\ Forall is_lower r.

(** What the spelling of the words (the tables of parce, title-cased) must
    satisfy: title-cased, all different, and none is "Zero". *)
Definition good_spelling (spell : word -> str) : Prop :=
  (forall w, usable w -> titled (spell w) /\ spell w <> txt "Zero") /\
  (forall v w, usable v -> usable w -> spell v = spell w -> v = w).

(** The actual English words. *)
Definition english_to19 : list str := map txt
  ["Zero"; "One"; "Two"; "Three"; "Four"; "Five"; "Six"; "Seven"; "Eight"; "Nine";
   "Ten"; "Eleven"; "Twelve"; "Thirteen"; "Fourteen"; "Fifteen"; "Sixteen";
   "Seventeen"; "Eighteen"; "Nineteen"]%string.
Definition english_tens : list str := map txt
  ["Twenty"; "Thirty"; "Forty"; "Fifty"; "Sixty"; "Seventy"; "Eighty"; "Ninety"]%string.
Definition english (w : word) : str :=
  match w with
  | WOnes i => nth (Z.to_nat i) english_to19 []
  | WTens i => nth (Z.to_nat i) english_tens []
  | WHundred => txt "Hundred" | WThousand => txt "Thousand" | WMillion => txt "Million"
  end.

(** Small letters for capitals *)
Definition lower_char (c : ascii) : ascii :=
  let n := nat_of_ascii c in
  if ((65 <=? n) && (n <=? 90))%nat then ascii_of_nat (n + 32) else c.
Definition lower (s : str) : str := map lower_char s.

(** The letters of roman numerals. *)
Definition roman_letter (c : ascii) : Prop := In c (txt "IVXLCDM").

(** The standard roman numeral: thousands, then the usual numerals of the hundreds, the tens and the units. *)
Definition roman_hundreds : list str := map txt [""; "C"; "CC"; "CCC"; "CD"; "D"; "DC"; "DCC"; "DCCC"; "CM"]%string.
Definition roman_tens : list str := map txt [""; "X"; "XX"; "XXX"; "XL"; "L"; "LX"; "LXX"; "LXXX"; "XC"]%string.
Definition roman_units : list str := map txt [""; "I"; "II"; "III"; "IV"; "V"; "VI"; "VII"; "VIII"; "IX"]%string.
Definition standard_roman (n : Z) : str :=
  repeat "M"%char (Z.to_nat (n / 1000)) ++ nth (Z.to_nat ((n / 100) mod 10)) roman_hundreds [] ++
  nth (Z.to_nat ((n / 10) mod 10)) roman_tens [] ++ nth (Z.to_nat (n mod 10)) roman_units [].
(** Two letters that are the same but for their case. *)
Definition capitals : str := txt "ABCDEFGHIJKLMNOPQRSTUVWXYZ".
Definition smalls : str := txt "abcdefghijklmnopqrstuvwxyz".
Definition same_letter (a b : ascii) : Prop :=
  a = b \/ exists i, (nth_error smalls i = Some a /\ nth_error capitals i = Some b) \/ (nth_error capitals i = Some a /\ nth_error smalls i = Some b).

(** The English text of a number, read word by word, denotes the number. *)
Definition denotes (s : str) (n : Z) : Prop :=
  (s = txt "Zero" /\ n = 0) \/
  (exists ws, ws <> [] /\ Forall usable ws /\ s = flat_map english ws /\ value_of_words ws = n).

(** Shorter strings first, then alphabetical by position in [chars]. *)
Fixpoint lex_lt (chars : str) (a b : str) : Prop :=
  match a, b with
  | x :: a', y :: b' =>
      (exists i j, index_of x chars = Ok i /\ index_of y chars = Ok j /\ i < j)
      \/ (x = y /\ lex_lt chars a' b')
  | _, _ => False
  end.
Definition shortlex (chars : str) (a b : str) : Prop :=
  (List.length a < List.length b)%nat \/
  (List.length a = List.length b /\ lex_lt chars a b).
