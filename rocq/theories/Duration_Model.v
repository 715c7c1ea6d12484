(** Model of quickly/duration.py.

    Values are exact rationals.  [math.frexp] first converts its argument to a
    float, which is modelled by [to_float]: rounding to nearest even with 53
    significant bits, with unbounded exponent range (overflow, underflow and
    subnormal numbers are not modelled; they need durations beyond 2^1000). *)
From Coq Require Import Decimal DecimalString String Ascii List ZArith QArith Qabs Bool.
From Verif Require Import Base.
Import ListNotations.
Open Scope Z_scope.

(** 2 to the power e, for any integer e. (for [log_dotcount], duration.py 115-119) *)
Definition p2 (e : Z) : Q := Qpower (2 # 1) e.

(** The exponent [e] with [2^(e-1) <= v < 2^e], for v > 0. (for [log_dotcount], duration.py 115-119) *)
Definition exponent_of (v : Q) : Z :=
  let k := Z.log2 (Qnum v) - Z.log2 (Zpos (Qden v)) in
  if Qle_bool (p2 k) v then k + 1 else k.

(** Mathematical frexp: [v = m * 2^e] with [1/2 <= |m| < 1]; (0, 0) for 0. (for [log_dotcount], duration.py 115-119) *)
Definition frexpQ (v : Q) : Q * Z :=
  if Qeq_bool v 0 then (0%Q, 0)
  else if Qle_bool 0 v then let e := exponent_of v in (v * p2 (- e), e)%Q
  else let e := exponent_of (- v) in (v * p2 (- e), e)%Q.

(** Round to the nearest integer, ties to even. (for [log_dotcount], duration.py 115-119) *)
Definition round_half_even (q : Q) : Z :=
  let n := Qnum q in let d := Zpos (Qden q) in
  let f := n / d in let r := n mod d in
  if 2 * r <? d then f
  else if d <? 2 * r then f + 1
  else if Z.even f then f else f + 1.

(** [float(v)]. (for [log_dotcount], duration.py 115-119) *)
Definition to_float (v : Q) : Q :=
  if Qeq_bool v 0 then 0%Q
  else let e := snd (frexpQ v) in
       (inject_Z (round_half_even (v * p2 (53 - e))) * p2 (e - 53))%Q.

(** [math.frexp(v)]. (for [log_dotcount], duration.py 115-119) *)
Definition frexp (v : Q) : Q * Z := frexpQ (to_float v).

(** duration.py 115-119.  [1 - mantisse] is exact on floats. *)
Definition log_dotcount (value : Q) : Z * Z :=
  let (mantisse, exponent) := frexp value in
  let log := 1 - exponent in
  let (m, e) := frexpQ (1 - mantisse) in
  let dotcount := - e - (if Qle_bool m (1 # 2) then 0 else 1) in
  (log, dotcount).

(** duration.py 122-131.  A negative shift count raises ValueError. *)
Definition duration (log dotcount : Z) : res Q :=
  if (dotcount <? 0) || (dotcount + log + 3 <? 0) then Err ValueError
  else
    let numer := Z.shiftl (Z.shiftl 2 dotcount - 1) 3 in
    let denom := Z.shiftl 1 (dotcount + log + 3) in
    Ok (inject_Z numer / inject_Z denom)%Q.

(** duration.py 171-172. *)
Definition shift_duration (value : Q) (log dotcount : Z) : res Q :=
  let (old_log, old_dotcount) := log_dotcount value in
  duration (old_log + log) (Z.max 0 (old_dotcount + dotcount)).

(** duration.py 37. *)
Definition named_durations : list str := [txt "breve"; txt "longa"; txt "maxima"].

(** Decimal printing of a non-negative int. (for [to_string], duration.py 194-199) *)
Definition dec (n : N) : str := txt (NilZero.string_of_uint (N.to_uint n)).

(** [s * k] for the one-character string '.'. (for [to_string], duration.py 194-199) *)
Definition dots (k : Z) : str := repeat "."%char (Z.to_nat k).

(** duration.py 194-199. *)
Definition to_string (value : Q) : res str :=
  let (log, dotcount) := log_dotcount value in
  let! dur := (if log <? 0 then
                 match nth_error named_durations (Z.to_nat (-1 - log)) with
                 | Some s => Ok ("\"%char :: s)
                 | None => Err IndexError
                 end
               else Ok (dec (Z.to_N (Z.shiftl 1 log)))) in
  Ok (dur ++ dots dotcount).

(** [str.count('.')]. (for [from_string], duration.py 202-229) *)
Definition count_char (c : ascii) (s : str) : Z :=
  Z.of_nat (List.length (filter (Ascii.eqb c) s)).

(** for [from_string], duration.py 202-229 *)
Fixpoint lstrip (p : ascii -> bool) (s : str) : str :=
  match s with
  | c :: r => if p c then lstrip p r else s
  | [] => []
  end.
(** [str.strip(chars)]. (for [from_string], duration.py 202-229) *)
Definition strip (p : ascii -> bool) (s : str) : str := rev (lstrip p (rev (lstrip p s))).

(** for [from_string], duration.py 202-229 *)
Definition is_sp_tab_dot (c : ascii) : bool :=
  Ascii.eqb c " " || Ascii.eqb c "009" || Ascii.eqb c ".".

(** [int(text)]: an optional sign and decimal digits.  Simplified: Python also
    accepts surrounding whitespace, underscores between digits and non-ASCII
    digits. (for [from_string], duration.py 202-229) *)
Definition py_int (s : str) : res Z :=
  let digits r := match NilZero.uint_of_string (string_of_list_ascii r) with
                  | Some u => match r with [] => Err ValueError | _ => Ok (Z.of_N (N.of_uint u)) end
                  | None => Err ValueError
                  end in
  match s with
  | "-"%char :: r => let! n := digits r in Ok (- n)
  | "+"%char :: r => digits r
  | _ => digits s
  end.

(** [int.bit_length()]. (for [from_string], duration.py 202-229) *)
Definition bit_length (n : Z) : Z := if n =? 0 then 0 else Z.log2 (Z.abs n) + 1.

(** for [from_string], duration.py 202-229 *)
Fixpoint str_index (x : str) (l : list str) : res Z :=
  match l with
  | [] => Err ValueError
  | y :: r => if list_eq_dec ascii_dec y x then Ok 0
              else let! i := str_index x r in Ok (i + 1)
  end.

(** duration.py 202-229. *)
Definition from_string (text : str) (dotcount : option Z) : res Q :=
  let d := match dotcount with None => count_char "." text | Some d => d end in
  let t := strip is_sp_tab_dot text in
  let! log := match py_int t with
              | Ok n => Ok (bit_length n - 1)
              | Err _ => let! i := str_index (lstrip (Ascii.eqb "\") t) named_durations in
                         Ok (-1 - i)
              end in
  duration log d.

(** duration.py 232-241. *)
Definition is_writable (value : Q) : bool :=
  let (mantisse, exponent) := frexp value in
  (-10 <? exponent) && (exponent <? 5) && Qeq_bool (fst (frexpQ (1 - mantisse))) (1 # 2).

(** duration.py 40-50: class Transform. *)
Record transform := Transform { t_log : Z; t_dotcount : Z; t_scale : Q }.

(** duration.py 47: the default arguments. *)
Definition transform_default : transform := Transform 0 0 1.

(** duration.py 52-53: __bool__. *)
Definition transform_bool (t : transform) : bool :=
  negb (t_log t =? 0) || negb (t_dotcount t =? 0) || negb (Qeq_bool (t_scale t) 1).

(** duration.py 59-63: __add__. *)
Definition transform_add (a b : transform) : transform :=
  Transform (t_log a + t_log b) (t_dotcount a + t_dotcount b) (t_scale a * t_scale b)%Q.

(** duration.py 70-74: transform. *)
Definition transform_apply (t : transform) (dur scaling : Q) : res (Q * Q) :=
  let! dur := (if negb (t_log t =? 0) || negb (t_dotcount t =? 0)
               then shift_duration dur (t_log t) (t_dotcount t) else Ok dur) in
  Ok (dur, scaling * t_scale t)%Q.

(** duration.py 65-68: length. *)
Definition transform_length (t : transform) (dur scaling : Q) : res Q :=
  let! (d, s) := transform_apply t dur scaling in Ok (d * s)%Q.
