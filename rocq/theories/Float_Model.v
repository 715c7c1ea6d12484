(** The functions of quickly/duration.py on values of any size: [math.frexp] with the range of Python's floats (IEEE double), which Duration_Model leaves out. *)
From Coq Require Import String Ascii List ZArith QArith Qabs Bool.
From Verif Require Import Base Duration_Model.
Import ListNotations.
Open Scope Z_scope.

(** [float(v)] for an int or a Fraction: rounding to nearest, ties to even, with 53 bits, or less when the last bit would be below 2^-1074. (for [log_dotcount64], duration.py 115-119) *)
Definition float64 (v : Q) : res Q :=
  if Qeq_bool v 0 then Ok 0%Q
  else let u := Z.max (snd (frexpQ v) - 53) (-1074) in
       let r := (inject_Z (round_half_even (v * p2 (- u))) * p2 u)%Q in
       if Qle_bool (p2 1024) (Qabs r) then Err OverflowError else Ok r.

(** [math.frexp(v)]. (for [log_dotcount64], duration.py 115-119) *)
Definition frexp64 (v : Q) : res (Q * Z) := let! f := float64 v in Ok (frexpQ f).

(** duration.py 115-119 *)
Definition log_dotcount64 (value : Q) : res (Z * Z) :=
  let! (mantisse, exponent) := frexp64 value in
  let log := 1 - exponent in
  let (m, e) := frexpQ (1 - mantisse) in
  let dotcount := - e - (if Qle_bool m (1 # 2) then 0 else 1) in
  Ok (log, dotcount).

(** duration.py 194-199; [s * k] is empty for negative k *)
Definition to_string64 (value : Q) : res str :=
  let! (log, dotcount) := log_dotcount64 value in
  let! dur := (if log <? 0 then
                 match nth_error named_durations (Z.to_nat (-1 - log)) with
                 | Some s => Ok ("\"%char :: s)
                 | None => Err IndexError
                 end
               else Ok (dec (Z.to_N (Z.shiftl 1 log)))) in
  Ok (dur ++ dots dotcount).

(** duration.py 232-241 *)
Definition is_writable64 (value : Q) : res bool :=
  let! (mantisse, exponent) := frexp64 value in
  Ok ((-10 <? exponent) && (exponent <? 5) && Qeq_bool (fst (frexpQ (1 - mantisse))) (1 # 2)).
