(** Model of transform() of the commands in quickly/dom/lily.py that change durations. *)
From Coq Require Import List ZArith QArith Bool.
From Verif Require Import Base Duration_Model Time_Model.
Import ListNotations.
Open Scope nat_scope.

(** The head of a scm.Number (dom/scm.py 148-163): an int, a fractions.Fraction or a float.  Simplification: a float is
    its exact value, infinite and complex ones are left out. *)
Inductive num := NInt (z : Z) | NFraction (q : Q) | NFloat (q : Q).
(** The children of a Scheme element (dom/lily.py 666): numbers, and other expressions. *)
Inductive scm_child := SNumber (n : num) | SOther.
(** The children of a command, as far as dom/lily.py 3455-3480 tell them apart: Int 603, Float 644 (with a float as
    head), Fraction 618 (with its head), Scheme 666, any other element. *)
Inductive arg := AInt (z : Z) | AFloat (q : Q) | AFraction (a b : Z) | AScheme (kids : list scm_child) | ANode (n : mn).
(** Classes of dom/lily.py: Times 2224, Tuplet 2244, ScaleDurations 2267, ShiftDurations 2285, Grace 2305 with Acciaccatura 2322, Appoggiatura 2331 and
    SlashedGrace 2340. *)
Inductive command := Times | Tuplet | ScaleDurations | ShiftDurations | Grace | Acciaccatura | Appoggiatura | SlashedGrace.

(** dom/lily.py 624-626 Fraction.fraction: fractions.Fraction(a, b), in which b may be negative *)
Definition fraction (a b : Z) : res Q :=
  if (b =? 0)%Z then Err ZeroDivisionError else Ok (inject_Z a / inject_Z b)%Q.

(** dom/lily.py 3455-3464: the value of a number *)
Definition num_value (n : num) : Q := match n with NInt z => inject_Z z | NFraction q => q | NFloat q => q end.
(** dom/lily.py 3455-3464 get_num_value *)
Definition get_num_value (x : arg) : res (option Q) :=
  match x with
  | AInt z => Ok (Some (inject_Z z))
  | AFloat q => Ok (Some q)
  | AFraction a b => let! q := fraction a b in Ok (Some q)
  | AScheme [SNumber n] => Ok (Some (num_value n))
  | _ => Ok None
  end.

(** dom/lily.py 3471, 3479: float.is_integer and int() *)
Definition float_int (q : Q) : option Z :=
  if Z.eqb (Qnum q mod Zpos (Qden q)) 0 then Some (Qnum q / Zpos (Qden q))%Z else None.
(** dom/lily.py 3467-3480 get_int_value *)
Definition get_int_value (x : arg) : option Z :=
  match x with
  | AInt z => Some z
  | AFloat q => float_int q
  | AScheme [SNumber (NInt z)] => Some z
  | AScheme [SNumber (NFloat q)] => float_int q
  | _ => None
  end.

(** dom/lily.py 2237: the first Fraction child *)
Fixpoint first_fraction (kids : list arg) : res (option Q) :=
  match kids with
  | [] => Ok None
  | AFraction a b :: _ => let! q := fraction a b in Ok (Some q)
  | _ :: r => first_fraction r
  end.
(** dom/lily.py 2278, 3483-3492: the first value of filter_map(get_num_value, self) *)
Fixpoint first_num (kids : list arg) : res (option Q) :=
  match kids with
  | [] => Ok None
  | x :: r => let! v := get_num_value x in match v with Some q => Ok (Some q) | None => first_num r end
  end.
(** dom/lily.py 2296, 3483-3492: filter_map(get_int_value, self) *)
Fixpoint ints (kids : list arg) : list Z :=
  match kids with
  | [] => []
  | x :: r => match get_int_value x with Some z => z :: ints r | None => ints r end
  end.

(** for [command_transform], dom/lily.py 2238, 2279 *)
Definition scaled (v : option Q) : option transform := match v with Some q => Some (Transform 0 0 q) | None => None end.
(** transform(): dom/lily.py 2235-2238 Times, 2253-2256 Tuplet, 2276-2279 ScaleDurations, 2294-2299 ShiftDurations, 2314-2316 Grace *)
Definition command_transform (c : command) (kids : list arg) : res (option transform) :=
  match c with
  | Times => let! v := first_fraction kids in Ok (scaled v)
  | Tuplet =>
      let! v := first_fraction kids in
      match v with
      | Some q => if Qeq_bool q 0 then Err ZeroDivisionError else Ok (scaled (Some (1 / q)%Q))
      | None => Ok None
      end
  | ScaleDurations => let! v := first_num kids in Ok (scaled v)
  | ShiftDurations => Ok match ints kids with l :: d :: _ => Some (Transform l d 1) | _ => None end
  | Grace | Acciaccatura | Appoggiatura | SlashedGrace => Ok (Some (Transform 0 0 0))
  end.

(** An argument as time.py 330-343 sees it. *)
Definition arg_node (x : arg) : mn := match x with ANode n => n | _ => MN Other None None [] end.
(** A command as time.py 311-328 sees it: Music with its transform.  Err is what time.py 322 raises in it. *)
Definition command_node (c : command) (kids : list arg) : res mn :=
  let! tr := command_transform c kids in Ok (MN OtherMusic tr None (map arg_node kids)).
