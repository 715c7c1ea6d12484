(** Common definitions: Python results and exceptions, text. *)
From Coq Require Import String Ascii List ZArith.
Import ListNotations.

(** Python exceptions observable in the modelled code.  [OutOfFuel] is not a
    Python exception: it marks that a fuelled loop of the model ran out of
    fuel; theorems about such loops show that it does not occur. *)
Inductive exn :=
| ValueError | KeyError | IndexError | TypeError | AttributeError
| ZeroDivisionError | UnboundLocalError | RuntimeError | OverflowError | NameError | OutOfFuel.

Inductive res (A : Type) :=
| Ok (a : A)
| Err (e : exn).
Arguments Ok {A} a.
Arguments Err {A} e.

Definition bindr {A B} (r : res A) (f : A -> res B) : res B :=
  match r with Ok a => f a | Err e => Err e end.

Notation "'let!' x ':=' r 'in' e" := (bindr r (fun x => e))
  (at level 200, x pattern, r at level 100, e at level 200, right associativity).

Definition is_ok {A} (r : res A) : bool := match r with Ok _ => true | Err _ => false end.

(** Text is a list of (ASCII) characters. *)
Definition str := list ascii.
Definition txt (s : string) : str := list_ascii_of_string s.
