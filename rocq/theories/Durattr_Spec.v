(** What the duration attributes of a note mean. *)
From Coq Require Import String Ascii List ZArith QArith Bool.
From Verif Require Import Base.
Import ListNotations.

(** A note shows the duration and scaling of its first Duration child: a value and a
    product of scalings. *)
Inductive shows : list (Q * list Q) -> option (Q * Q) -> Prop :=
| shows_none : shows [] None
| shows_first v l r p : shows_product l p -> shows ((v, l) :: r) (Some (v, p))
with shows_product : list Q -> Q -> Prop :=
| product_one p : (p == 1)%Q -> shows_product [] p
| product_more s l p q : shows_product l p -> (q == s * p)%Q -> shows_product (s :: l) q.

(** As many scalings of one Duration the code can replace or remove. *)
Definition most (value : option Q) : nat := match value with Some v => if Qeq_bool v 1 then 1 else 2 | None => 1 end.
