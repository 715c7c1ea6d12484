(** The numbers that a Python float (IEEE double) can hold. *)
From Coq Require Import ZArith QArith Qpower Qabs.
Open Scope Z_scope.

Definition double (v : Q) : Prop :=
  exists n k, Z.abs n < 2 ^ 53 /\ -1074 <= k /\ (v == inject_Z n * Qpower (2#1) k)%Q /\ (Qabs v < Qpower (2#1) 1024)%Q.

(** From here on rounding gives 2^1024: half a unit above the largest float, 2^1024 - 2^971. *)
Definition too_large : Q := (Qpower (2#1) 1024 - Qpower (2#1) 970)%Q.
(** The smallest float with full precision. *)
Definition smallest : Q := Qpower (2#1) (-1022).
