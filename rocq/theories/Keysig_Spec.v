(** What the key of a \key command is. *)
From Coq Require Import String Ascii List ZArith QArith Bool.
From Verif Require Import Base Pitch_Model Key_Model Keysig_Model.
Import ListNotations.

(** A Scheme element with no list in it, not being one. *)
Inductive listless : sel -> Prop :=
| listless_all k kids : k <> SList -> Forall listless kids -> listless (SE k kids).

(** [q]s are the numbers among the elements, in order. *)
Inductive numbers : list sel -> list Q -> Prop :=
| numbers_nil : numbers [] []
| numbers_number q kids r l : numbers r l -> numbers (SE (SNumber q) kids :: r) (q :: l)
| numbers_other k kids r l : (forall q, k <> SNumber q) -> numbers r l -> numbers (SE k kids :: r) l.

(** The list of numbers that a Scheme expression has: its only list, at any depth (as under a quote). *)
Inductive the_list : sel -> list Q -> Prop :=
| list_here k a kids b l : k <> SList -> Forall listless a -> Forall listless b -> Forall listless kids -> numbers kids l ->
    the_list (SE k (a ++ SE SList kids :: b)) l
| list_below k a x b l : k <> SList -> Forall listless a -> Forall listless b -> the_list x l -> the_list (SE k (a ++ x :: b)) l.

(** The mode that an argument means: a name, a list of alterations, or that of the variable referred to. *)
Section Mode.
Variable scope : Type.
Variable find : value scope -> str -> option (child * option scope).
Inductive mode_value : option scope -> child -> key_mode -> Prop :=
| mode_name sc h : h <> [] -> mode_value sc (KMode h) (ModeName h)
| mode_list sc e l : the_list e l -> l <> [] -> mode_value sc (KScheme e) (ModeList l)
| mode_variable sc name v sc' m : find (VScope scope sc) name = Some (v, sc') -> mode_value sc' v m -> mode_value sc (KRef name) m.
End Mode.

(** The arguments are a pitch and a mode; there may be other elements (comments). *)
Inductive arguments : list child -> pnode -> child -> Prop :=
| arguments_are a p b m c : Forall (fun x => exists i, x = KElse i) a -> Forall (fun x => exists i, x = KElse i) b -> Forall (fun x => exists i, x = KElse i) c ->
    arguments (a ++ KPitch p :: b ++ m :: c) p m.
