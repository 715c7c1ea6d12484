(** Model of Key.key_signature in quickly/dom/lily.py 2147-2172. *)
From Coq Require Import String Ascii List ZArith QArith Bool.
From Verif Require Import Base Pitch_Model Key_Model.
Import ListNotations.

(** A Scheme element: a list, a number (scm.Number and its subclasses), or another one. (for [key_child], dom/lily.py 2157-2169) *)
Inductive skind := SList | SNumber (value : Q) | SOther (id : nat).
(** for [key_child], dom/lily.py 2157-2169 *)
Inductive sel := SE (k : skind) (kids : list sel).
(** [n // scm.List]: the descendants that are lists, in document order. (for [key_child], dom/lily.py 2157-2169) *)
Fixpoint lists_below (e : sel) : list (list sel) :=
  match e with
  | SE _ kids => flat_map (fun x => match x with SE SList l => [l] | _ => [] end ++ lists_below x) kids
  end.
(** [[n.head for n in n / scm.Number]]. (for [key_child], dom/lily.py 2157-2169) *)
Definition numbers_in (kids : list sel) : list Q := flat_map (fun x => match x with SE (SNumber q) _ => [q] | _ => [] end) kids.

(** A child of the Key: a Pitchable, a Mode, an IdentifierRef, a Scheme, or another element. (for [key_child], dom/lily.py 2157-2169) *)
Inductive child := KPitch (p : pnode) | KMode (head : str) | KRef (name : str) | KScheme (e : sel) | KElse (id : nat).

Section Key.
Variable scope : Type.
(** What a Python variable holds: a node or a scope (None: no scope). (for [key_child], dom/lily.py 2157-2169) *)
Inductive value := VNode (c : child) | VScope (s : option scope).
(** get_value_with_scope(scope, wait) of a reference: the value and the scope it was found in (427-443). Whatever is passed as scope. *)
Variable find : value -> str -> option (child * option scope).
Variable T : tables.
Variable P : processor.

(** The local variables [pitch], [mode] and [scope]. (for [key_child], dom/lily.py 2157-2169) *)
Record st := mk_st { s_pitch : option pitch; s_mode : option key_mode; s_scope : value }.
(** dom/lily.py 2157-2169, the body for one child. In case of a reference, 2164 assigns the value found to [scope] and the scope to [n] ([scope, n = ...], while
    the tuple is (value, scope)), so that in the next iteration of [while True] [n] is not a node and none of the tests holds: the loop breaks.
    2164 raises TypeError if there is no value (None cannot be unpacked). *)
Definition key_child (s : st) (n : child) : res st :=
  match n with
  | KPitch p => let! v := read_node T P p in Ok (mk_st (Some v) (s_mode s) (s_scope s))
  | KMode h => Ok (mk_st (s_pitch s) (Some (ModeName h)) (s_scope s))
  | KRef name =>
      match find (s_scope s) name with
      | None => Err TypeError
      | Some (v, _) => Ok (mk_st (s_pitch s) (s_mode s) (VNode v))
      end
  | KScheme e =>
      Ok (mk_st (s_pitch s) (fold_left (fun _ l => Some (ModeList (numbers_in l))) (lists_below e) (s_mode s)) (s_scope s))
  | KElse _ => Ok s
  end.
(** dom/lily.py 2157-2169, with [key_child] *)
Fixpoint key_children (s : st) (kids : list child) : res st :=
  match kids with [] => Ok s | n :: r => let! s := key_child s n in key_children s r end.
(** dom/lily.py 2170 [if pitch and mode]: an empty name or list is false. *)
Definition truthy (m : key_mode) : bool := match m with ModeName [] => false | ModeList [] => false | _ => true end.
(** dom/lily.py 2170, with [truthy] *)
Definition key_signature_of (kids : list child) (sc : option scope) : res (option key_signature) :=
  let! s := key_children (mk_st None None (VScope sc)) kids in
  match s_pitch s, s_mode s with
  | Some p, Some m => if truthy m then let! k := make_key (note p) (alter p) m [] in Ok (Some k) else Ok None
  | _, _ => Ok None
  end.
End Key.
