(** Model of quickly/datatypes.py: Properties.

    A property set is its instance dictionary: names with their values in
    order of insertion, every name once.  The value None of Python is the
    [None] of [option V].  Names are those of instance attributes: the few
    names found on the class (methods and dunder names) are not modelled.
    Not modelled: __repr__ (66-71). *)
From Coq Require Import String Ascii List Bool PeanoNat.
From Verif Require Import Base.
Import ListNotations.

Section Properties.
Context {V : Type} (V_eqb : V -> V -> bool).

(** for [make], datatypes.py 60-61 *)
Definition props := list (str * option V).

(** for [delattr], datatypes.py 76-80 *)
Definition name_eqb (a b : str) : bool := if list_eq_dec ascii_dec a b then true else false.

(** for [make], datatypes.py 60-61 *)
Fixpoint lookup (p : props) (name : str) : option (option V) :=
  match p with
  | [] => None
  | (k, v) :: r => if name_eqb k name then Some v else lookup r name
  end.

(** d[name] = value: setting an attribute. (for [make], datatypes.py 60-61) *)
Fixpoint setattr (p : props) (name : str) (v : option V) : props :=
  match p with
  | [] => [(name, v)]
  | (k, w) :: r => if name_eqb k name then (k, v) :: r else (k, w) :: setattr r name v
  end.

(** dict.update, and d | e. (for [make], datatypes.py 60-61) *)
Definition update (p : props) (l : list (str * option V)) : props :=
  fold_left (fun p kv => setattr p (fst kv) (snd kv)) l p.

(** datatypes.py 60-61: Properties( **kwargs ); a keyword argument named self clashes with
    the method's own argument. *)
Definition make (kwargs : list (str * option V)) : res props :=
  match lookup kwargs (txt "self") with
  | Some _ => Err TypeError
  | None => Ok (update [] kwargs)
  end.

(** datatypes.py 63-64: __bool__. *)
Definition truth (p : props) : bool := match p with [] => false | _ => true end.

(** datatypes.py 73-74: __getattr__, after the normal lookup. *)
Definition getattr (p : props) (name : str) : option V :=
  match lookup p name with Some v => v | None => None end.

(** datatypes.py 76-80: __delattr__. *)
Fixpoint delattr (p : props) (name : str) : props :=
  match p with
  | [] => []
  | (k, v) :: r => if name_eqb k name then r else (k, v) :: delattr r name
  end.

(** datatypes.py 82-85: __eq__: dictionary equality. *)
Definition opt_eqb (a b : option V) : bool :=
  match a, b with Some x, Some y => V_eqb x y | None, None => true | _, _ => false end.
(** datatypes.py 82-85, with [opt_eqb] *)
Definition props_eqb (p q : props) : bool :=
  (List.length p =? List.length q)%nat &&
  forallb (fun kv => match lookup q (fst kv) with Some w => opt_eqb (snd kv) w | None => false end) p.

(** datatypes.py 87-88: __contains__. *)
Definition contains (p : props) (name : str) : bool :=
  match lookup p name with Some _ => true | None => false end.

(** datatypes.py 90-92: __add__. *)
Definition add (p q : props) : res props := make (update p q).
End Properties.
