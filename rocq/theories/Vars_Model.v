(** Model of the handling of variables in quickly/dom/lily.py and quickly/lang/lilypond.py. *)
From Coq Require Import String Ascii List ZArith QArith Bool.
From Verif Require Import Base.
Import ListNotations.
Open Scope nat_scope.

(** Elements, as far as the code looks at them: Int dom/lily.py 603 and Float 644 with the Unit child (if any), String 662, Symbol 658,
    Fraction 618, Scheme 666 with one child that is a Bool, Number or String (by its value), Separator, EqualSign 939,
    Comment, List 949, Identifier 1019, Assignment 983.  Floats are modelled by fractions. *)
Inductive el :=
| Int (z : Z) (unit : option str) | Float (f : Q) (unit : option str) | EString (s : str) | Symbol (s : str) | Fraction (q : Q)
| SchemeBool (b : bool) | SchemeInt (z : Z) | SchemeFloat (f : Q) | SchemeStr (s : str)
| Separator (s : str) | EqualSign | Comment (s : str)
| EList (l : list el) | Identifier (l : list el) | Assignment (l : list el) | OtherElement (id : nat).

(** Python values. (for [create_number], dom/lily.py 3388-3420) *)
Inductive num := NBool (b : bool) | NInt (z : Z) | NFloat (f : Q).
(** for [create_element], dom/lily.py 3388-3420 *)
Inductive pv := PNum (n : num) | PStr (s : str) | PFraction (q : Q) | PTuple (n : num) (unit : str) | PNode (e : el) | POther (id : nat).

(** dom/lily.py 3388-3420 create_element_from_value *)
Definition units : list str := [txt "mm"; txt "cm"; txt "in"; txt "pt"].
(** dom/lily.py 3388-3420, with [units] *)
Definition str_eqb (a b : str) : bool := if list_eq_dec ascii_dec a b then true else false.
(** dom/lily.py 3388-3420, with [units] *)
Definition create_number (n : num) (unit : option str) : el :=
  match n with NBool b => SchemeBool b | NInt z => Int z unit | NFloat f => Float f unit end.
(** dom/lily.py 3388-3420, with [units] *)
Definition create_element (v : pv) : res el :=
  match v with
  | PNode e => Ok e
  | PTuple n u => if existsb (str_eqb u) units then Ok (create_number n (Some u)) else Err ValueError
  | PNum n => Ok (create_number n None)
  | PStr s => Ok (EString s)
  | PFraction _ | POther _ => Err ValueError
  end.
(** dom/lily.py 3423-3452 create_value_from_element *)
Definition create_value (e : el) : option pv :=
  match e with
  | Int z None => Some (PNum (NInt z)) | Int z (Some u) => Some (PTuple (NInt z) u)
  | Float f None => Some (PNum (NFloat f)) | Float f (Some u) => Some (PTuple (NFloat f) u)
  | EString s | Symbol s => Some (PStr s)
  | Fraction q => Some (PFraction q)
  | SchemeBool b => Some (PNum (NBool b)) | SchemeInt z => Some (PNum (NInt z)) | SchemeFloat f => Some (PNum (NFloat f)) | SchemeStr s => Some (PStr s)
  | _ => None
  end.

(** Items of names; [IOther] is any value that is not a str or int. (for [make_list_node], dom/lily.py 3284-3296) *)
Inductive item := IStr (s : str) | IInt (z : Z) | IOther (id : nat).
(** A name: a single value or a tuple. (for [of_heads], dom/lily.py 1035-1047) *)
Inductive name := One (i : item) | Tuple (l : list item).

Section Names.
(** 3272-3276 is_symbol; it uses the regular expression and the pitch names of parce. *)
Variable is_symbol : str -> bool.

(** dom/lily.py 3284-3296 make_list_node *)
Definition make_list_node (i : item) : option el :=
  match i with IStr s => Some (if is_symbol s then Symbol s else EString s) | IInt z => Some (Int z None) | IOther _ => None end.
(** dom/lily.py 3483-3492 filter_map *)
Fixpoint filter_map {A B} (f : A -> option B) (l : list A) : list B :=
  match l with [] => [] | x :: l => match f x with Some y => y :: filter_map f l | None => filter_map f l end end.
(** dom/lily.py 957-964 List.get_list *)
Definition head_of (e : el) : option item := match e with Symbol s | EString s => Some (IStr s) | Int z _ => Some (IInt z) | _ => None end.
(** dom/lily.py 957-964, with [head_of] *)
Definition get_list (l : list el) : list item := filter_map head_of l.
(** dom/lily.py 966-980 List.set_list: the new children *)
Definition dot : str := txt ".". Definition comma : str := txt ",".
(** dom/lily.py 966-980, with [dot] *)
Definition separator (n : el) : el := Separator (match n with Int _ _ => comma | _ => dot end).
(** dom/lily.py 966-980, with [dot] *)
Definition set_list (l : list item) : list el :=
  match filter_map make_list_node l with
  | [] => []
  | n :: nodes => n :: flat_map (fun n => [separator n; n]) nodes
  end.
(** dom/lily.py 1035-1047 Identifier.get_name *)
Definition of_heads (l : list item) : name := match l with [i] => One i | _ => Tuple l end.
(** dom/lily.py 1035-1047, with [of_heads] *)
Definition get_name (kids : list el) : name := of_heads (get_list kids).
(** dom/lily.py 1049-1063 Identifier.set_name: the new children.  A name that is neither a str nor iterable raises TypeError. *)
Definition set_name (n : name) : res (list el) :=
  match n with One (IStr s) => Ok (set_list [IStr s]) | One _ => Err TypeError | Tuple l => Ok (set_list l) end.

(** dom/lily.py 1099-1115 IdentifierRef.get_name, with the head and the children. *)
Definition ref_get_name (head : str) (kids : list el) : name :=
  of_heads ((match head with [] => [] | _ => [IStr head] end) ++ get_list kids).
(** dom/lily.py 1117-1143 IdentifierRef.set_name: the new head and children *)
Definition ref_set_name (head : str) (n : name) : res (str * list el) :=
  match (match n with One (IStr s) => Some [IStr s] | One _ => None | Tuple l => Some l end) with
  | None => Err TypeError
  | Some l =>
      match filter_map make_list_node l with
      | [] => Ok (head, [])
      | n :: nodes =>
          let rest := flat_map (fun n => [Separator dot; n]) nodes in
          match n with Symbol s => Ok (s, rest) | _ => Ok ([], n :: rest) end
      end
  end.

(** ** Assignments *)
(** dom/lily.py 992-1001 Assignment.with_name *)
Definition with_name (n : name) (node : el) : res el :=
  let! l := set_name n in Ok (Assignment [Identifier l; EqualSign; node]).
(** dom/lily.py 1008-1011 Assignment.get_name *)
Definition identifiers (kids : list el) : list (list el) := filter_map (fun e => match e with Identifier l => Some l | _ => None end) kids.
(** dom/lily.py 1008-1011, with [identifiers] *)
Definition asg_get_name (kids : list el) : option name := match identifiers kids with l :: _ => Some (get_name l) | [] => None end.
(** dom/lily.py 1013-1016 Assignment.get_value *)
Fixpoint asg_get_value (kids : list el) : option el :=
  match kids with [] => None | EqualSign :: r => hd_error r | _ :: r => asg_get_value r end.

(** Equality of names. (for [matches], dom/lily.py 510-515) *)
Definition item_eqb (a b : item) : bool :=
  match a, b with IStr s, IStr t => str_eqb s t | IInt x, IInt y => (x =? y)%Z | IOther x, IOther y => x =? y | _, _ => false end.
(** for [matches], dom/lily.py 510-515 *)
Fixpoint items_eqb (a b : list item) : bool :=
  match a, b with [], [] => true | x :: a, y :: b => item_eqb x y && items_eqb a b | _, _ => false end.
(** for [matches], dom/lily.py 510-515 *)
Definition name_eqb (a b : name) : bool :=
  match a, b with One x, One y => item_eqb x y | Tuple l, Tuple m => items_eqb l m | _, _ => false end.

(** ** HandleAssignments 508-572, on the children of the node *)
(** dom/lily.py 510-515 find_assignment: is it this one *)
Definition matches (nm : name) (e : el) : bool :=
  match e with Assignment kids => existsb (fun l => name_eqb (get_name l) nm) (identifiers kids) | _ => false end.
(** dom/lily.py 510-515, with [matches] *)
Definition find_assignment (nm : name) (kids : list el) : option el := find (matches nm) kids.
(** dom/lily.py 517-536 get_variable; [None] if there is no assignment, or no value *)
Definition get_variable (nm : name) (kids : list el) : option pv :=
  match find_assignment nm kids with
  | Some (Assignment a) =>
      match asg_get_value a with
      | Some node => match create_value node with Some v => Some v | None => Some (PNode node) end
      | None => None
      end
  | _ => None
  end.
(** [assignment[-1] = node]. (for [set_variable], dom/lily.py 538-555) *)
Fixpoint set_last (l : list el) (node : el) : res (list el) :=
  match l with [] => Err IndexError | [_] => Ok [node] | x :: l => let! r := set_last l node in Ok (x :: r) end.
(** for [set_variable], dom/lily.py 538-555 *)
Fixpoint replace_first (nm : name) (node : el) (kids : list el) : res (list el) :=
  match kids with
  | [] => Ok []
  | e :: r =>
      if matches nm e then match e with Assignment a => let! a := set_last a node in Ok (Assignment a :: r) | _ => Ok kids end
      else let! r := replace_first nm node r in Ok (e :: r)
  end.
(** dom/lily.py 538-555 set_variable: the new children *)
Definition set_variable (nm : name) (v : pv) (kids : list el) : res (list el) :=
  let! node := create_element v in
  match find_assignment nm kids with
  | Some _ => replace_first nm node kids
  | None => let! a := with_name nm node in Ok (kids ++ [a])
  end.
(** dom/lily.py 557-566 unset_variable.  The nodes in a list are different objects, so remove() removes the one that was found. *)
Fixpoint unset_variable (nm : name) (kids : list el) : list el :=
  match kids with [] => [] | e :: r => if matches nm e then r else e :: unset_variable nm r end.
(** dom/lily.py 568-572 variables *)
Definition variables (kids : list el) : list name :=
  flat_map (fun e => match e with Assignment a => map get_name (identifiers a) | _ => [] end) kids.
End Names.

(** ** lang/lilypond.py 394-429 handle_assignments *)
Definition is_comment (e : el) : bool := match e with Comment _ => true | _ => false end.
(** the children of the Identifier, for a List, Symbol or String. (dom/lily.py 517-536) *)
Definition variable_of (e : el) : option (list el) :=
  match e with EList l => Some l | Symbol _ | EString _ => Some [e] | _ => None end.
(** The state of the loops: not in a variable, or the first node, what has been read after it (reversed), and whether there was an
    EqualSign. (lang/lilypond.py 394-429 handle_assignments) *)
Inductive hstate := Idle | Reading (first : el) (ident : list el) (rest : list el) (equalsign : bool).
(** lang/lilypond.py 394-429 handle_assignments *)
Fixpoint handle (st : hstate) (nodes : list el) : list el :=
  match nodes with
  | [] => match st with Idle => [] | Reading first _ rest _ => first :: rev rest end
  | n :: nodes =>
      match st with
      | Idle => match variable_of n with Some l => handle (Reading n l [] false) nodes | None => n :: handle Idle nodes end
      | Reading first l rest eq =>
          if is_comment n then handle (Reading first l (n :: rest) eq) nodes
          else if eq then Assignment (Identifier l :: rev (n :: rest)) :: handle Idle nodes
          else match n with
               | EqualSign => handle (Reading first l (n :: rest) true) nodes
               | _ => (first :: rev (n :: rest)) ++ handle Idle nodes
               end
      end
  end.
(** lang/lilypond.py 394-429 handle_assignments *)
Definition handle_assignments (nodes : list el) : list el := handle Idle nodes.
