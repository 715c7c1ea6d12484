(** Model of Lookup and Reference in quickly/dom/lily.py. *)
From Coq Require Import List Bool PeanoNat.
From Verif Require Import Base.
Import ListNotations.
Open Scope nat_scope.

Section Lookup.
(** Names of variables (str or tuple) and values (nodes); filenames. *)
Variables name value file : Type.
Variable name_eqb : name -> name -> bool.

(** The element classes: an Assignment (dom/lily.py 983-1016) with what get_name() and get_value() return (None if there is no Identifier or
    EqualSign), an Include (2793) with its filename, a Document (575), any other HandleAssignments (508), any other. *)
Inductive kind := Assignment (n : option name) (v : option value) | Include (f : file) | Document | Block | Other.
(** dom/lily.py 983-1016, with [kind] *)
Inductive dn := DN (k : kind) (kids : list dn).
(** dom/lily.py 983-1016, with [kind] *)
Definition kind_of (n : dn) := match n with DN k _ => k end.
(** dom/lily.py 983-1016, with [kind] *)
Definition kids_of (n : dn) := match n with DN _ c => c end.
(** [isinstance(node, HandleAssignments)], [isinstance(node, Document)]. (for [ancestors], dom/lily.py 3188-3200) *)
Definition is_handle (k : kind) : bool := match k with Document | Block => true | _ => false end.
(** for [ancestors], dom/lily.py 3188-3200 *)
Definition is_document (k : kind) : bool := match k with Document => true | _ => false end.

(** for [ancestors], dom/lily.py 3188-3200 *)
Fixpoint node_at (n : dn) (path : list nat) : option dn :=
  match path with [] => Some n | i :: p => match nth_error (kids_of n) i with Some c => node_at c p | None => None end end.

(** dom/scope.py 43-66 Scope: the parent scope, the node in the document of the parent (the path of an Include), and the
    document; here the result of its transform. *)
Inductive scope := Scope (parent : option scope) (node : option (list nat)) (dom : dn).
(** dom/scope.py 43-66, with [scope] *)
Definition dom_of (s : scope) := match s with Scope _ _ d => d end.

(** dom/lily.py 3236-3240: Scope.include_scope (75-95, see Scope_Model) finds a document and its get_transform(wait) returns this;
    None if nothing is found or the result is not a Document (e.g. None, when it is not ready and wait is False). *)
Variable load : scope -> file -> option dn.

(** The children with their paths. (for [run], dom/lily.py 3232-3250) *)
Fixpoint children (p : list nat) (i : nat) (l : list dn) : list (list nat * dn) :=
  match l with [] => [] | c :: r => (p ++ [i], c) :: children p (S i) r end.

(** dom/lily.py 3188-3200 ancestors(): from the node up (the path reversed), the HandleAssignments nodes with the index, up to and
    including a Document. *)
Fixpoint ancestors (root : dn) (rp : list nat) : list (list nat * dn * nat) :=
  match rp with
  | [] => []
  | i :: rp' =>
      match node_at root (rev rp') with
      | None => []
      | Some p =>
          (if is_handle (kind_of p) then [(rev rp', p, i)] else []) ++
          (if is_document (kind_of p) then [] else ancestors root rp')
      end
  end.

(** [reversed(p[:i])]. (for [run_all], dom/lily.py 3231) *)
Definition preceding (a : list nat * dn * nat) : list (list nat * dn) :=
  let '(path, p, i) := a in rev (children path 0 (firstn i (kids_of p))).

(** dom/lily.py 3232-3250: the inner loop, with the generator [gen] and the stack. *)
Fixpoint run (fuel : nat) (s : scope) (gen : list (list nat * dn)) (stack : list (scope * list (list nat * dn))) : res (list (dn * scope)) :=
  match fuel with
  | 0 => Err OutOfFuel
  | S fuel =>
      match gen with
      | [] => match stack with [] => Ok [] | (s', gen') :: stack => run fuel s' gen' stack end
      | (path, n) :: gen =>
          match (match kind_of n with Include f => load s f | _ => None end) with
          | Some dom => run fuel (Scope (Some s) (Some path) dom) (rev (children [] 0 (kids_of dom))) ((s, gen) :: stack)
          | None => let! r := run fuel s gen stack in Ok ((n, s) :: r)
          end
      end
  end.
(** dom/lily.py 3231: for every ancestor *)
Fixpoint run_all (fuel : nat) (s : scope) (l : list (list nat * dn * nat)) : res (list (dn * scope)) :=
  match l with
  | [] => Ok []
  | a :: l => let! x := run fuel s (preceding a) [] in let! y := run_all fuel s l in Ok (x ++ y)
  end.
(** dom/lily.py 3202-3255 preceding_nodes(), with a scope; the node is given by its path in the document of the scope. *)
Fixpoint preceding_nodes (fuel : nat) (s : scope) (path : list nat) : res (list (dn * scope)) :=
  match s with
  | Scope parent node dom =>
      let! x := run_all fuel s (ancestors dom (rev path)) in
      match parent, node with
      | Some ps, Some p => let! y := preceding_nodes fuel ps p in Ok (x ++ y)
      | _, _ => Ok x
      end
  end.
(** dom/lily.py 3256-3259: without a scope *)
Definition preceding_nodes_local (root : dn) (path : list nat) : list dn :=
  flat_map (fun a => map snd (preceding a)) (ancestors root (rev path)).

(** dom/lily.py 3261-3269 find_assignment: the value (which may be None) of the first Assignment *)
Definition is_assignment (nm : name) (n : dn) : bool :=
  match kind_of n with Assignment (Some m) _ => name_eqb m nm | _ => false end.
(** dom/lily.py 3261-3269, with [is_assignment] *)
Definition value_of (n : dn) : option value := match kind_of n with Assignment _ v => v | _ => None end.
(** dom/lily.py 3261-3269, with [is_assignment] *)
Definition find_in (nm : name) (l : list (dn * scope)) : option (option value * scope) :=
  match find (fun x => is_assignment nm (fst x)) l with Some (n, s) => Some (value_of n, s) | None => None end.
(** dom/lily.py 3261-3269, with [is_assignment] *)
Definition find_assignment (fuel : nat) (nm : name) (s : scope) (path : list nat) : res (option (option value * scope)) :=
  let! l := preceding_nodes fuel s path in Ok (find_in nm l).
(** dom/lily.py 3261-3269, with [is_assignment] *)
Definition find_assignment_local (nm : name) (root : dn) (path : list nat) : option (option value) :=
  option_map value_of (find (is_assignment nm) (preceding_nodes_local root path)).
End Lookup.
