(** Specification of looking up variables. *)
From Coq Require Import List Bool PeanoNat.
From Verif Require Import Base Lookup_Model.
Import ListNotations.
Open Scope nat_scope.

Section Spec.
Context {name value file : Type}.
Notation dn := (dn name value file).
Notation scope := (scope name value file).
Variable load : scope -> file -> option dn.

(** Nodes with their paths, [p] the path of the parent. *)
Definition numbered (p : list nat) (l : list dn) : list (list nat * dn) := combine (map (fun i => p ++ [i]) (seq 0 (length l))) l.
(** A document, or another block that can have assignments. *)
Definition has_assignments (n : dn) : bool := match n with DN _ _ _ (Document _ _ _) _ | DN _ _ _ (Block _ _ _) _ => true | _ => false end.

(** The document in the order in which LilyPond reads it: instead of an \include that is found come the toplevel nodes of
    the included document. *)
Inductive reads : scope -> list (list nat * dn) -> list (dn * scope) -> Prop :=
| reads_nil s : reads s [] []
| reads_include s p f kids dom l o1 o2 : load s f = Some dom ->
    reads (Scope _ _ _ (Some s) (Some p) dom) (numbered [] (kids_of _ _ _ dom)) o1 -> reads s l o2 ->
    reads s ((p, DN _ _ _ (Include _ _ _ f) kids) :: l) (o1 ++ o2)
| reads_other s p n l o : (forall f, kind_of _ _ _ n = Include _ _ _ f -> load s f = None) -> reads s l o -> reads s ((p, n) :: l) ((n, s) :: o).

(** The nodes before a path in the blocks it is in, outermost first. *)
Fixpoint levels (p : list nat) (n : dn) (path : list nat) : list (list (list nat * dn)) :=
  match path with
  | [] => []
  | i :: path =>
      (if has_assignments n then [numbered p (firstn i (kids_of _ _ _ n))] else []) ++
      match nth_error (kids_of _ _ _ n) i with Some c => levels (p ++ [i]) c path | None => [] end
  end.
(** All nodes that are read before a node: those that are read before the \include by which its document is included, and
    those before it in its document. *)
Inductive read_before : scope -> list nat -> list (dn * scope) -> Prop :=
| read_before_root dom path os node : Forall2 (reads (Scope _ _ _ None node dom)) (levels [] dom path) os ->
    read_before (Scope _ _ _ None node dom) path (concat os)
| read_before_nopointer ps dom path os : Forall2 (reads (Scope _ _ _ (Some ps) None dom)) (levels [] dom path) os ->
    read_before (Scope _ _ _ (Some ps) None dom) path (concat os)
| read_before_included ps p dom path os o : read_before ps p o -> Forall2 (reads (Scope _ _ _ (Some ps) (Some p) dom)) (levels [] dom path) os ->
    read_before (Scope _ _ _ (Some ps) (Some p) dom) path (o ++ concat os).

(** A path to a node, with no Document below the root. *)
Definition proper (root : dn) (path : list nat) : Prop :=
  (exists n, node_at _ _ _ root path = Some n) /\ forall a b n, path = a ++ b -> a <> [] -> b <> [] -> node_at _ _ _ root a = Some n -> forall kids, n <> DN _ _ _ (Document _ _ _) kids.
Inductive proper_scope : scope -> list nat -> Prop :=
| proper_scope_root dom path node : proper dom path -> proper_scope (Scope _ _ _ None node dom) path
| proper_scope_nopointer ps dom path : proper dom path -> proper_scope (Scope _ _ _ (Some ps) None dom) path
| proper_scope_included ps p dom path : proper_scope ps p -> proper dom path -> proper_scope (Scope _ _ _ (Some ps) (Some p) dom) path.

(** The node assigns a value to the variable. *)
Definition assigns (name_eqb : name -> name -> bool) (nm : name) (n : dn) (v : option value) : Prop :=
  exists m kids, n = DN _ _ _ (Assignment _ _ _ (Some m) v) kids /\ name_eqb m nm = true.
End Spec.
