(** Specification of include resolution. *)
From Coq Require Import String Ascii List Arith Bool.
From Verif Require Import Base Scope_Model.
Import ListNotations.

(** The documents of a scope and of those that include it. *)
Inductive chain : scope -> list durl -> Prop :=
| chain_root d i r : chain (Scope d None i r) [d]
| chain_child d p l i r : chain p l -> chain (Scope d (Some p) i r) (d :: l).

Inductive root_url : scope -> durl -> Prop :=
| root_root d i r : root_url (Scope d None i r) d
| root_child d p u i r : root_url p u -> root_url (Scope d (Some p) i r) u.

(** A directory name ends with a slash. *)
Definition directory (u d : str) : Prop :=
  (exists x, u = x ++ ["/"%char] /\ d = u) \/ ((forall x, u <> x ++ ["/"%char]) /\ d = u ++ ["/"%char]).

(** The places to look for an included file, in order: the own document (if relative), the root document, the include path. *)
Definition bases (s : scope) (bs : list durl) : Prop :=
  exists r ds, root_url s r /\ Forall2 directory (include_path s) ds /\
    bs = (if relative_include s then [document s] else []) ++ r :: map Some ds.

(** The different elements of a list, in the order of their first occurrence. *)
Inductive firsts : list str -> list str -> Prop :=
| firsts_nil : firsts [] []
| firsts_cons x l r : firsts (filter (fun y => negb (str_eqb x y)) l) r -> firsts (x :: l) (x :: r).

Section Reach.
Variable urljoin : str -> str -> str.
Variable urlpath : str -> str.
Variable factory : str -> option durl.

(** Where [name] could be, according to these bases. *)
Definition candidates (bs : list durl) (name : str) : list str :=
  flat_map (fun b => match b with None | Some [] => [] | Some b => [urljoin b name] end) bs.

(** Scopes that can be reached from [s] by following includes. *)
Inductive included (s : scope) : scope -> Prop :=
| inc_self : included s s
| inc_step t name u : included s t -> include_scope urljoin urlpath factory t name = Some u -> included s u.

(** Every document has the url it was asked for by. *)
Definition faithful : Prop := forall u d, factory (urlpath u) = Some d -> d = Some u.
End Reach.
