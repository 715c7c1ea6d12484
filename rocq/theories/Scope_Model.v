(** Model of quickly/dom/scope.py: finding included documents. *)
From Coq Require Import String Ascii List Arith Bool.
From Verif Require Import Base.
Import ListNotations.

(** for [add_url], dom/scope.py 126-130 *)
Definition str_eqb (a b : str) : bool := if list_eq_dec ascii_dec a b then true else false.

(** The url of a document; None if it has none. (for [scope], scope.py:56-66) *)
Definition durl := option str.
(** for [add_url], dom/scope.py 126-130 *)
Definition url_eqb (a b : durl) : bool :=
  match a, b with Some a, Some b => str_eqb a b | None, None => true | _, _ => false end.

(** scope.py:56-66: a Scope has a document, of which only the url matters here, a
    parent, the include path (the list is shared with the parent) and relative_include. *)
Inductive scope := Scope (document : durl) (parent : option scope) (include_path : list str) (relative_include : bool).
(** scope.py:56-66, with [scope] *)
Definition document (s : scope) := match s with Scope d _ _ _ => d end.
(** scope.py:56-66, with [scope] *)
Definition parent (s : scope) := match s with Scope _ p _ _ => p end.
(** scope.py:56-66, with [scope] *)
Definition include_path (s : scope) := match s with Scope _ _ i _ => i end.
(** scope.py:56-66, with [scope] *)
Definition relative_include (s : scope) := match s with Scope _ _ _ r => r end.

(** dom/scope.py 56-66 __init__ *)
Definition new_scope (doc : durl) (parent : option scope) : scope :=
  Scope doc parent
    (match parent with Some p => include_path p | None => [] end)
    (match parent with Some p => relative_include p | None => true end).

(** dom/scope.py 97-102 ancestors *)
Fixpoint ancestors (s : scope) : list scope :=
  match s with Scope _ (Some p) _ _ => p :: ancestors p | Scope _ None _ _ => [] end.

(** dom/scope.py 104-109 root *)
Definition root (s : scope) : scope := fold_left (fun _ a => a) (ancestors s) s.

(** [u.endswith('/')]. (for [urls], dom/scope.py 111-138) *)
Definition slash : ascii := "/"%char.
(** for [urls], dom/scope.py 111-138 *)
Fixpoint endswith_slash (u : str) : bool :=
  match u with [] => false | [c] => Ascii.eqb c slash | _ :: r => endswith_slash r end.

Section Urls.
(** urllib.parse.urljoin and urllib.parse.urlparse(_).path; not modelled. *)
Variable urljoin : str -> str -> str.
Variable urlpath : str -> str.
(** The factory (61), called with a filename: the url of the document it returns, None if it
    raises OSError (151) or returns something that is false (94). *)
Variable factory : str -> option durl.

(** dom/scope.py 126-130 add *)
Definition add_url (skip : list durl) (url : str) (urls : list str) (base_url : durl) : list str :=
  match base_url with
  | None | Some [] => urls
  | Some b =>
      let u := urljoin b url in
      if existsb (url_eqb (Some u)) skip || existsb (str_eqb u) urls then urls else urls ++ [u]
  end.

(** dom/scope.py 111-138 urls *)
Definition urls (s : scope) (url : str) : list str :=
  let skip := document s :: map document (ancestors s) in
  let l := if relative_include s then add_url skip url [] (document s) else [] in
  let l := add_url skip url l (document (root s)) in
  fold_left (fun l u => add_url skip url l (Some (if endswith_slash u then u else u ++ [slash]))) (include_path s) l.

(** dom/scope.py 140-152 get_document *)
Definition get_document (u : str) : option durl := factory (urlpath u).

(** dom/scope.py 92-95 *)
Fixpoint first_document (l : list str) : option durl :=
  match l with [] => None | u :: r => match get_document u with Some d => Some d | None => first_document r end end.

(** dom/scope.py 75-95 include_scope *)
Definition include_scope (s : scope) (url : str) : option scope :=
  match first_document (urls s url) with Some d => Some (new_scope d (Some s)) | None => None end.
End Urls.
