(** Model of Version, Language, Include and Document.version in quickly/dom/lily.py (577-590, 2738-2839) and of
    lilypond_version() in quickly/dom/util.py (172-183). *)
From Coq Require Import String Ascii List ZArith NArith Bool.
From Verif Require Import Base Duration_Model Heads_Model.
Import ListNotations.
Open Scope nat_scope.

(** An element: a String with its head, a Version, a Language, an Include, or any other (with an identity). (for [version_of], dom/lily.py 2744-2757) *)
Inductive kind := KString (head : str) | KVersion | KLanguage | KInclude | KOther (id : nat).
(** for [version_of], dom/lily.py 2744-2757 *)
Inductive el := E (k : kind) (kids : list el).
(** for [version_of], dom/lily.py 2744-2757 *)
Definition kind_of (e : el) := match e with E k _ => k end.
(** for [version_of], dom/lily.py 2744-2748 *)
Definition kids_of (e : el) := match e with E _ l => l end.
(** for [version], dom/lily.py 578-583 *)
Definition is_version (e : el) : bool := match kind_of e with KVersion => true | _ => false end.

(** [for s in self/String: return s.head]. (for [version_of], dom/lily.py 2744-2748) *)
Fixpoint first_string (kids : list el) : option str :=
  match kids with
  | [] => None
  | E (KString h) _ :: _ => Some h
  | _ :: r => first_string r
  end.
(** [for s in self/String: s.head = head; return], else [self.insert(0, String(head))]. (for [set_version_of], dom/lily.py 2750-2757) *)
Fixpoint replace_string (head : str) (kids : list el) : option (list el) :=
  match kids with
  | [] => None
  | E (KString _) l :: r => Some (E (KString head) l :: r)
  | k :: r => option_map (cons k) (replace_string head r)
  end.
(** for [set_version_of], dom/lily.py 2750-2757 *)
Definition set_string (head : str) (e : el) : el :=
  match replace_string head (kids_of e) with
  | Some l => E (kind_of e) l
  | None => E (kind_of e) (E (KString head) [] :: kids_of e)
  end.

(** [re.findall(r'\d+', text)]; [cur] are the digits of the current match, reversed.  Only ASCII digits. (for [version_of], dom/lily.py 2744-2748) *)
Definition digit (c : ascii) : bool := let n := nat_of_ascii c in (48 <=? n) && (n <=? 57).
(** for [version_of], dom/lily.py 2744-2748 *)
Fixpoint findall (cur : str) (s : str) : list str :=
  let flush := match cur with [] => [] | _ => [List.rev cur] end in
  match s with
  | [] => flush
  | c :: r => if digit c then findall (c :: cur) r else flush ++ findall [] r
  end.
(** [sep.join(l)]. (for [set_version_of], dom/lily.py 2750-2757) *)
Fixpoint join (sep : ascii) (l : list str) : str :=
  match l with [] => [] | [s] => s | s :: r => s ++ sep :: join sep r end.

(** dom/lily.py 2744-2748 Version.version *)
Definition version_of (e : el) : res (list Z) :=
  match first_string (kids_of e) with Some h => mapr py_int (findall [] h) | None => Ok [] end.
(** dom/lily.py 2750-2757 the setter; the numbers are not negative *)
Definition set_version_of (version : list N) (e : el) : el := set_string (join "." (map dec version)) e.

(** The descendants in document order, and the first Version among them. (for [version], dom/lily.py 578-583) *)
Fixpoint below (e : el) : list el := match e with E _ kids => flat_map (fun k => k :: below k) kids end.
(** dom/lily.py 578-583 Document.version *)
Definition version (doc : el) : res (list Z) :=
  match find is_version (below doc) with Some v => version_of v | None => Ok [] end.
(** Changing the first Version below the element, in document order: [Some] if there is one. (for [set_version], element.py 173-176) *)
Fixpoint change (f : el -> el) (e : el) : option el :=
  match e with
  | E k kids =>
      option_map (E k)
        ((fix go (l : list el) : option (list el) :=
            match l with
            | [] => None
            | x :: r =>
                if is_version x then Some (f x :: r)
                else match change f x with
                     | Some x' => Some (x' :: r)
                     | None => option_map (cons x) (go r)
                     end
            end) kids)
  end.
(** 585-590 the setter: [Version(version=version)] sets the attribute of a Version without children (element.py 173-176) *)
Definition set_version (v : list N) (doc : el) : el :=
  match change (set_version_of v) doc with
  | Some doc' => doc'
  | None => E (kind_of doc) (set_version_of v (E KVersion []) :: kids_of doc)
  end.
(** util.py 172-183: of the root of the tree *)
Definition lilypond_version (root : el) : res (list Z) := version root.

(** dom/lily.py 2779-2790 Language.language and 2810-2821 Include.filename *)
Definition language (e : el) : option str := first_string (kids_of e).
(** dom/lily.py 2779-2790, with [language] *)
Definition set_language (l : str) (e : el) : el := set_string l e.
(** dom/lily.py 2810-2821 Include.filename *)
Definition filename (e : el) : option str := first_string (kids_of e).
(** dom/lily.py 2810-2821 Include.filename *)
Definition set_filename (l : str) (e : el) : el := set_string l e.

(** dom/lily.py 2823-2835 Include.language: [None.endswith] is an AttributeError; [known] are the keys of pitch.pitch_names *)
Definition ends_ly (s : str) : bool := if list_eq_dec ascii_dec (skipn (List.length s - 3) s) (txt ".ly") then true else false.
(** dom/lily.py 2823-2835, with [ends_ly] *)
Definition include_language (known : list str) (e : el) : res (option str) :=
  match filename e with
  | None => Err AttributeError
  | Some f =>
      if ends_ly f then
        let l := firstn (List.length f - 3) f in
        Ok (if in_dec (list_eq_dec ascii_dec) l known then Some l else None)
      else Ok None
  end.
(** dom/lily.py 2837-2839 *)
Definition set_include_language (l : str) (e : el) : el := set_filename (l ++ txt ".ly") e.
