(** Model of making LaTeX environments (quickly/dom/tex.py), on the elements of Element_Model.v. *)
From Coq Require Import String Ascii List Bool.
From Verif Require Import Base Element_Model.
Import ListNotations.

(** A new TextElement without origin: what write_head() gives and the spacing before and after it; the other spacings have their
    defaults (dom/element.py 167-171, 862-900). *)
Definition new_text (id : nat) (head space_before space_after : str) : attrs :=
  Attrs Head id (Ok head) [] None None false false space_before [] [] [] space_after.
(** dom/tex.py 122-135: EnvironmentName; write_head() is 134-135. *)
Definition environment_name (name : str) : elem := E (new_text 2 (txt "{" ++ name ++ txt "}") [] []) [].
(** dom/tex.py 82-90: Command, with the head of base.BackslashCommand (dom/base.py 101-103). *)
Definition command (head : str) (kids : list elem) (space_before space_after : str) : elem :=
  E (new_text 1 (txt "\" ++ head) space_before space_after) kids.
(** dom/tex.py 108-119: Environment.with_name.  [a] are the attributes of the environment, with the keyword arguments. *)
Definition with_name (a : attrs) (name : str) (children : list elem) : elem :=
  E a ([command (txt "begin") [environment_name name] [] [nl]] ++ children ++ [command (txt "end") [environment_name name] [nl] []]).
(** dom/tex.py 97-106: the attributes of a new Environment without keyword arguments. *)
Definition new_environment : attrs := Attrs Plain 0 (Ok []) [] None None false false [nl] [] [] [] [nl].
