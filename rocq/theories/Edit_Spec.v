(** What an Edit object should answer. *)
From Coq Require Import List Bool PeanoNat.
From Verif Require Import Base Edit_Model.
Import ListNotations.

(** An edit that does not start other edits with the same object, and does not fail. *)
Definition looks (body : list act) : Prop := Forall (fun a => a = Look) body.
Inductive simple (readonly : bool) : op -> Prop :=
| simple_cursor doc body n : looks body -> simple readonly (Cursor doc body (Some n))
| simple_range body : looks body -> simple readonly (Range body).

(** Whenever it is asked for during an edit: its document, and none if it edits nodes. *)
Inductive answers : op -> list (option nat) -> Prop :=
| answers_cursor doc body n seen : List.length seen = List.length body -> Forall (fun d => d = Some doc) seen -> answers (Cursor doc body n) seen
| answers_range body seen : List.length seen = List.length body -> Forall (fun d => d = None) seen -> answers (Range body) seen.
Inductive answered : list op -> list (list (option nat) * bool) -> Prop :=
| answered_nil : answered [] []
| answered_cons o r seen more : answers o seen -> answered r more -> answered (o :: r) ((seen, false) :: more).

(** The number of changes after a history: that of the last edit of a document. *)
Inductive last_changes (readonly : bool) : list op -> nat -> Prop :=
| last_none l : Forall (fun o => exists body, o = Range body) l -> last_changes readonly l 0
| last_some a doc body n l : Forall (fun o => exists body, o = Range body) l ->
    last_changes readonly (a ++ Cursor doc body (Some n) :: l) (if readonly then 0 else n).
