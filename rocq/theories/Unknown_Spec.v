(** What replacing the unknown parts of a document should do. *)
From Coq Require Import String Ascii List Bool PeanoNat.
From Verif Require Import Base Unknown_Model.
Import ListNotations.

(** [piece pos stop text s]: [s] is the part of the text from [pos] to [stop]. *)
Definition piece (pos stop : nat) (text s : str) : Prop := exists a b, text = a ++ s ++ b /\ List.length a = pos /\ List.length (a ++ s) = stop.

(** The positions of all unknown parts are in the text. *)
Inductive inside (text : str) : el -> Prop :=
| inside_unknown pos stop : pos <= stop -> stop <= List.length text -> inside text (Unknown pos stop)
| inside_text s m p q : inside text (Text s m p q)
| inside_other i h t kids : Forall (inside text) kids -> inside text (Other i h t kids).

(** The same tree, but with the text in the place of every unknown part. *)
Inductive filled (text : str) : el -> el -> Prop :=
| filled_unknown pos stop s : piece pos stop text s -> filled text (Unknown pos stop) (Text s true pos stop)
| filled_text s m p q : filled text (Text s m p q) (Text s m p q)
| filled_other i h t kids kids' : Forall2 (filled text) kids kids' -> filled text (Other i h t kids) (Other i h t kids').

(** What is written: the parts of the source and the texts of the elements, in order. *)
Inductive written (text : str) : el -> str -> Prop :=
| written_unknown pos stop s : piece pos stop text s -> written text (Unknown pos stop) s
| written_text s m p q : written text (Text s m p q) s
| written_other i h t kids l : Forall2 (written text) kids l -> written text (Other i h t kids) (h ++ concat l ++ t).

(** There is an unknown part in the tree. *)
Inductive has_unknown : el -> Prop :=
| has_itself p q : has_unknown (Unknown p q)
| has_below i h t l : Exists has_unknown l -> has_unknown (Other i h t l).
