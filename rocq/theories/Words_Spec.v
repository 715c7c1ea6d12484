(** Specification: the tokens in lists, in blocks and after pitches. *)
From Coq Require Import String Ascii List ZArith Bool.
From Verif Require Import Base Duration_Spec Signature_Model Dispatch_Model Words_Model.
Import ListNotations.
Local Open Scope string_scope.
Local Open Scope list_scope.

(** A number without a superfluous zero or a sign. *)
Definition plain_number (text : str) (n : Z) : Prop := text = txt "0" /\ n = 0%Z \/ (0 < n)%Z /\ numeral text n.

Section Words.
Variable other_read : cls -> str -> res hv.
Variable other_write : cls -> hv -> res str.

(** The text of a token, or what an element is written as. *)
Inductive spells : piece -> str -> Prop :=
| spells_token text a : spells (PTok text a) text
| spells_element e s : written (own_write other_write) e = Ok s -> spells (PElem e) s.

(** What a word in a list (or in the name of a variable) is. *)
Inductive listed : piece -> elem -> Prop :=
| listed_number text n : plain_number text n -> listed (PTok text ["Number"]) (E KInt (Some (HInt n)))
| listed_separator text : listed (PTok text ["Delimiter"; "Separator"]) (E KSeparator (Some (HStr text)))
| listed_symbol text a : a <> ["Number"] -> a <> ["Delimiter"; "Separator"] -> listed (PTok text a) (E KSymbol (Some (HStr text)))
| listed_element e : listed (PElem e) e.

(** The keywords of the definition of a context. *)
Definition definition (c : cls) : option string :=
  match c with
  | KAccepts => Some "\accepts" | KDenies => Some "\denies" | KName => Some "\name" | KAlias => Some "\alias" | KConsists => Some "\consists"
  | KRemove => Some "\remove" | KDefaultChild => Some "\defaultchild" | _ => None
  end.

(** What a word in a block is. *)
Inductive blocked : piece -> elem -> Prop :=
| blocked_number text n : plain_number text n -> blocked (PTok text ["Number"]) (E KInt (Some (HInt n)))
| blocked_float text v : other_read KFloat text = Ok v -> other_write KFloat v = Ok text -> blocked (PTok text ["Number"; "Float"]) (E KFloat (Some v))
| blocked_fraction a b n d : plain_number a n -> plain_number b d -> blocked (PTok (a ++ txt "/" ++ b) ["Number"; "Fraction"]) (E KFraction (Some (HPair (HInt n) (HInt d))))
| blocked_equal : blocked (PTok (txt "=") ["Operator"; "Assignment"]) (E KEqualSign None)
| blocked_unit u : In u ["mm"; "cm"; "in"; "pt"] -> blocked (PTok (txt "\" ++ txt u) ["Name"; "Builtin"; "Unit"]) (E KUnit (Some (HStr (txt u))))
| blocked_type text : blocked (PTok text ["Name"; "Type"]) (E KSymbol (Some (HStr text)))
| blocked_keyword c s : definition c = Some s -> blocked (PTok (txt s) ["Keyword"]) (E c None)
| blocked_element e : blocked (PElem e) e.

(** The marks after a pitch: octaves, the octave check, and the accidental. *)
Definition octave_marks (text : str) (n : Z) : Prop := exists k, text = repeat "'"%char k /\ n = Z.of_nat k \/ text = repeat ","%char k /\ n = (- Z.of_nat k)%Z.
Inductive marked : piece -> elem -> Prop :=
| marked_octave text n : octave_marks text n -> marked (PTok text ["Text"; "Music"; "Pitch"; "Octave"]) (E KOctave (Some (HInt n)))
| marked_check text n : octave_marks text n -> marked (PTok (txt "=" ++ text) ["Text"; "Music"; "Pitch"; "Octave"; "OctaveCheck"]) (E KOctCheck (Some (HInt n)))
| marked_cautionary : marked (PTok (txt "?") ["Text"; "Music"; "Pitch"; "Accidental"]) (E KAccidental (Some (HStr (txt "cautionary"))))
| marked_forced : marked (PTok (txt "!") ["Text"; "Music"; "Pitch"; "Accidental"]) (E KAccidental (Some (HStr (txt "forced"))))
| marked_element e : marked (PElem e) e.
End Words.
