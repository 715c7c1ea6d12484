(** Specification of the written forms: how strings, numbers and text are read by LilyPond, Scheme and XML. *)
From Coq Require Import String Ascii List ZArith NArith QArith Bool.
From Verif Require Import Base Heads_Model.
Import ListNotations.
Open Scope Z_scope.

(** ** Strings in LilyPond and Scheme *)
Definition special (c : ascii) : Prop := c = "\"%char \/ c = """"%char.
(** Text after the opening quote, its tokens, and the text after the closing quote.  [Tok true] is an escape: a backslash and a
    backslash or quote.  Other tokens have no quote, and an escape does not start in them. *)
Definition starts_escape (s : str) : Prop := exists c r, s = "\"%char :: c :: r /\ special c.
Inductive string_tokens : str -> list token -> str -> Prop :=
| string_end rest : string_tokens (""""%char :: rest) [] rest
| string_escape c r toks rest : special c -> string_tokens r toks rest -> string_tokens ("\"%char :: c :: r) (Tok true ["\"%char; c] :: toks) rest
| string_text w r toks rest : w <> [] -> ~ In """"%char w -> (forall a b, w = a ++ b -> b <> [] -> ~ starts_escape (b ++ r)) ->
    string_tokens r toks rest -> string_tokens (w ++ r) (Tok false w :: toks) rest.

(** ** Numbers in Scheme *)
Definition digit_value (c : ascii) : option N :=
  let n := N_of_ascii c in
  if ((48 <=? n) && (n <=? 57))%N then Some (n - 48)%N
  else if ((97 <=? n) && (n <=? 102))%N then Some (n - 87)%N
  else if ((65 <=? n) && (n <=? 70))%N then Some (n - 55)%N else None.
(** Digits below the base, most significant first, at least one. *)
Fixpoint digits (b : N) (acc : N) (s : str) : option N :=
  match s with
  | [] => Some acc
  | c :: r => match digit_value c with Some d => if (d <? b)%N then digits b (acc * b + d)%N r else None | None => None end
  end.
Definition natural (b : N) (s : str) : option N := match s with [] => None | _ => digits b 0 s end.
Definition integer (b : N) (s : str) : option Z :=
  match s with
  | "-"%char :: r => option_map (fun n => - Z.of_N n) (natural b r)
  | _ => option_map Z.of_N (natural b s)
  end.
(** The part before the first slash, and after it. *)
Fixpoint cut (s : str) : str * option str :=
  match s with
  | [] => ([], None)
  | "/"%char :: r => ([], Some r)
  | c :: r => let (a, b) := cut r in (c :: a, b)
  end.
Definition rational (b : N) (s : str) : option Q :=
  match cut s with
  | (a, None) => option_map inject_Z (integer b a)
  | (a, Some d) => match integer b a, natural b d with Some n, Some (Npos p) => Some (n # p)%Q | _, _ => None end
  end.
(** #b, #o and #x are binary, octal and hexadecimal numbers, others are decimal. *)
Definition scheme_number (s : str) : option Q :=
  match s with
  | "#"%char :: "b"%char :: r => rational 2 r
  | "#"%char :: "o"%char :: r => rational 8 r
  | "#"%char :: "x"%char :: r => rational 16 r
  | _ => rational 10 s
  end.

(** ** Text in XML: its contents; references stand for one character *)
Inductive xml_text : str -> str -> Prop :=
| xml_nil : xml_text [] []
| xml_char c t s : ~ In c (txt "&<>""'") -> xml_text t s -> xml_text (c :: t) (c :: s)
| xml_amp t s : xml_text t s -> xml_text (txt "&amp;" ++ t) ("&"%char :: s)
| xml_lt t s : xml_text t s -> xml_text (txt "&lt;" ++ t) ("<"%char :: s)
| xml_gt t s : xml_text t s -> xml_text (txt "&gt;" ++ t) (">"%char :: s)
| xml_quot t s : xml_text t s -> xml_text (txt "&quot;" ++ t) (""""%char :: s)
| xml_apos t s : xml_text t s -> xml_text (txt "&#x27;" ++ t) ("'"%char :: s).

(** [sub] occurs in [s] *)
Definition contains (s sub : str) : Prop := exists a b, s = a ++ sub ++ b.
