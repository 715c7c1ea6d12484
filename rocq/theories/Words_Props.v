(** The tokens in lists, in blocks and after pitches (property C119). *)
From Coq Require Import String Ascii List ZArith NArith Bool Lia.
From Verif Require Import Base Duration_Model Duration_Spec Duration_Text Pitch_Model Heads_Model Heads_Props Build_Model Grob_Model Signature_Model Dispatch_Model Words_Model Words_Spec.
Import ListNotations.
Local Open Scope string_scope.
Local Open Scope list_scope.

(** ** Numbers *)

Lemma value_snoc s c : digits_value (s ++ [c]) = (10 * digits_value s + (Z.of_nat (nat_of_ascii c) - 48))%Z.
Proof. unfold digits_value. now rewrite fold_left_app. Qed.
Lemma value_pos s : Forall is_digit s -> (0 <= digits_value s)%Z /\ (s <> [] -> hd_error s <> Some "0"%char -> (0 < digits_value s)%Z).
Proof.
  induction s as [|c s IH] using rev_ind; intros F; [split; [reflexivity|congruence]|]. apply Forall_app in F as [F D]. apply Forall_inv in D. unfold is_digit in D. destruct (IH F) as [A B]. rewrite value_snoc. split; [lia|]. intros _ H.
  destruct s as [|x s]; [|specialize (B ltac:(discriminate) H); lia]. cbn in H. cbn. assert (nat_of_ascii c <> 48%nat) by (intros E; apply H; f_equal; rewrite <- (ascii_nat_embedding c), E; reflexivity). lia.
Qed.
Lemma numeral_fun : forall s t n, numeral s n -> numeral t n -> s = t.
Proof.
  induction s as [|c s IH] using rev_ind; intros t n (F & V & H) (F' & V' & H').
  - destruct t as [|x t]; [reflexivity|]. destruct (value_pos (x :: t) F') as [_ P]. specialize (P ltac:(discriminate) H'). cbn in V. lia.
  - induction t as [|d t _] using rev_ind.
    + destruct (value_pos (s ++ [c]) F) as [_ P]. specialize (P ltac:(destruct s; discriminate) H). cbn in V'. lia.
    + apply Forall_app in F as [F D], F' as [F' D']. apply Forall_inv in D, D'. unfold is_digit in D, D'. rewrite value_snoc in V, V'.
      assert (E : digits_value s = digits_value t /\ nat_of_ascii c = nat_of_ascii d) by lia. destruct E as [E1 E2]. f_equal; [|f_equal; rewrite <- (ascii_nat_embedding c), <- (ascii_nat_embedding d), E2; reflexivity].
      apply (IH t (digits_value s)); (split; [assumption|]; split; [congruence|]).
      * destruct s; [discriminate|exact H].
      * destruct t; [discriminate|exact H'].
Qed.
Lemma plain_str text n : plain_number text n -> text = str_int n.
Proof.
  intros [[-> ->]|[P N]]; [reflexivity|]. unfold str_int. replace (n <? 0)%Z with false by lia. eapply numeral_fun; [exact N|]. now apply dec_numeral.
Qed.
Lemma plain_read text n : plain_number text n -> py_int text = Ok n /\ str_int n = text.
Proof. intros P. rewrite (plain_str _ _ P). split; [apply py_int_str|reflexivity]. Qed.

(** ** Octaves *)

Lemma count_repeat c d k : count c (repeat d k) = if Ascii.eqb c d then Z.of_nat k else 0%Z.
Proof. unfold count. induction k as [|k IH]; [destruct (Ascii.eqb c d); reflexivity|]. cbn [repeat filter]. destruct (Ascii.eqb c d); cbn [List.length]; lia. Qed.
Lemma octave_kept text n : octave_marks text n -> octave_from_string text = n /\ octave_to_string n = text.
Proof.
  intros (k & [[-> ->]|[-> ->]]); unfold octave_from_string, octave_to_string; rewrite !count_repeat; cbn [Ascii.eqb Bool.eqb]; (split; [lia|]).
  - replace (Z.of_nat k <? 0)%Z with false by lia. now rewrite Nat2Z.id.
  - destruct k as [|k]; [reflexivity|]. replace (- Z.of_nat (S k) <? 0)%Z with true by lia. now rewrite Z.opp_involutive, Nat2Z.id.
Qed.

(** ** One token *)

Section Words.
Variable other_read : cls -> str -> res hv.
Variable other_write : cls -> hv -> res str.
Notation own_read := (own_read other_read).
Notation own_write := (own_write other_write).
Notation written := (written own_write).
Notation spells := (spells other_write).

Lemma action_eq_dec (a b : action) : {a = b} + {a <> b}. Proof. apply list_eq_dec, string_dec. Qed.
Lemma action_eqb_refl a : action_eqb a a = true.
Proof. unfold action_eqb. destruct (list_eq_dec string_dec a a); congruence. Qed.
Lemma action_eqb_false a b : a <> b -> action_eqb a b = false.
Proof. unfold action_eqb. destruct (list_eq_dec string_dec a b); congruence. Qed.

Lemma one_listed p e s : listed p e -> spells p s -> list_node other_read p = Ok e /\ written e = Ok s.
Proof.
  intros L S. destruct L as [text n P|text|text a N1 N2|e]; inversion S; subst; cbn [list_node].
  - destruct (plain_read _ _ P) as [R W]. change (id_class ["Number"]) with KInt. unfold make. cbn [head_of own_read]. rewrite R. cbn [bindr]. split; [reflexivity|]. cbn [Dispatch_Model.written head_of Words_Model.own_write]. now rewrite W.
  - split; reflexivity.
  - replace (id_class a) with KSymbol; [split; reflexivity|]. unfold id_class, id_methods. cbn [dict_find]. rewrite !action_eqb_false by congruence. reflexivity.
  - split; [reflexivity|assumption].
Qed.
Lemma one_blocked p e s : blocked other_read other_write p e -> spells p s -> common_node other_read p = Ok [e] /\ written e = Ok s.
Proof.
  intros L S. destruct L as [text n P|text v R W|a b n d PA PB| |u I|text|c k K|e]; inversion S; subst; cbn [common_node].
  - destruct (plain_read _ _ P) as [R W]. change (common_class s ["Number"]) with (Some KInt). cbv iota beta. unfold make. cbn [head_of own_read]. rewrite R. cbn [bindr]. split; [reflexivity|]. cbn [Dispatch_Model.written head_of Words_Model.own_write]. now rewrite W.
  - change (common_class s ["Number"; "Float"]) with (Some KFloat). cbv iota beta. unfold make. cbn [head_of Words_Model.own_read]. rewrite R. cbn [bindr]. split; [reflexivity|exact W].
  - destruct (plain_read _ _ PA) as [RA WA], (plain_read _ _ PB) as [RB WB]. match goal with |- context [common_class ?t ?a] => change (common_class t a) with (Some KFraction) end. cbv iota beta. unfold make. cbn [head_of Words_Model.own_read].
    assert (SP : split "/" (a ++ txt "/" ++ b) = [a; b]) by (unfold split; change (txt "/" ++ b) with ("/"%char :: b); apply (split_two a b); [rewrite <- WA; apply slash_free|rewrite <- WB; apply slash_free]).
    rewrite SP. cbn [mapr bindr]. rewrite RA. cbn [bindr]. rewrite RB. cbn [bindr]. split; [reflexivity|]. cbn [Dispatch_Model.written head_of Words_Model.own_write]. now rewrite WA, WB.
  - split; reflexivity.
  - cbn in I. destruct I as [<-|[<-|[<-|[<-|[]]]]]; split; reflexivity.
  - split; reflexivity.
  - destruct c; try discriminate; cbn in K; injection K as <-; split; reflexivity.
  - split; [reflexivity|assumption].
Qed.
Lemma one_marked p e s : marked p e -> spells p s -> mark_node other_read p = Ok (Some e) /\ written e = Ok s.
Proof.
  intros L S. destruct L as [text n M|text n M| | |e]; inversion S; subst; cbn [mark_node].
  - destruct (octave_kept _ _ M) as [R W]. match goal with |- context [dict_find ?f ?t ?a] => change (dict_find f t a) with (Some KOctave) end. cbv iota beta. unfold make. cbn [head_of Words_Model.own_read bindr]. rewrite R. split; [reflexivity|]. cbn [Dispatch_Model.written head_of Words_Model.own_write]. now rewrite W.
  - destruct (octave_kept _ _ M) as [R W]. match goal with |- context [dict_find ?f ?t ?a] => change (dict_find f t a) with (Some KOctCheck) end. cbv iota beta. unfold make. cbn [head_of Words_Model.own_read bindr]. change (skipn 1 (txt "=" ++ text)) with text. rewrite R. split; [reflexivity|]. cbn [Dispatch_Model.written head_of Words_Model.own_write]. now rewrite W.
  - split; reflexivity.
  - split; reflexivity.
  - split; [reflexivity|assumption].
Qed.

Lemma mapr_all {A B C} (f : A -> res B) (g : C -> B) l es : Forall2 (fun x e => f x = Ok (g e)) l es -> mapr f l = Ok (map g es).
Proof. intros F. induction F as [|x e l es H F IH]; [reflexivity|]. cbn [mapr map]. rewrite H. cbn [bindr]. rewrite IH. reflexivity. Qed.

Lemma all_kept {X} (kind : piece -> elem -> Prop) (read : piece -> res X) (g : elem -> X) :
  (forall p e s, kind p e -> spells p s -> read p = Ok (g e) /\ written e = Ok s) ->
  forall l es ss, Forall2 kind l es -> Forall2 spells l ss -> mapr read l = Ok (map g es) /\ mapr written es = Ok ss.
Proof.
  intros H l es ss F. revert ss. induction F as [|p e l es K F IH]; intros ss S; [inversion S; split; reflexivity|]. inversion S as [|p' s l' ss' SP S']; subst. destruct (H _ _ _ K SP) as [R W]. destruct (IH _ S') as [R' W'].
  cbn [mapr map]. rewrite R, W. cbn [bindr]. rewrite R', W'. split; reflexivity.
Qed.

(** In a list or the name of a variable every word becomes an element: a number an Int, a separator a Separator, everything else a Symbol; all of it
    is written as it was read. *)
Theorem C119_list : forall l es ss, Forall2 listed l es -> Forall2 spells l ss ->
  list_words other_read l = Ok es /\ all_written other_write es = Ok (concat ss).
Proof.
  intros l es ss F S. destruct (all_kept listed (list_node other_read) (fun e => e) one_listed l es ss F S) as [R W]. rewrite map_id in R. split; [exact R|]. unfold all_written. now rewrite W.
Qed.

(** In a block, or after \repeat, a number, unit, equal sign, type or keyword of a context definition becomes the element of its class, with the value
    that is written, and is written as it was read. *)
Theorem C119_block : forall l es ss, Forall2 (blocked other_read other_write) l es -> Forall2 spells l ss ->
  common_words other_read l = Ok es /\ all_written other_write es = Ok (concat ss).
Proof.
  intros l es ss F S. destruct (all_kept (blocked other_read other_write) (common_node other_read) (fun e => [e]) one_blocked l es ss F S) as [R W]. split; [|unfold all_written; now rewrite W].
  unfold common_words. rewrite R. cbn [bindr]. f_equal. clear. induction es as [|e es IH]; [reflexivity|]. cbn [map concat app]. now rewrite IH.
Qed.

(** After a pitch: the octave is the number of marks, likewise the octave check, and an accidental is cautionary or forced; all are written
    as they were read. *)
Theorem C119_marks : forall l es ss, Forall2 marked l es -> Forall2 spells l ss ->
  pitch_marks other_read l = Ok (map Some es) /\ all_written other_write es = Ok (concat ss).
Proof.
  intros l es ss F S. destruct (all_kept marked (mark_node other_read) Some one_marked l es ss F S) as [R W]. split; [exact R|]. unfold all_written. now rewrite W.
Qed.

(** Every word of a list is one of these, if its numbers are plain. *)
Theorem C119_list_total : forall text a, (a = ["Number"] -> exists n, plain_number text n) -> exists e, listed (PTok text a) e.
Proof.
  intros text a H. destruct (action_eq_dec a ["Number"]) as [->|N1]; [destruct (H eq_refl) as (n & P); eexists; eapply listed_number; exact P|]. destruct (action_eq_dec a ["Delimiter"; "Separator"]) as [->|N2]; [eexists; apply listed_separator|]. eexists. now apply listed_symbol.
Qed.

(** Finding: in a block every other keyword is dropped, such as \include or \version, and so is every other token, also one whose action derives
    from one that is known. *)
Theorem C119_dropped_finding : forall text a,
  (a = ["Keyword"] -> forall c s, definition c = Some s -> text <> txt s) ->
  ~ In a [["Number"]; ["Number"; "Float"]; ["Number"; "Fraction"]; ["Operator"; "Assignment"]; ["Name"; "Builtin"; "Unit"]; ["Name"; "Type"]] ->
  common_words other_read [PTok text a] = Ok [].
Proof.
  intros text a K N. unfold common_words. cbn [mapr common_node]. replace (common_class text a) with (@None cls); [reflexivity|]. symmetry. unfold common_class. destruct (action_eq_dec a ["Keyword"]) as [->|NK].
  - rewrite action_eqb_refl. specialize (K eq_refl).
    assert (X : forall t c, In (t, c) context_keywords -> text <> t).
    { intros t c I. cbn in I. repeat (destruct I as [I|I]; [injection I as <- _|]); [exact (K KAccepts "\accepts" eq_refl)|exact (K KDenies "\denies" eq_refl)|exact (K KName "\name" eq_refl)|exact (K KAlias "\alias" eq_refl)|exact (K KConsists "\consists" eq_refl)|exact (K KRemove "\remove" eq_refl)|exact (K KDefaultChild "\defaultchild" eq_refl)|destruct I]. }
    clear K N. induction context_keywords as [|[t c] l IH]; [reflexivity|]. cbn [dict_find]. destruct (str_eq _ _) eqn:E.
    + exfalso. apply (X t c (or_introl eq_refl)). unfold str_eq in E. destruct (list_eq_dec ascii_dec _ _) in E; congruence.
    + apply IH. intros t' c' I. apply (X t' c'). now right.
  - rewrite (action_eqb_false _ _ NK). cbn [In] in N. unfold common_methods. cbn [dict_find]. rewrite !action_eqb_false; try reflexivity; intros E; apply N; subst; tauto.
Qed.
End Words.
Print Assumptions C119_list.
Print Assumptions C119_block.
Print Assumptions C119_marks.
Print Assumptions C119_list_total.
Print Assumptions C119_dropped_finding.

Local Open Scope nat_scope.
(** In [\override Staff.3], in [\paper { a = 12\mm }] after the name, and after the pitch in [c'!]. *)
Example C119_witness :
  (exists es, Forall2 listed [PTok (txt "Staff") ["Name"; "Builtin"; "Context"]; PTok (txt ".") ["Delimiter"; "Separator"]; PTok (txt "30") ["Number"]] es) /\
  (exists es, Forall2 (blocked (fun _ _ => Err TypeError) (fun _ _ => Err TypeError)) [PTok (txt "=") ["Operator"; "Assignment"]; PTok (txt "12") ["Number"]; PTok (txt "\mm") ["Name"; "Builtin"; "Unit"]; PTok (txt "\remove") ["Keyword"]; PTok (txt "3/4") ["Number"; "Fraction"]] es) /\
  (exists es, Forall2 marked [PTok (txt "''") ["Text"; "Music"; "Pitch"; "Octave"]; PTok (txt "!") ["Text"; "Music"; "Pitch"; "Accidental"]; PTok (txt "=,") ["Text"; "Music"; "Pitch"; "Octave"; "OctaveCheck"]] es) /\
  common_words (fun _ _ => Err TypeError) [PTok (txt "\include") ["Keyword"]] = Ok [].
Proof.
  assert (PN : forall n, (0 < n)%Z -> plain_number (str_int n) n). { intros n P. right. split; [exact P|]. unfold str_int. replace (n <? 0)%Z with false by lia. now apply dec_numeral. }
  split; [|split; [|split]].
  - eexists. constructor; [apply listed_symbol; discriminate|]. constructor; [apply listed_separator|]. constructor; [apply (listed_number (txt "30") 30), (PN 30%Z); lia|constructor].
  - eexists. constructor; [apply blocked_equal|]. constructor; [apply (blocked_number _ _ (txt "12") 12), (PN 12%Z); lia|]. constructor; [apply (blocked_unit _ _ "mm"); now left|]. constructor; [apply (blocked_keyword _ _ KRemove "\remove"); reflexivity|].
    constructor; [|constructor]. apply (blocked_fraction _ _ (txt "3") (txt "4") 3 4); [apply (PN 3%Z)|apply (PN 4%Z)]; lia.
  - eexists. constructor; [apply (marked_octave _ 2); exists 2; now left|]. constructor; [apply marked_forced|]. constructor; [|constructor]. apply (marked_check (txt ",") (-1)). exists 1. now right.
  - reflexivity.
Qed.
