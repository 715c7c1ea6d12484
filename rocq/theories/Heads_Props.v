(** Theorems about the written forms of elements: C79-C82. *)
From Coq Require Import String Ascii List ZArith NArith QArith Bool Lia.
From Verif Require Import Base Duration_Model Duration_Spec Duration_Text Heads_Model Heads_Spec.
Import ListNotations.
Open Scope Z_scope.

(** ** C79: strings *)
Lemma escape_cases c : (special c /\ escape_char c = ["\"%char; c]) \/ (~ special c /\ escape_char c = [c]).
Proof.
  unfold escape_char, special, backslash, quote. destruct (Ascii.eqb_spec c "\") as [->|A]; [left; auto|]. destruct (Ascii.eqb_spec c """") as [->|B]; [left; auto|]. right. split; [intros [|]; contradiction|reflexivity].
Qed.
Definition read_tok (t : token) : str := match t with Tok e s => if e then skipn 1 s else s end.
Lemma string_read_body o toks c : string_read (o :: toks ++ [c]) = flat_map read_tok toks.
Proof. unfold string_read. cbn [skipn]. rewrite removelast_last. reflexivity. Qed.

(** Text without specials at the start of a written string *)
Lemma tokens_written : forall toks s after rest, string_tokens (flat_map escape_char s ++ """"%char :: after) toks rest -> rest = after /\ flat_map read_tok toks = s.
Proof.
  assert (H : forall t toks rest, string_tokens t toks rest -> forall s after, t = flat_map escape_char s ++ """"%char :: after -> rest = after /\ flat_map read_tok toks = s).
  { induction 1 as [rest|c r toks rest SP T IH|w r toks rest NE NQ NS T IH]; intros s after E.
    - destruct s as [|x s]; cbn in E; [injection E as <-; auto|]. destruct (escape_cases x) as [(SX & EX)|(SX & EX)]; rewrite EX in E; cbn in E; injection E as E1 E2; [discriminate|]. exfalso. apply SX. right. auto.
    - destruct s as [|x s]; cbn in E; [discriminate|]. destruct (escape_cases x) as [(SX & EX)|(SX & EX)]; rewrite EX in E; cbn in E.
      + injection E as -> E. destruct (IH s after E) as (-> & Q). split; [reflexivity|]. cbn [flat_map read_tok skipn app]. rewrite Q. reflexivity.
      + injection E as E1 E2. exfalso. apply SX. left. auto.
    - (* the text of the token is the start of s *)
      assert (W : forall w s, (forall a b, w = a ++ b -> b <> [] -> ~ starts_escape (b ++ r)) -> ~ In """"%char w -> w ++ r = flat_map escape_char s ++ """"%char :: after -> exists s', s = w ++ s' /\ r = flat_map escape_char s' ++ """"%char :: after).
      { clear -r. induction w as [|c w IH]; intros s NS NQ E; [exists s; auto|]. destruct s as [|x s]; cbn in E; [injection E as -> E; exfalso; apply NQ; left; reflexivity|].
        destruct (escape_cases x) as [(SX & EX)|(SX & EX)]; rewrite EX in E; cbn in E.
        - exfalso. apply (NS [] (c :: w) eq_refl ltac:(discriminate)). exists x, (flat_map escape_char s ++ """"%char :: after). split; [exact E|exact SX].
        - injection E as -> E. destruct (IH s) as (s' & -> & R); [|intros I; apply NQ; right; exact I|exact E|exists s'; auto].
          intros a b Q NB. apply (NS (x :: a) b); [rewrite Q; reflexivity|exact NB]. }
      destruct (W w s NS NQ E) as (s' & -> & R). destruct (IH s' after R) as (-> & Q). split; [reflexivity|]. cbn [flat_map read_tok]. rewrite Q. reflexivity. }
  intros. eapply H; eauto.
Qed.
(** Every string can be written: what is written is one string, ended by its last quote, and reading its tokens gives the string. *)
Theorem C79_string : forall head, exists body, string_write head = """"%char :: body /\
  (forall after, exists toks, string_tokens (body ++ after) toks after) /\
  (forall after toks rest, string_tokens (body ++ after) toks rest -> rest = after /\ forall op cl, string_read (op :: toks ++ [cl]) = head).
Proof.
  intros head. exists (flat_map escape_char head ++ [""""%char]). split; [reflexivity|]. split.
  - intros after. rewrite <- app_assoc. cbn [app]. induction head as [|c head (toks & IH)]; [exists []; constructor|]. cbn [flat_map]. destruct (escape_cases c) as [(SC & ->)|(SC & ->)]; cbn [app].
    + eexists. apply string_escape; eassumption.
    + exists (Tok false [c] :: toks). apply (string_text [c]); [discriminate| | |exact IH].
      * intros [->|[]]. apply SC. right. reflexivity.
      * intros a b E NB (x & r & Q & SX). destruct a as [|y a]; [cbn in E; subst b; cbn in Q; injection Q as -> _; apply SC; left; reflexivity|]. injection E as _ E. destruct a; [cbn in E; subst b; auto|discriminate].
  - intros after toks rest T. rewrite <- app_assoc in T. cbn [app] in T. destruct (tokens_written toks head after rest T) as (-> & R). split; [reflexivity|]. intros op cl. rewrite string_read_body. exact R.
Qed.
Print Assumptions C79_string.
(** A string that is read and written is the same text, if every backslash in it is part of an escape. *)
Theorem C79_text : forall t toks rest op cl, string_tokens t toks rest -> Forall (fun k => match k with Tok true _ => True | Tok false w => ~ In "\"%char w end) toks ->
  string_write (string_read (op :: toks ++ [cl])) ++ rest = """"%char :: t.
Proof.
  intros t toks rest op cl T F. rewrite string_read_body. unfold string_write. unfold quote. cbn [app]. f_equal. rewrite <- app_assoc. cbn [app]. revert F. induction T as [rest|c r toks rest SP T IH|w r toks rest NE NQ NS T IH]; intros F; [reflexivity| |]; inversion F; subst; cbn [flat_map read_tok skipn].
  - cbn [app flat_map]. destruct (escape_cases c) as [(_ & ->)|(N & _)]; [|contradiction]. cbn [app]. do 2 f_equal. apply IH. assumption.
  - rewrite flat_map_app, <- app_assoc, IH by assumption. f_equal.
    assert (W : forall w, ~ In """"%char w -> ~ In "\"%char w -> flat_map escape_char w = w). { clear. induction w as [|c w IH]; intros A B; [reflexivity|]. cbn [flat_map]. rewrite IH by (intros I; first [solve [apply A; right; exact I]|solve [apply B; right; exact I]]). destruct (escape_cases c) as [([->| ->] & _)|(_ & ->)]; [exfalso; apply B; left; reflexivity|exfalso; apply A; left; reflexivity|reflexivity]. }
    apply W; assumption.
Qed.
Print Assumptions C79_text.
Example C79_witness : string_write (txt "a\""b") = txt """a\\\""b""" /\
  string_tokens (txt "a\\\""b"" c") [Tok false (txt "a"); Tok true (txt "\\"); Tok true (txt "\"""); Tok false (txt "b")] (txt " c").
Proof.
  split; [reflexivity|]. apply (string_text (txt "a") (txt "\\\""b"" c")); [discriminate|intros [E|[]]; discriminate| |].
  - intros a b E NB (x & r & Q & _). destruct a as [|y a]; [cbn in E; subst b; discriminate|]. injection E as _ E. destruct a; [cbn in E; subst b; auto|discriminate].
  - apply string_escape; [left; reflexivity|]. apply string_escape; [right; reflexivity|]. apply (string_text (txt "b") (txt """ c")); [discriminate|intros [E|[]]; discriminate| |constructor].
    intros a b E NB (x & r & Q & _). destruct a as [|y a]; [cbn in E; subst b; discriminate|]. injection E as _ E. destruct a; [cbn in E; subst b; auto|discriminate].
Qed.
(** Finding: in LilyPond and Scheme a backslash can precede other characters, such as n for a newline.  When such a string is written, the
    backslash is doubled, and means itself. *)
Theorem C79_backslash_finding : exists toks rest, string_tokens (txt "a\nb""") toks rest /\
  string_write (string_read (Tok false (txt """") :: toks ++ [Tok false (txt """")])) = txt """a\\nb""".
Proof.
  exists [Tok false (txt "a\nb")], []. split; [|reflexivity]. apply (string_text (txt "a\nb") (txt """")); [discriminate|cbn; intros [E|[E|[E|[E|[]]]]]; discriminate| |constructor].
  intros a b E NB (x & r & Q & SX). do 4 (destruct a as [|? a]; [cbn in E; subst b; cbn in Q; injection Q; intros; try discriminate; subst; destruct SX; discriminate|injection E as _ E]). destruct a; [cbn in E; subst b; auto|discriminate].
Qed.
Print Assumptions C79_backslash_finding.

(** ** C80: numbers *)
Lemma py_int_str z : py_int (str_int z) = Ok z.
Proof.
  unfold str_int. destruct (Z.ltb_spec z 0) as [L|L].
  - rewrite py_int_minus, digits_of_dec. cbn [bindr]. rewrite Z2N.id by lia. f_equal. lia.
  - rewrite py_int_dec, Z2N.id by lia. reflexivity.
Qed.
Lemma slash_free z : ~ In "/"%char (str_int z).
Proof.
  assert (D : forall n, ~ In "/"%char (dec n)). { intros n I. pose proof (dec_digits n) as F. rewrite Forall_forall in F. specialize (F _ I). unfold is_digit in F. cbn in F. lia. }
  unfold str_int. destruct (z <? 0); [|apply D]. intros [E|I]; [discriminate|exact (D _ I)].
Qed.
Lemma split_one s : ~ In "/"%char s -> forall cur, split_on "/" cur s = [List.rev cur ++ s].
Proof. induction s as [|c s IH]; intros N cur; cbn [split_on]; [rewrite app_nil_r; reflexivity|]. destruct (Ascii.eqb_spec c "/") as [->|NE]; [exfalso; apply N; left; reflexivity|]. rewrite IH by (intros I; apply N; right; exact I). cbn [List.rev]. rewrite <- app_assoc. reflexivity. Qed.
Lemma split_two s t : ~ In "/"%char s -> ~ In "/"%char t -> forall cur, split_on "/" cur (s ++ "/"%char :: t) = [List.rev cur ++ s; t].
Proof.
  intros N M. induction s as [|c s IH]; intros cur; cbn [split_on app].
  - rewrite (split_one t M []), app_nil_r. reflexivity.
  - destruct (Ascii.eqb_spec c "/") as [->|NE]; [exfalso; apply N; left; reflexivity|]. rewrite IH by (intros I; apply N; right; exact I). cbn [List.rev]. rewrite <- app_assoc. reflexivity.
Qed.
(** Integers and fractions in LilyPond *)
Theorem C80_int : forall z e, int_read [Tok e (int_write z)] = Ok z.
Proof. intros. apply py_int_str. Qed.
Print Assumptions C80_int.
Theorem C80_fraction : forall a b e, fraction_read [Tok e (fraction_write a b)] = Ok [a; b].
Proof. intros. unfold fraction_read, fraction_write, split. cbn [text_of]. rewrite split_two by apply slash_free. cbn [mapr List.rev app]. rewrite !py_int_str. reflexivity. Qed.
Print Assumptions C80_fraction.

Lemma py_fraction_str q : exists r, py_fraction (str_fraction q) = Ok r /\ (r == q)%Q.
Proof.
  unfold str_fraction. pose proof (Qred_correct q) as C. pose proof (Qred_complete _ _ C) as R. destruct (Qred q) as [n d] eqn:E. cbn [Qnum Qden].
  assert (G : py_fraction (str_int n ++ "/"%char :: str_int (Zpos d)) = Ok (Qred (n # d))).
  { unfold py_fraction, split. rewrite split_two by apply slash_free. cbn [List.rev app]. rewrite py_int_str. cbn [bindr]. pose proof (py_int_str (Zpos d)) as P.
    assert (D : Forall is_digit (str_int (Zpos d))) by (apply dec_digits). destruct (str_int (Zpos d)) as [|c r]; [discriminate P|]. pose proof (Forall_inv D) as Dc. unfold is_digit in Dc.
    destruct (ascii_dec c "-") as [->|N1]; [cbn in Dc; lia|]. destruct (ascii_dec c "+") as [->|N2]; [cbn in Dc; lia|].
    assert (X : forall (A : Type) (x y : A), match c with "-"%char => x | "+"%char => x | _ => y end = y). { intros. clear -N1 N2. destruct c as [[] [] [] [] [] [] [] []]; try reflexivity; congruence. }
    rewrite X, P. reflexivity. }
  destruct (Pos.eq_dec d 1) as [->|ND].
  - exists (inject_Z n). split; [|exact C]. unfold py_fraction, split. rewrite split_one by apply slash_free. cbn [List.rev app]. rewrite py_int_str. reflexivity.
  - exists (Qred (n # d)). split; [destruct d; [exact G|exact G|congruence]|]. rewrite Qred_correct. exact C.
Qed.
(** A scaling is written so that its tokens (the asterisk and the number) are read as the same number; 1 is not written. *)
Theorem C80_scaling : forall q e e', exists r,
  (scaling_write q = [] /\ scaling_read 1 [] = Ok r \/ exists num, scaling_write q = "*"%char :: num /\ scaling_read 1 [Tok e (txt "*"); Tok e' num] = Ok r) /\ (r == q)%Q.
Proof.
  intros q e e'. unfold scaling_write. destruct (Qeq_bool q 1) eqn:Q1.
  - exists 1%Q. split; [left; auto|]. symmetry. apply Qeq_bool_iff. exact Q1.
  - destruct (py_fraction_str q) as (r & E & R). exists (1 * r)%Q. split; [|rewrite R; ring]. right. eexists. split; [reflexivity|]. cbn [scaling_read text_of]. replace (str_eqb (txt "*") (txt "*")) with true by reflexivity.
    replace (str_eqb (str_fraction q) (txt "*")) with false; [rewrite E; reflexivity|]. unfold str_eqb. destruct (list_eq_dec ascii_dec (str_fraction q) (txt "*")) as [X|]; [|reflexivity]. rewrite X in E. discriminate.
Qed.
Print Assumptions C80_scaling.
(** Several scalings are multiplied. *)
Theorem C80_scalings : forall l, exists r, scaling_read 1 (flat_map (fun q => [Tok false (txt "*"); Tok false (str_fraction q)]) l) = Ok r /\ (r == fold_left Qmult l 1)%Q.
Proof.
  assert (H : forall l a, exists r, scaling_read a (flat_map (fun q => [Tok false (txt "*"); Tok false (str_fraction q)]) l) = Ok r /\ (r == fold_left Qmult l a)%Q).
  { induction l as [|q l IH]; intros a; [exists a; split; reflexivity|]. cbn [flat_map app scaling_read text_of]. replace (str_eqb (txt "*") (txt "*")) with true by reflexivity. destruct (py_fraction_str q) as (r & E & R).
    replace (str_eqb (str_fraction q) (txt "*")) with false; [|unfold str_eqb; destruct (list_eq_dec ascii_dec (str_fraction q) (txt "*")) as [X|]; [rewrite X in E; discriminate|reflexivity]]. rewrite E. cbn [bindr]. destruct (IH (a * r)%Q) as (v & V & W). exists v. split; [exact V|]. rewrite W. cbn [fold_left].
    assert (M : forall l a b, (a == b)%Q -> (fold_left Qmult l a == fold_left Qmult l b)%Q). { clear. induction l as [|x l IH]; intros a b AB; [exact AB|]. cbn [fold_left]. apply IH. rewrite AB. reflexivity. }
    apply M. rewrite R. reflexivity. }
  intros l. apply H.
Qed.
Print Assumptions C80_scalings.

(** *** Scheme *)
Lemma digit_back b d : (d < b)%N -> (b <= 16)%N -> digit_value (digit_char d) = Some d.
Proof.
  intros L B. assert (H : (d < 16)%N) by lia. unfold digit_char.
  assert (F : forallb (fun k => let d := N.of_nat k in match digit_value (ascii_of_N (if (d <? 10)%N then 48 + d else 87 + d)) with Some x => N.eqb x d | None => false end) (seq 0 16) = true) by (vm_compute; reflexivity).
  rewrite forallb_forall in F. specialize (F (N.to_nat d)). cbv zeta in F. rewrite N2Nat.id in F. destruct (digit_value _) as [x|]; [|discriminate F; apply in_seq; lia].
  assert (I : In (N.to_nat d) (seq 0 16)) by (apply in_seq; lia). specialize (F I). apply N.eqb_eq in F. congruence.
Qed.
Lemma digits_app b s t acc : digits b acc (s ++ t) = match digits b acc s with Some n => digits b n t | None => None end.
Proof. revert acc. induction s as [|c s IH]; intros acc; [reflexivity|]. cbn [app digits]. destruct (digit_value c); [|reflexivity]. destruct (_ <? b)%N; [apply IH|reflexivity]. Qed.
Lemma digits_loop_ok b : (2 <= b <= 16)%N -> forall fuel n acc, (N.to_nat (N.log2 n) < fuel)%nat -> exists w, digits_loop fuel b n acc = w ++ acc /\ w <> [] /\ digits b 0 w = Some n.
Proof.
  intros B. induction fuel as [|fuel IH]; intros n acc F; [lia|]. cbn [digits_loop]. assert (D : (n mod b < b)%N) by (apply N.mod_lt; lia). pose proof (N.div_mod n b ltac:(lia)) as DM.
  destruct (N.eqb_spec (n / b) 0) as [Z0|NZ].
  - exists [digit_char (n mod b)]. split; [reflexivity|]. split; [discriminate|]. cbn [digits]. rewrite (digit_back b) by lia. destruct (N.ltb_spec (n mod b) b) as [_|X]; [|lia]. f_equal. rewrite Z0, N.mul_0_r in DM. lia.
  - assert (NP : (n <> 0)%N) by (intros ->; apply NZ; apply N.div_0_l; lia).
    assert (LG : (N.log2 (n / b) < N.log2 n)%N).
    { apply N.log2_lt_pow2; [apply N.neq_0_lt_0; exact NZ|]. apply N.div_lt_upper_bound; [lia|]. pose proof (N.log2_spec n ltac:(lia)) as S2. rewrite N.pow_succ_r' in S2. nia. }
    destruct (IH (n / b)%N (digit_char (n mod b) :: acc)) as (w & E & NW & DW); [lia|]. exists (w ++ [digit_char (n mod b)]). split; [rewrite E, <- app_assoc; reflexivity|]. split; [destruct w; discriminate|].
    rewrite digits_app, DW. cbn [digits]. rewrite (digit_back b) by lia. destruct (N.ltb_spec (n mod b) b) as [_|X]; [|lia]. f_equal. rewrite N.mul_comm. symmetry. exact DM.
Qed.
Lemma base_ok r : (2 <= base r <= 16)%N. Proof. destruct r; cbn; lia. Qed.
Lemma format_nat_ok r n : natural (base r) (format_nat (base r) n) = Some n.
Proof. unfold format_nat. destruct (digits_loop_ok (base r) (base_ok r) (S (N.to_nat (N.log2 n))) n []) as (w & E & NW & D); [lia|]. rewrite E, app_nil_r. unfold natural. destruct w; [congruence|exact D]. Qed.
Lemma digits_chars b acc s n : digits b acc s = Some n -> forall c, In c s -> c <> "-"%char /\ c <> "/"%char /\ c <> "#"%char.
Proof.
  revert acc. induction s as [|x s IH]; intros acc D c I; [destruct I|]. cbn [digits] in D. destruct (digit_value x) as [d|] eqn:V; [|discriminate]. destruct (d <? b)%N; [|discriminate]. destruct I as [<-|I]; [|eapply IH; eauto].
  repeat split; intros ->; discriminate V.
Qed.
Lemma natural_chars b s n : natural b s = Some n -> s <> [] /\ forall c, In c s -> c <> "-"%char /\ c <> "/"%char /\ c <> "#"%char.
Proof. unfold natural. destruct s as [|c s]; [discriminate|]. intros D. split; [discriminate|]. eapply digits_chars. exact D. Qed.
Lemma integer_format r z : integer (base r) (format_int r z) = Some z.
Proof.
  unfold format_int. destruct (Z.ltb_spec z 0) as [L|L].
  - cbn [integer]. rewrite format_nat_ok. cbn [option_map]. rewrite Z2N.id by lia. f_equal. lia.
  - pose proof (format_nat_ok r (Z.to_N z)) as F. destruct (natural_chars _ _ _ F) as (NE & CH). unfold integer. destruct (format_nat (base r) (Z.to_N z)) as [|c s]; [congruence|]. destruct (CH c (or_introl eq_refl)) as (NM & _).
    assert (X : forall (A : Type) (x y : A), match c with "-"%char => x | _ => y end = y). { intros. clear -NM. destruct c as [[] [] [] [] [] [] [] []]; try reflexivity; congruence. }
    rewrite X, F. cbn [option_map]. rewrite Z2N.id by lia. reflexivity.
Qed.
Lemma format_chars r z : format_int r z <> [] /\ forall c, In c (format_int r z) -> c <> "/"%char /\ c <> "#"%char.
Proof.
  unfold format_int. destruct (z <? 0).
  - split; [discriminate|]. intros c [<-|I]; [split; discriminate|]. destruct (natural_chars _ _ _ (format_nat_ok r (Z.to_N (- z)))) as (_ & CH). apply CH. exact I.
  - destruct (natural_chars _ _ _ (format_nat_ok r (Z.to_N z))) as (NE & CH). split; [exact NE|]. intros c I. apply CH. exact I.
Qed.
Lemma cut_none s : (forall c, In c s -> c <> "/"%char) -> cut s = (s, None).
Proof.
  induction s as [|c s IH]; intros H; [reflexivity|]. pose proof (H c (or_introl eq_refl)) as NC. cbn [cut]. rewrite IH by (intros x I; apply H; right; exact I).
  clear -NC. destruct c as [[] [] [] [] [] [] [] []]; try reflexivity; congruence.
Qed.
Lemma cut_some s t : (forall c, In c s -> c <> "/"%char) -> cut (s ++ "/"%char :: t) = (s, Some t).
Proof.
  induction s as [|c s IH]; intros H; [reflexivity|]. pose proof (H c (or_introl eq_refl)) as NC. cbn [app cut]. rewrite IH by (intros x I; apply H; right; exact I).
  clear -NC. destruct c as [[] [] [] [] [] [] [] []]; try reflexivity; congruence.
Qed.
Lemma scheme_prefix r s : (forall c, hd_error s = Some c -> c <> "#"%char) -> scheme_number (prefix r ++ s) = rational (base r) s.
Proof.
  intros H. destruct r; cbn [prefix app]; try reflexivity. destruct s as [|c s]; [reflexivity|]. pose proof (H c eq_refl) as NC. clear -NC. unfold scheme_number. destruct c as [[] [] [] [] [] [] [] []]; try reflexivity; congruence.
Qed.
(** The numbers of Bin, Oct, Hex and Number elements are read by Scheme as the same number. *)
Theorem C80_scheme_int : forall r z, scheme_number (number_write_int r z) = Some (inject_Z z).
Proof.
  intros r z. unfold number_write_int. destruct (format_chars r z) as (NE & CH). rewrite scheme_prefix.
  - unfold rational. rewrite cut_none by (intros c I; apply CH; exact I). rewrite integer_format. reflexivity.
  - intros c E. apply CH. destruct (format_int r z); [discriminate|]. injection E as ->. left. reflexivity.
Qed.
Print Assumptions C80_scheme_int.
Theorem C80_scheme_fraction : forall r q, exists v, scheme_number (number_write_fraction r q) = Some v /\ (v == q)%Q.
Proof.
  intros r q. unfold number_write_fraction. pose proof (Qred_correct q) as C. destruct (Qred q) as [n d]. cbn [Qnum Qden]. destruct (format_chars r n) as (NE & CH). rewrite scheme_prefix.
  - unfold rational. destruct (Pos.eqb_spec d 1) as [->|ND].
    + rewrite app_nil_r, cut_none by (intros c I; apply CH; exact I). rewrite integer_format. exists (inject_Z n). split; [reflexivity|exact C].
    + rewrite cut_some by (intros c I; apply CH; exact I). rewrite integer_format. change (format_int r (Z.pos d)) with (format_nat (base r) (Npos d)). rewrite format_nat_ok. exists (n # d). split; [reflexivity|exact C].
  - intros c E. apply CH. destruct (format_int r n); [congruence|]. injection E as ->. left. reflexivity.
Qed.
Print Assumptions C80_scheme_fraction.
Theorem C80_scheme_bool : forall b e, bool_read [Tok e (bool_write b)] = Ok b.
Proof. destruct b; reflexivity. Qed.
Print Assumptions C80_scheme_bool.
Example C80_witness : number_write_int Hex (-255) = txt "#x-ff" /\ number_write_fraction Bin (6 # 4) = txt "#b11/10" /\ scaling_write (2 # 4) = txt "*1/2" /\ fraction_write 6 8 = txt "6/8".
Proof. repeat split. Qed.

(** ** C81: comments, commands, characters and names *)
Lemma join_app a b : join_text (a ++ b) = (join_text a ++ join_text b)%list.
Proof. apply flat_map_app. Qed.
(** Single line comments, after a token with the comment character *)
Theorem C81_single : forall c e toks, single_write c (single_read (Tok e [c] :: toks)) = join_text (Tok e [c] :: toks) /\
  forall head, join_text toks = head -> single_read (Tok e [c] :: toks) = head.
Proof. intros. split; [reflexivity|]. intros head H. exact H. Qed.
Print Assumptions C81_single.
(** Multiline comments: a complete one is written as it was, one that is not closed is closed.
    Missing for the full claim: block comments in Scheme, for which op and cl are the same in the code (C81_scheme_comment_finding). *)
Theorem C81_multi_partial : forall op cl e e' toks, multi_write op cl (multi_read cl (Tok e op :: toks ++ [Tok e' cl])) = join_text (Tok e op :: toks ++ [Tok e' cl]) /\
  (forall head, join_text toks = head -> multi_read cl (Tok e op :: toks ++ [Tok e' cl]) = head) /\
  (forall t, text_of t <> cl -> multi_write op cl (multi_read cl (Tok e op :: toks ++ [t])) = (join_text (Tok e op :: toks ++ [t]) ++ cl)%list).
Proof.
  intros op cl e e' toks. unfold multi_read. cbn [skipn].
  assert (R : forall t, List.rev (Tok e op :: toks ++ [t]) = t :: List.rev toks ++ [Tok e op]) by (intros t; cbn [List.rev]; rewrite rev_app_distr; reflexivity).
  assert (X : str_eqb (text_of (Tok e' cl)) cl = true) by (unfold str_eqb; cbn [text_of]; destruct (list_eq_dec ascii_dec cl cl); congruence).
  rewrite R, X, removelast_last. unfold multi_write. split; [|split].
  - change (Tok e op :: toks ++ [Tok e' cl]) with ([Tok e op] ++ toks ++ [Tok e' cl])%list. rewrite !join_app. cbn. rewrite !app_nil_r. reflexivity.
  - intros head H. exact H.
  - intros t N. rewrite R. assert (str_eqb (text_of t) cl = false) as -> by (unfold str_eqb; destruct (list_eq_dec ascii_dec (text_of t) cl); congruence).
    change (Tok e op :: toks ++ [t]) with ([Tok e op] ++ toks ++ [t])%list. rewrite !join_app. cbn [join_text flat_map text_of]. rewrite !app_nil_r, <- !app_assoc. reflexivity.
Qed.
Print Assumptions C81_multi_partial.
(** In LilyPond, a comment ends where it should if its text does not contain the end sign. *)
Theorem C81_multi_end : forall head after, ~ contains head (txt "%}") -> forall a b, (head ++ txt "%}" ++ after)%list = (a ++ txt "%}" ++ b)%list -> (length head <= length a)%nat.
Proof.
  intros head after N a b E. destruct (le_lt_dec (length head) (length a)) as [L|L]; [exact L|]. exfalso.
  assert (H : exists d, head = (a ++ d)%list /\ d <> []).
  { exists (skipn (length a) head). split; [|intros Z; apply (f_equal (@length _)) in Z; rewrite skipn_length in Z; cbn in Z; lia].
    rewrite <- (firstn_skipn (length a) head) at 1. f_equal. assert (F : firstn (length a) (head ++ txt "%}" ++ after) = firstn (length a) (a ++ txt "%}" ++ b)) by (rewrite E; reflexivity).
    rewrite !firstn_app in F. replace (length a - length head)%nat with 0%nat in F by lia. rewrite Nat.sub_diag, !firstn_O, !app_nil_r, firstn_all in F. exact F. }
  destruct H as (d & -> & ND). rewrite <- app_assoc in E. apply app_inv_head in E. destruct d as [|x [|y d]]; [congruence| |].
  - cbn in E. injection E as -> E. discriminate.
  - cbn in E. injection E as -> -> E. apply N. exists a, d. reflexivity.
Qed.
Print Assumptions C81_multi_end.
(** Commands with a backslash *)
Theorem C81_command : (forall head e, backslash_read [Tok e (backslash_write head)] = head) /\
  (forall toks s, join_text toks = ("\"%char :: s) -> backslash_write (backslash_read toks) = join_text toks).
Proof. split; [intros; unfold backslash_read, join_text; cbn; apply app_nil_r|]. intros toks s E. unfold backslash_read, backslash_write, backslash. rewrite E. reflexivity. Qed.
Print Assumptions C81_command.
Theorem C81_char : (forall head e, char_read [Tok e (char_write head)] = head) /\ forall s e, char_write (char_read [Tok e ("#"%char :: "\"%char :: s)]) = "#"%char :: "\"%char :: s.
Proof. split; reflexivity. Qed.
Print Assumptions C81_char.
(** Names of environments in LaTeX *)
Theorem C81_environment : forall name e e' e'', name <> [] -> ~ In "{"%char name -> ~ In "}"%char name ->
  environment_read [Tok e (txt "{"); Tok e' name; Tok e'' (txt "}")] = Some name /\ environment_write name = join_text [Tok e (txt "{"); Tok e' name; Tok e'' (txt "}")].
Proof.
  intros name e e' e'' N A B. split; [|cbn; rewrite <- ?app_assoc; reflexivity]. unfold environment_read. cbn [find text_of]. replace (in_braces (txt "{")) with true by reflexivity. cbn [negb].
  replace (in_braces name) with false; [reflexivity|]. unfold in_braces. cbn [existsb]. unfold str_eqb.
  destruct (list_eq_dec ascii_dec name []); [congruence|]. destruct (list_eq_dec ascii_dec name (txt "{")) as [->|]; [exfalso; apply A; left; reflexivity|]. destruct (list_eq_dec ascii_dec name (txt "}")) as [->|]; [exfalso; apply B; left; reflexivity|].
  destruct (list_eq_dec ascii_dec name (txt "{}")) as [->|]; [exfalso; apply A; left; reflexivity|]. reflexivity.
Qed.
Print Assumptions C81_environment.
Example C81_witness : let o := [Tok false (txt "%{"); Tok false (txt " a "); Tok false (txt "%}")] in multi_read (txt "%}") o = txt " a " /\ multi_write (txt "%{") (txt "%}") (txt " a ") = txt "%{ a %}".
Proof. split; reflexivity. Qed.
(** Finding: a block comment in Scheme ends with !#, but the code looks for #! and writes #!, so such a comment changes when it is
    written. *)
Theorem C81_scheme_comment_finding : let o := [Tok false (txt "#!"); Tok false (txt " a "); Tok false (txt "!#")] in
  multi_write (txt "#!") (txt "#!") (multi_read (txt "#!") o) = txt "#! a !##!" /\ join_text o = txt "#! a !#".
Proof. split; reflexivity. Qed.
Print Assumptions C81_scheme_comment_finding.

(** ** C82: text in HTML *)
(** Every text is written as text and references that mean that text. *)
Theorem C82_text : forall s, xml_text (html_write s) s.
Proof.
  induction s as [|c s IH]; [constructor|]. unfold html_write. cbn [flat_map]. fold (html_write s). unfold html_char, quote.
  destruct (Ascii.eqb_spec c "&") as [->|N1]; [constructor; exact IH|]. destruct (Ascii.eqb_spec c "<") as [->|N2]; [constructor; exact IH|]. destruct (Ascii.eqb_spec c ">") as [->|N3]; [constructor; exact IH|].
  destruct (Ascii.eqb_spec c """") as [->|N4]; [constructor; exact IH|]. destruct (Ascii.eqb_spec c "'") as [->|N5]; [constructor; exact IH|]. cbn [app]. constructor; [|exact IH]. intros [<-|[<-|[<-|[<-|[<-|[]]]]]]; congruence.
Qed.
Print Assumptions C82_text.
(** And it means nothing else. *)
Theorem C82_unique : forall t s s', xml_text t s -> xml_text t s' -> s = s'.
Proof.
  intros t s s' H. revert s'. induction H; intros s' H'; inversion H'; subst; try reflexivity; try (f_equal; apply IHxml_text; assumption); try (exfalso; match goal with N : ~ In _ _ |- _ => apply N; cbn; auto end; fail).
Qed.
Print Assumptions C82_unique.
(** No tag can start in the text, and it cannot end a quoted string. *)
Theorem C82_safe : forall s, ~ In "<"%char (html_write s) /\ ~ In ">"%char (html_write s) /\ ~ In """"%char (html_write s) /\ ~ In "'"%char (html_write s).
Proof.
  intros s. pose proof (C82_text s) as H. revert H. generalize (html_write s). intros t H.
  induction H as [|c t s N H IH|t s H IH|t s H IH|t s H IH|t s H IH|t s H IH]; [repeat split; intros []| | | | | |]; destruct IH as (A & B & C & D); repeat split; intros I; cbn in I;
    repeat (destruct I as [E|I]; [first [discriminate E|subst; apply N; cbn; tauto]|]); auto.
Qed.
Print Assumptions C82_safe.
Theorem C82_entity : forall head e, entity_read [Tok e (entity_write head)] = head.
Proof. intros. unfold entity_read, entity_write. cbn [text_of skipn]. apply removelast_last. Qed.
Print Assumptions C82_entity.
Example C82_witness : html_write (txt "a < b & 'c'") = txt "a &lt; b &amp; &#x27;c&#x27;". Proof. reflexivity. Qed.
(** Finding: a CData element is not written as a CDATA section. *)
Theorem C82_cdata_finding : forall head rest, cdata_write head <> (txt "<![CDATA[" ++ rest)%list.
Proof. intros head rest E. discriminate. Qed.
Print Assumptions C82_cdata_finding.
(** Only in a head that contains the end of the section something is replaced. *)
Theorem C82_cdata : forall head, (forall a b, head <> (a ++ txt "]]>" ++ b)%list) -> cdata_write head = (txt "<[CDATA[" ++ head ++ txt "]]>")%list.
Proof.
  intros head N. unfold cdata_write. f_equal. f_equal.
  assert (L : forall n s, (List.length s <= n)%nat -> (forall a b, s <> (a ++ txt "]]>" ++ b)%list) -> replace_cdata s = s).
  { clear. induction n as [|n IH]; intros s LN N; [destruct s; [reflexivity | cbn in LN; lia]|].
    destruct s as [|c s]; [reflexivity|]. cbn [List.length] in LN.
    assert (E : replace_cdata s = s). { apply IH; [lia|]. intros a b Q. apply (N (c :: a) b). rewrite Q. reflexivity. }
    assert (D : (exists r, c :: s = txt "]]>" ++ r)%list \/ replace_cdata (c :: s) = c :: replace_cdata s).
    { destruct (ascii_dec c "]") as [->|NE].
      - destruct s as [|d s]; [right; reflexivity|]. destruct (ascii_dec d "]") as [->|NE].
        + destruct s as [|e s]; [right; reflexivity|]. destruct (ascii_dec e ">") as [->|NE]; [left; exists s; reflexivity|right].
          destruct e as [[] [] [] [] [] [] [] []]; first [reflexivity | exfalso; apply NE; reflexivity].
        + right. destruct d as [[] [] [] [] [] [] [] []]; first [reflexivity | exfalso; apply NE; reflexivity].
      - right. destruct c as [[] [] [] [] [] [] [] []]; first [reflexivity | exfalso; apply NE; reflexivity]. }
    destruct D as [(r & Q)|D]; [exfalso; apply (N [] r); exact Q|]. rewrite D, E. reflexivity. }
  apply (L (List.length head)); [lia | exact N].
Qed.
Print Assumptions C82_cdata.
Example C82_cdata_witness : (forall a b, txt "x]] >y" <> (a ++ txt "]]>" ++ b)%list) /\ cdata_write (txt "x]]>y") = txt "<[CDATA[x]]>]]&gt;<[CDATA[y]]>".
Proof.
  split; [|reflexivity]. intros a b E. repeat (destruct a as [|? a]; [discriminate E|]; try discriminate E; cbn in E; injection E as _ E).
Qed.
(** The check on a command: only a head that brings its own backslash is refused; of an accepted head the written form has one. *)
Theorem C81_check : forall head, (backslash_check head = false <-> exists s, head = ("\"%char :: s)) /\
  (backslash_check head = true -> forall s, backslash_write head <> ("\"%char :: "\"%char :: s)).
Proof.
  intros head. unfold backslash_check, backslash_write, backslash. destruct head as [|c head].
  - split; [split; [discriminate | intros (s & E); discriminate] | intros _ s E; discriminate].
  - destruct (Ascii.eqb_spec c "\") as [->|N]; cbn; split.
    + split; [intros _; exists head; reflexivity | reflexivity].
    + discriminate.
    + split; [discriminate | intros (s & E); injection E as -> _; contradiction].
    + intros _ s E. injection E as -> _. contradiction.
Qed.
Print Assumptions C81_check.
