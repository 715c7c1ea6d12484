(** Properties C01-C03: numbering. *)
From Coq Require Import String Ascii List ZArith Lia.
From Verif Require Import Base Numbering_Model Numbering_Spec Numbering_Proofs.
Import ListNotations.
Open Scope Z_scope.

(** C01.  Every positive number survives writing as a roman numeral and reading
    it back, in capitals and in small letters. *)
Theorem C01_roman_roundtrip : forall n, 1 <= n ->
  exists s, int2roman n = Ok s /\ roman2int s = Ok n /\ roman2int (lower s) = Ok n.
Proof. exact roman_total. Qed.
Print Assumptions C01_roman_roundtrip.

Theorem C01_int2roman_error : forall n, int2roman n = Err ValueError <-> n < 1.
Proof. exact int2roman_error. Qed.
Print Assumptions C01_int2roman_error.

Theorem C01_int2roman_injective : forall n m s,
  int2roman n = Ok s -> int2roman m = Ok s -> n = m.
Proof. exact int2roman_inj. Qed.
Print Assumptions C01_int2roman_injective.

(** KeyError exactly when some character is not one of I V X L C D M (in any
    case). *)
Theorem C01_roman2int_error : forall s,
  roman2int s = Err KeyError <-> Exists (fun c => ~ roman_letter (upper_char c)) s.
Proof. exact roman2int_error_spec. Qed.
Print Assumptions C01_roman2int_error.

(** The numeral is the standard one. *)
Theorem C01_standard : forall n, 1 <= n -> int2roman n = Ok (standard_roman n).
Proof.
  intros n H. unfold int2roman. destruct (Z.ltb_spec n 1) as [L|L]; [lia|]. f_equal. unfold roman_numerals. cbn [roman_loop].
  match goal with |- ?a ++ ?b = _ => change b with (roman_loop (tl roman_numerals) (n mod 1000)) end.
  assert (M : str_times (txt "M") (n / 1000) = repeat "M"%char (Z.to_nat (n / 1000))).
  { unfold str_times. induction (Z.to_nat (n / 1000)) as [|k IH]; [reflexivity|]. cbn [repeat concat]. rewrite IH. reflexivity. }
  rewrite M. unfold standard_roman. f_equal.
  assert (E1 : (n / 100) mod 10 = (n mod 1000) / 100) by (Z.div_mod_to_equations; lia).
  assert (E2 : (n / 10) mod 10 = ((n mod 1000) / 10) mod 10) by (Z.div_mod_to_equations; lia).
  assert (E3 : n mod 10 = (n mod 1000) mod 10) by (Z.div_mod_to_equations; lia).
  rewrite E1, E2, E3. pose proof (Z.mod_pos_bound n 1000 ltac:(lia)) as B. revert B. generalize (n mod 1000). clear.
  assert (F : forallb (fun k => let m := Z.of_nat k in if list_eq_dec ascii_dec (roman_loop (tl roman_numerals) m)
      (nth (Z.to_nat (m / 100)) roman_hundreds [] ++ nth (Z.to_nat ((m / 10) mod 10)) roman_tens [] ++ nth (Z.to_nat (m mod 10)) roman_units []) then true else false) (seq 0 1000) = true) by (vm_compute; reflexivity).
  intros m B. rewrite forallb_forall in F. specialize (F (Z.to_nat m)). cbv zeta in F. rewrite Z2Nat.id in F by lia.
  assert (I : In (Z.to_nat m) (seq 0 1000)) by (apply in_seq; lia). specialize (F I). destruct (list_eq_dec _ _ _) as [E|]; [exact E|discriminate].
Qed.
Print Assumptions C01_standard.

(** Reading does not depend on the case of the letters. *)
Theorem C01_any_case : forall s t, Forall2 same_letter s t -> roman2int s = roman2int t.
Proof.
  intros s t F. unfold roman2int. f_equal. f_equal. f_equal. unfold upper. induction F as [|a b s t H F IH]; [reflexivity|]. cbn [map]. rewrite IH. f_equal. destruct H as [->|(i & H)]; [reflexivity|].
  do 26 (destruct i as [|i]; [destruct H as [([= <-] & [= <-])|([= <-] & [= <-])]; reflexivity|]). destruct i; destruct H as [([=] & _)|([=] & _)].
Qed.
Print Assumptions C01_any_case.

Example C01_ex : int2roman 2994 = Ok (txt "MMCMXCIV") /\ roman2int (txt "mcmlxvii") = Ok 1967.
Proof. split; reflexivity. Qed.
Example C01_ex_error : roman2int (txt "MIQ") = Err KeyError.
Proof. reflexivity. Qed.

(** C02.  int2letter and letter2int are inverse bijections. *)
Theorem C02_letters_roundtrip : forall chars n,
  NoDup chars -> chars <> [] -> 0 <= n ->
  exists s, int2letter n chars = Ok s /\ letter2int s chars = Ok n
            /\ Forall (fun c => In c chars) s.
Proof. exact letter_roundtrip. Qed.
Print Assumptions C02_letters_roundtrip.

Theorem C02_letters_onto : forall chars s,
  NoDup chars -> Forall (fun c => In c chars) s ->
  exists n, 0 <= n /\ letter2int s chars = Ok n /\ int2letter n chars = Ok s.
Proof. exact letter_roundtrip2. Qed.
Print Assumptions C02_letters_onto.

Theorem C02_letter2int_error : forall s chars, NoDup chars ->
  (letter2int s chars = Err ValueError <-> Exists (fun c => ~ In c chars) s).
Proof. exact letter2int_error. Qed.
Print Assumptions C02_letter2int_error.

(** Numbers and their letters are ordered alike: shorter first, then
    alphabetically. *)
Theorem C02_letters_order : forall chars n m a b,
  NoDup chars -> chars <> [] -> 0 <= n -> 0 <= m ->
  int2letter n chars = Ok a -> int2letter m chars = Ok b ->
  (n < m <-> shortlex chars a b).
Proof. exact int2letter_shortlex. Qed.
Print Assumptions C02_letters_order.

Definition uppercase : str := txt "ABCDEFGHIJKLMNOPQRSTUVWXYZ".
Example C02_ex_hyp : NoDup uppercase /\ uppercase <> [].
Proof.
  split; [|discriminate].
  assert (H := NoDup_nodup ascii_dec uppercase).
  replace (nodup ascii_dec uppercase) with uppercase in H by reflexivity. exact H.
Qed.
Example C02_ex : int2letter 703 uppercase = Ok (txt "AAA") /\ letter2int (txt "ZZ") uppercase = Ok 702.
Proof. split; reflexivity. Qed.
Example C02_ex_error : letter2int (txt "A!") uppercase = Err ValueError.
Proof. reflexivity. Qed.

(** C03.  The text of a number denotes that number (also beyond the
    documented limit of 999999999), a text denotes at most one number, and
    different numbers have different texts. *)
Theorem C03_number_names_faithful : forall n, 0 <= n ->
  exists s, int2text english n = Ok s /\ denotes s n /\ (forall m, denotes s m -> m = n).
Proof.
  intros n H. destruct (int2text_total english n H) as [s E]. exists s.
  pose proof (int2text_denotes n s H E) as D.
  split; [exact E|]. split; [exact D|]. intros m D'. exact (denotes_unique s m n D' D).
Qed.
Print Assumptions C03_number_names_faithful.

(** The same for any title-cased spelling with different words. *)
Theorem C03_number_names_injective : forall spell n m s,
  good_spelling spell -> 0 <= n -> 0 <= m ->
  int2text spell n = Ok s -> int2text spell m = Ok s -> n = m.
Proof. exact int2text_inj. Qed.
Print Assumptions C03_number_names_injective.

Example C03_ex_hyp : good_spelling english.
Proof. exact english_good. Qed.
Example C03_ex : int2text english 203041 = Ok (txt "TwoHundredThreeThousandFortyOne")
  /\ int2text english 0 = Ok (txt "Zero")
  /\ int2text english 21000019 = Ok (txt "TwentyOneMillionNineteen").
Proof. repeat split; reflexivity. Qed.
