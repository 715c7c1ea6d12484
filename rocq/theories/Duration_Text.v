(** Proofs about reading and writing durations as text, and transforms. *)
From Coq Require Import Decimal DecimalString DecimalPos DecimalFacts DecimalN NArith String Ascii List ZArith QArith Qpower Qabs Bool Lia Lqa.
From Coq Require Import ZifyBool ZifyNat.
From Verif Require Import Base Duration_Model Duration_Spec Duration_Proofs.
Import ListNotations.
Open Scope Z_scope.

(** * Decimal text *)

Fixpoint uint_chars (u : uint) : str :=
  match u with
  | Nil => [] | D0 u => "0"%char :: uint_chars u | D1 u => "1"%char :: uint_chars u
  | D2 u => "2"%char :: uint_chars u | D3 u => "3"%char :: uint_chars u
  | D4 u => "4"%char :: uint_chars u | D5 u => "5"%char :: uint_chars u
  | D6 u => "6"%char :: uint_chars u | D7 u => "7"%char :: uint_chars u
  | D8 u => "8"%char :: uint_chars u | D9 u => "9"%char :: uint_chars u
  end.

Lemma uint_chars_ok u : txt (NilEmpty.string_of_uint u) = uint_chars u.
Proof. induction u; cbn; try reflexivity; unfold txt in IHu; now rewrite IHu. Qed.

Lemma to_uint_nonnil n : N.to_uint n <> Nil.
Proof.
  destruct n; [discriminate|]. intros H. pose proof (Unsigned.of_to (Npos p)) as E.
  rewrite H in E. discriminate E.
Qed.

Lemma nilzero_eq u : u <> Nil -> NilZero.string_of_uint u = NilEmpty.string_of_uint u.
Proof. destruct u; try reflexivity. congruence. Qed.

Lemma dec_chars n : dec n = uint_chars (N.to_uint n).
Proof. unfold dec. rewrite nilzero_eq by apply to_uint_nonnil. apply uint_chars_ok. Qed.

Lemma uint_chars_digits u : Forall is_digit (uint_chars u).
Proof. induction u; constructor; try assumption; unfold is_digit; cbn; lia. Qed.

Lemma dec_digits n : Forall is_digit (dec n).
Proof. rewrite dec_chars. apply uint_chars_digits. Qed.

Lemma dec_nonempty n : dec n <> [].
Proof. rewrite dec_chars. pose proof (to_uint_nonnil n). destruct (N.to_uint n); cbn; congruence. Qed.

Lemma digit_not (c x : ascii) : is_digit c -> (nat_of_ascii x < 48 \/ 57 < nat_of_ascii x)%nat ->
  Ascii.eqb x c = false.
Proof.
  intros H1 H2. destruct (Ascii.eqb_spec x c) as [->|]; [|reflexivity]. unfold is_digit in H1. lia.
Qed.

Lemma digit_not' (c x : ascii) : is_digit c -> (nat_of_ascii x < 48 \/ 57 < nat_of_ascii x)%nat ->
  Ascii.eqb c x = false.
Proof. intros. rewrite Ascii.eqb_sym. now apply digit_not. Qed.

(** Reading digits. *)
Definition digits_of (r : str) : res Z :=
  match NilZero.uint_of_string (string_of_list_ascii r) with
  | Some u => match r with [] => Err ValueError | _ => Ok (Z.of_N (N.of_uint u)) end
  | None => Err ValueError
  end.

Lemma digits_of_dec n : digits_of (dec n) = Ok (Z.of_N n).
Proof.
  unfold digits_of, dec, txt. rewrite string_of_list_ascii_of_string.
  rewrite NilZero.usu by apply to_uint_nonnil.
  change (list_ascii_of_string (NilZero.string_of_uint (N.to_uint n))) with (dec n).
  rewrite Unsigned.of_to. pose proof (dec_nonempty n). destruct (dec n); [congruence|reflexivity].
Qed.

Lemma py_int_digits c r : c <> "-"%char -> c <> "+"%char -> py_int (c :: r) = digits_of (c :: r).
Proof.
  intros H1 H2.
  destruct c as [b0 b1 b2 b3 b4 b5 b6 b7].
  destruct b0, b1, b2, b3, b4, b5, b6, b7; try reflexivity; exfalso; (apply H1; reflexivity) || (apply H2; reflexivity).
Qed.

Lemma digit_sign c : is_digit c -> c <> "-"%char /\ c <> "+"%char.
Proof. unfold is_digit. intros H. split; intros ->; cbn in H; lia. Qed.

Lemma py_int_dec n : py_int (dec n) = Ok (Z.of_N n).
Proof.
  rewrite <- digits_of_dec. pose proof (dec_nonempty n) as NE. pose proof (dec_digits n) as D.
  destruct (dec n) as [|c r]; [congruence|]. inversion D; subst.
  destruct (digit_sign c H1). now apply py_int_digits.
Qed.

Lemma of_uint_acc_value u : forall acc,
  Zpos (Pos.of_uint_acc u acc) =
  fold_left (fun n c => 10 * n + (Z.of_nat (nat_of_ascii c) - 48)) (uint_chars u) (Zpos acc).
Proof.
  induction u; intros acc; cbn [Pos.of_uint_acc uint_chars fold_left]; try reflexivity;
    rewrite IHu; f_equal; cbn [nat_of_ascii N_of_ascii N_of_digits]; 
    match goal with |- _ = _ + (?k - 48) => let x := eval vm_compute in k in change k with x end; lia.
Qed.

Lemma of_uint_value u : Z.of_N (N.of_uint u) = digits_value (uint_chars u).
Proof.
  unfold digits_value, N.of_uint.
  induction u; cbn [Pos.of_uint uint_chars fold_left]; try reflexivity; try exact IHu;
    cbn [Z.of_N]; rewrite of_uint_acc_value; reflexivity.
Qed.

Lemma dec_value n : digits_value (dec n) = Z.of_N n.
Proof. rewrite dec_chars, <- of_uint_value, Unsigned.of_to. reflexivity. Qed.

Lemma nzhead_not_D0 u w : nzhead u = D0 w -> False.
Proof. induction u; cbn [nzhead]; try discriminate. exact IHu. Qed.

Lemma dec_head n : (0 < n)%N -> hd_error (dec n) <> Some "0"%char.
Proof.
  intros H. rewrite dec_chars. pose proof (Unsigned.to_of (N.to_uint n)) as E.
  rewrite Unsigned.of_to in E.
  destruct (N.to_uint n) as [|u|u|u|u|u|u|u|u|u|u] eqn:U; cbn [uint_chars hd_error]; try discriminate.
  exfalso. unfold unorm in E. cbn [nzhead] in E.
  destruct (nzhead u) eqn:Z; try discriminate E.
  - assert (Z.of_N n = 0); [|lia]. rewrite <- dec_value, dec_chars, U, E. reflexivity.
  - eapply nzhead_not_D0, Z.
Qed.

Lemma dec_numeral n : 0 < n -> numeral (dec (Z.to_N n)) n.
Proof.
  intros H. split; [apply dec_digits|]. split; [rewrite dec_value; lia|apply dec_head; lia].
Qed.

Lemma digits_of_value r n : digits_of r = Ok n -> n = digits_value r.
Proof.
  unfold digits_of. destruct r as [|c r]; [discriminate|].
  change (NilZero.uint_of_string (string_of_list_ascii (c :: r)))
      with (NilEmpty.uint_of_string (string_of_list_ascii (c :: r))).
  destruct (NilEmpty.uint_of_string _) as [u|] eqn:E; [|discriminate]. intros [= <-].
  apply NilEmpty.sus in E. rewrite of_uint_value, <- uint_chars_ok, E. unfold txt.
  now rewrite list_ascii_of_string_of_list_ascii.
Qed.

(** * Stripping *)

Lemma sp_filler c : is_sp_tab_dot c = true <-> filler c.
Proof.
  unfold is_sp_tab_dot, filler. rewrite !orb_true_iff, !Ascii.eqb_eq. tauto.
Qed.

Lemma lstrip_all p a s : Forall (fun c => p c = true) a -> lstrip p (a ++ s) = lstrip p s.
Proof. induction 1 as [|c a Hc _ IH]; [reflexivity|]. cbn [app lstrip]. now rewrite Hc. Qed.

Lemma lstrip_head p s : (forall c, hd_error s = Some c -> p c = false) -> lstrip p s = s.
Proof. destruct s as [|c r]; [reflexivity|]. intros H. cbn [lstrip]. now rewrite H. Qed.

Lemma lstrip_split p s : exists a, s = a ++ lstrip p s /\ Forall (fun c => p c = true) a.
Proof.
  induction s as [|c r (a & E & F)]; [now exists []|]. cbn [lstrip].
  destruct (p c) eqn:P.
  - exists (c :: a). split; [cbn; now rewrite <- E|now constructor].
  - now exists [].
Qed.

Lemma lstrip_hd p s c : hd_error (lstrip p s) = Some c -> p c = false.
Proof.
  induction s as [|x r IH]; [discriminate|]. cbn [lstrip].
  destruct (p x) eqn:P; [exact IH|]. intros [= <-]. exact P.
Qed.

Lemma hd_rev_app {A} (a b : list A) x : hd_error (rev (a ++ b)) = Some x -> b <> [] ->
  hd_error (rev b) = Some x.
Proof.
  rewrite rev_app_distr. intros H NE. destruct (rev b) eqn:E; [|exact H].
  apply (f_equal (@rev A)) in E. rewrite rev_involutive in E. cbn in E. congruence.
Qed.

Lemma strip_core text core : core_of text core -> strip is_sp_tab_dot text = core.
Proof.
  intros (a & b & -> & Fa & Fb & H1 & H2). unfold strip.
  assert (NF : forall c, ~ filler c -> is_sp_tab_dot c = false).
  { intros c H. destruct (is_sp_tab_dot c) eqn:E; [|reflexivity]. apply sp_filler in E. contradiction. }
  assert (TF : forall l, Forall filler l -> Forall (fun c => is_sp_tab_dot c = true) l).
  { intros l. apply Forall_impl. intros c. apply sp_filler. }
  rewrite lstrip_all by now apply TF.
  destruct core as [|c r].
  - cbn [app]. assert (E : lstrip is_sp_tab_dot b = []).
    { rewrite <- (app_nil_r b) at 1. rewrite lstrip_all by now apply TF. reflexivity. }
    rewrite E. reflexivity.
  - assert (E : lstrip is_sp_tab_dot ((c :: r) ++ b) = (c :: r) ++ b).
    { apply lstrip_head. intros x [= <-]. apply NF, H1. reflexivity. }
    rewrite E, rev_app_distr, lstrip_all by (apply TF, Forall_rev; exact Fb).
    rewrite lstrip_head; [apply rev_involutive|].
    intros x Hx. apply NF, H2, Hx.
Qed.

Lemma core_exists text : core_of text (strip is_sp_tab_dot text).
Proof.
  unfold strip. destruct (lstrip_split is_sp_tab_dot text) as (a & E & Fa).
  set (t := lstrip is_sp_tab_dot text) in *.
  destruct (lstrip_split is_sp_tab_dot (rev t)) as (b & E2 & Fb).
  set (u := lstrip is_sp_tab_dot (rev t)) in *.
  assert (TF : forall l, Forall (fun c => is_sp_tab_dot c = true) l -> Forall filler l).
  { intros l. apply Forall_impl. intros c. apply sp_filler. }
  assert (Et : t = rev u ++ rev b).
  { rewrite <- (rev_involutive t), E2, rev_app_distr. reflexivity. }
  exists a, (rev b). split; [rewrite E at 1; now rewrite Et|].
  split; [now apply TF|]. split; [now apply TF, Forall_rev|].
  split.
  - intros c Hc C. apply sp_filler in C.
    assert (hd_error t = Some c) as Ht.
    { rewrite Et. destruct (rev u); [discriminate|exact Hc]. }
    apply lstrip_hd in Ht. congruence.
  - intros c. rewrite rev_involutive. intros Hc C. apply sp_filler in C.
    apply lstrip_hd in Hc. congruence.
Qed.

(** * The text of a base duration *)

Definition base_text (l : Z) : option str :=
  if l <? 0 then match nth_error named_durations (Z.to_nat (-1 - l)) with
                 | Some s => Some ("\"%char :: s) | None => None end
  else Some (dec (Z.to_N (2 ^ l))).

Lemma to_string_eq v l d : log_dotcount v = (l, d) ->
  to_string v = match base_text l with Some b => Ok (b ++ dots d) | None => Err IndexError end.
Proof.
  intros E. unfold to_string. rewrite E. unfold base_text. destruct (l <? 0) eqn:L.
  - destruct (nth_error _ _); reflexivity.
  - rewrite Z.shiftl_mul_pow2 by lia. rewrite Z.mul_1_l. reflexivity.
Qed.

Lemma bit_length_pow2 l : 0 <= l -> bit_length (2 ^ l) - 1 = l.
Proof.
  intros H. unfold bit_length. assert (0 < 2 ^ l) by (apply Z.pow_pos_nonneg; lia).
  destruct (Z.eqb_spec (2 ^ l) 0); [lia|]. rewrite Z.abs_eq by lia. rewrite Z.log2_pow2 by exact H. lia.
Qed.

(** Both the text with and the text without backslash are read as log l. *)
Definition reads_as (b : str) (l : Z) : Prop :=
  b <> [] /\ Forall (fun c => ~ filler c) b /\
  match py_int b with
  | Ok n => Ok (bit_length n - 1)
  | Err _ => let! i := str_index (lstrip (Ascii.eqb "\") b) named_durations in Ok (-1 - i)
  end = Ok l.

Lemma digit_not_filler c : is_digit c -> ~ filler c.
Proof. unfold is_digit. intros H [-> | [-> | ->]]; cbn in H; lia. Qed.

Lemma named_cases l : -3 <= l < 0 ->
  exists s, nth_error named_durations (Z.to_nat (-1 - l)) = Some s /\ name_of l s /\
    reads_as s l /\ reads_as ("\"%char :: s) l.
Proof.
  intros H. assert (l = -1 \/ l = -2 \/ l = -3) as [-> | [-> | ->]] by lia;
    eexists; (split; [reflexivity|]); (split; [unfold name_of; tauto|]);
    (split; (split; [discriminate|split; [|reflexivity]]); repeat constructor; intros [C | [C | C]]; discriminate C).
Qed.

Lemma base_text_reads l : -3 <= l -> exists b, base_text l = Some b /\ reads_as b l /\
  (forall b', b = "\"%char :: b' -> reads_as b' l).
Proof.
  intros H. unfold base_text. destruct (Z.ltb_spec l 0) as [L|L].
  - destruct (named_cases l ltac:(lia)) as (s & -> & _ & R1 & R2). eexists. split; [reflexivity|].
    split; [exact R2|]. intros b' E. injection E as <-. exact R1.
  - eexists. split; [reflexivity|].
    assert (0 < 2 ^ l) by (apply Z.pow_pos_nonneg; lia).
    split.
    + split; [apply dec_nonempty|]. split.
      * eapply Forall_impl; [|apply dec_digits]. intros c. apply digit_not_filler.
      * rewrite py_int_dec, Z2N.id by lia. now rewrite bit_length_pow2 by lia.
    + intros b' E. pose proof (dec_digits (Z.to_N (2 ^ l))) as D. rewrite E in D.
      inversion D as [|? ? X]; subst. unfold is_digit in X. cbn in X. lia.
Qed.

Lemma base_text_none l : base_text l = None <-> l < -3.
Proof.
  unfold base_text. destruct (Z.ltb_spec l 0) as [L|L]; [|split; [discriminate|lia]].
  destruct (Z.lt_ge_cases l (-3)) as [H|H].
  - split; [intros; exact H|intros _].
    replace (nth_error named_durations (Z.to_nat (-1 - l))) with (@None str); [reflexivity|].
    symmetry. apply nth_error_None. cbn [named_durations List.length]. lia.
  - destruct (named_cases l ltac:(lia)) as (s & -> & _). split; [discriminate|lia].
Qed.

Lemma dots_filler d : Forall filler (dots d).
Proof. unfold dots. apply Forall_forall. intros c Hc. apply repeat_spec in Hc. subst. right. now right. Qed.

Lemma core_dots a b d : Forall filler a -> b <> [] -> Forall (fun c => ~ filler c) b ->
  core_of (a ++ b ++ dots d) b.
Proof.
  intros Fa NE Fb. exists a, (dots d). split; [reflexivity|]. split; [exact Fa|]. split; [apply dots_filler|].
  rewrite Forall_forall in Fb. split; intros c Hc; apply Fb.
  - destruct b; [discriminate|]. injection Hc as <-. now left.
  - apply in_rev. destruct (rev b); [discriminate|]. injection Hc as <-. now left.
Qed.

Lemma count_no_dot s : Forall (fun c => ~ filler c) s -> filter (Ascii.eqb ".") s = [].
Proof.
  induction 1 as [|c s Hc _ IH]; [reflexivity|]. cbn [filter].
  destruct (Ascii.eqb_spec "." c) as [<-|]; [|exact IH]. exfalso. apply Hc. right. now right.
Qed.

Lemma count_dots d : 0 <= d -> List.length (filter (Ascii.eqb ".") (dots d)) = Z.to_nat d.
Proof.
  intros _. unfold dots. induction (Z.to_nat d) as [|n IH]; [reflexivity|].
  cbn [repeat filter]. rewrite Ascii.eqb_refl. cbn [List.length]. now rewrite IH.
Qed.

Lemma count_char_text b d : 0 <= d -> Forall (fun c => ~ filler c) b -> count_char "." (b ++ dots d) = d.
Proof.
  intros H F. unfold count_char. rewrite filter_app, count_no_dot by exact F. cbn [app].
  rewrite count_dots by exact H. lia.
Qed.

Lemma from_string_reads b l d : reads_as b l -> 0 <= d ->
  from_string (b ++ dots d) None = duration l d /\ from_string b (Some d) = duration l d.
Proof.
  intros (NE & F & R) H. unfold from_string. rewrite count_char_text by assumption.
  rewrite (strip_core (b ++ dots d) b) by (apply (core_dots [] b d); [constructor|assumption|assumption]).
  rewrite (strip_core b b).
  2:{ pose proof (core_dots [] b 0 ltac:(constructor) NE F) as C. cbn in C. now rewrite app_nil_r in C. }
  rewrite R. cbn [bindr]. split; reflexivity.
Qed.

(** ** Notation round trip *)

Definition Qres_is (r : res Q) (v : Q) : Prop := exists w, r = Ok w /\ (w == v)%Q.

Lemma notation_roundtrip v l d : -3 <= l -> 0 <= d <= 52 -> (v == dotted l d)%Q ->
  exists b, to_string v = Ok (b ++ dots d) /\
    (if l <? 0 then exists s, name_of l s /\ b = "\"%char :: s
     else numeral b (2 ^ l)) /\
    Qres_is (from_string (b ++ dots d) None) v /\
    Qres_is (from_string b (Some d)) v /\
    (forall b', b = "\"%char :: b' ->
       Qres_is (from_string (b' ++ dots d) None) v /\ Qres_is (from_string b' (Some d)) v).
Proof.
  intros Hl Hd E. pose proof (log_dotcount_dotted l d v Hd E) as L.
  destruct (base_text_reads l Hl) as (b & B & R & R').
  exists b. rewrite (to_string_eq v l d L), B. split; [reflexivity|].
  assert (DV : Qres_is (duration l d) v).
  { destruct (duration_value l d ltac:(lia) ltac:(lia)) as (w & W1 & W2). exists w. split; [exact W1|lra]. }
  split.
  { unfold base_text in B. destruct (l <? 0) eqn:L0.
    2:{ injection B as <-. apply dec_numeral. apply Z.pow_pos_nonneg; lia. }
    destruct (named_cases l ltac:(lia)) as (s & S & N & _). rewrite S in B. exists s. split; [exact N|congruence]. }
  destruct (from_string_reads b l d R ltac:(lia)) as [-> ->].
  split; [exact DV|]. split; [exact DV|].
  intros b' Eb. destruct (from_string_reads b' l d (R' b' Eb) ltac:(lia)) as [-> ->]. split; exact DV.
Qed.

(** IndexError exactly for 16 whole notes and more. *)
Lemma to_string_error v : (0 < v)%Q -> float53 v ->
  (to_string v = Err IndexError <-> (16 <= v)%Q) /\ (forall e, to_string v = Err e -> e = IndexError).
Proof.
  intros P F. destruct (log_dotcount v) as [l d] eqn:E. rewrite (to_string_eq v l d E).
  rewrite log_dotcount_eq in E. destruct (frexp_exact v P F) as [_ F2]. rewrite F2 in E.
  assert (El : 1 - snd (frexpQ v) = l) by congruence. clear E. destruct (frexpQ_spec v P) as (EV & B1 & B2).
  set (e := snd (frexpQ v)) in *. set (m := fst (frexpQ v)) in *. assert (PE := p2_pos e).
  assert (X : base_text l = None <-> (16 <= v)%Q).
  { rewrite base_text_none. change 16%Q with (p2 4). split; intros H.
    - assert (p2 4 <= p2 (e - 1))%Q by (apply p2_le_up; lia).
      assert ((1#2) * p2 e <= m * p2 e)%Q by (apply Qmult_le_compat_r; lra).
      pose proof (p2_pred e). lra.
    - assert (m * p2 e < 1 * p2 e)%Q by (apply Qmult_lt_compat_r; lra).
      assert (4 < e) by (apply p2_lt_down; lra). lia. }
  destruct (base_text l) as [b|].
  - split; [split; [discriminate|]|discriminate]. intros H. apply X in H. discriminate H.
  - split; [split; [intros _; now apply X|reflexivity]|congruence].
Qed.

(** ** Which texts are accepted *)

Lemma uint_of_chars s : Forall is_digit s -> exists u, NilEmpty.uint_of_string (string_of_list_ascii s) = Some u.
Proof.
  induction 1 as [|c s Hc _ [u IH]]; [now exists Nil|].
  cbn [string_of_list_ascii NilEmpty.uint_of_string]. rewrite IH. unfold is_digit in Hc.
  destruct c as [b0 b1 b2 b3 b4 b5 b6 b7].
  destruct b0, b1, b2, b3, b4, b5, b6, b7; cbn in Hc; try (exfalso; lia); cbn; eexists; reflexivity.
Qed.

Lemma chars_of_uint s u : NilEmpty.uint_of_string (string_of_list_ascii s) = Some u -> Forall is_digit s.
Proof.
  revert u. induction s as [|c s IH]; intros u H; [constructor|].
  cbn [string_of_list_ascii NilEmpty.uint_of_string] in H.
  destruct (NilEmpty.uint_of_string (string_of_list_ascii s)) as [w|] eqn:E.
  - constructor; [|eapply IH; reflexivity]. unfold is_digit.
    destruct c as [b0 b1 b2 b3 b4 b5 b6 b7].
    destruct b0, b1, b2, b3, b4, b5, b6, b7; cbn in H; try discriminate H; cbn; lia.
  - destruct c as [b0 b1 b2 b3 b4 b5 b6 b7].
    destruct b0, b1, b2, b3, b4, b5, b6, b7; cbn in H; discriminate H.
Qed.

Lemma digits_of_ok r : (exists n, digits_of r = Ok n) <-> r <> [] /\ Forall is_digit r.
Proof.
  unfold digits_of. destruct r as [|c r].
  - cbn. split; [intros [n H]; discriminate H|intros [H _]; congruence].
  - change (NilZero.uint_of_string (string_of_list_ascii (c :: r)))
      with (NilEmpty.uint_of_string (string_of_list_ascii (c :: r))).
    split.
    + intros [n H]. split; [discriminate|].
      destruct (NilEmpty.uint_of_string _) as [u|] eqn:E; [|discriminate]. eapply chars_of_uint; exact E.
    + intros [_ H]. destruct (uint_of_chars _ H) as [u ->]. eexists. reflexivity.
Qed.

Lemma digits_of_err r e : digits_of r = Err e -> e = ValueError.
Proof. unfold digits_of. destruct (NilZero.uint_of_string _); destruct r; congruence. Qed.

Lemma py_int_minus r : py_int ("-"%char :: r) = (let! n := digits_of r in Ok (- n)).
Proof. reflexivity. Qed.
Lemma py_int_plus r : py_int ("+"%char :: r) = digits_of r.
Proof. reflexivity. Qed.

Lemma py_int_ok s : (exists n, py_int s = Ok n) <-> int_literal s.
Proof.
  destruct s as [|c r].
  { split; [intros [n H]; discriminate H|].
    intros (sg & ds & _ & H & _ & E). destruct sg; [|discriminate]. cbn in E. congruence. }
  destruct (ascii_dec c "-") as [->|NM]; [|destruct (ascii_dec c "+") as [->|NP]].
  - rewrite py_int_minus. split.
    + intros [n H]. destruct (digits_of r) as [m|] eqn:E; [|discriminate].
      destruct (proj1 (digits_of_ok r) (ex_intro _ m E)) as [A B].
      exists ["-"%char], r. split; [cbn; tauto|]. now split.
    + intros (sg & ds & HS & NE & F & E).
      assert (sg = ["-"%char] /\ ds = r) as [-> ->].
      { destruct HS as [<-|[<-|[<-|[]]]]; cbn in E.
        - subst ds. inversion F as [|? ? X]. unfold is_digit in X. cbn in X. lia.
        - discriminate E.
        - injection E as ->. now split. }
      destruct (proj2 (digits_of_ok r) (conj NE F)) as [n ->]. eexists; reflexivity.
  - rewrite py_int_plus. split.
    + intros H. destruct (proj1 (digits_of_ok r) H) as [A B].
      exists ["+"%char], r. split; [cbn; tauto|]. now split.
    + intros (sg & ds & HS & NE & F & E).
      assert (sg = ["+"%char] /\ ds = r) as [-> ->].
      { destruct HS as [<-|[<-|[<-|[]]]]; cbn in E.
        - subst ds. inversion F as [|? ? X]. unfold is_digit in X. cbn in X. lia.
        - injection E as ->. now split.
        - discriminate E. }
      exact (proj2 (digits_of_ok r) (conj NE F)).
  - rewrite py_int_digits by assumption. split.
    + intros H. destruct (proj1 (digits_of_ok _) H) as [A B].
      exists [], (c :: r). split; [cbn; tauto|]. now split.
    + intros (sg & ds & HS & NE & F & E).
      assert (sg = [] /\ ds = c :: r) as [-> ->].
      { destruct HS as [<-|[<-|[<-|[]]]]; cbn in E; [now split|congruence|congruence]. }
      exact (proj2 (digits_of_ok _) (conj NE F)).
Qed.

Lemma str_index_err x l e : str_index x l = Err e -> e = ValueError.
Proof.
  induction l as [|y r IH]; cbn [str_index]; [congruence|].
  destruct (list_eq_dec ascii_dec y x); [discriminate|].
  destruct (str_index x r); cbn [bindr]; [discriminate|]. intros H. apply IH. congruence.
Qed.

Lemma str_index_ok x l i : str_index x l = Ok i -> 0 <= i /\ nth_error l (Z.to_nat i) = Some x.
Proof.
  revert i. induction l as [|y r IH]; intros i H; cbn [str_index] in H; [discriminate|].
  destruct (list_eq_dec ascii_dec y x) as [->|].
  - injection H as <-. split; [lia|reflexivity].
  - destruct (str_index x r) as [j|] eqn:E; [|discriminate]. cbn [bindr] in H. injection H as <-.
    destruct (IH j eq_refl) as [A B]. split; [lia|].
    replace (Z.to_nat (j + 1)) with (S (Z.to_nat j)) by lia. exact B.
Qed.

Definition backslashes (s : str) : Prop := Forall (fun c => c = "\"%char) s.

Lemma from_string_rejects text core : core_of text core -> ~ int_literal core ->
  (forall bs s, backslashes bs -> core = bs ++ s -> forall l, ~ name_of l s) ->
  forall dc, from_string text dc = Err ValueError.
Proof.
  intros C NI NN dc. unfold from_string. rewrite (strip_core _ _ C).
  destruct (py_int core) as [n|e] eqn:E.
  { exfalso. apply NI. apply py_int_ok. now exists n. }
  destruct (str_index _ named_durations) as [i|e'] eqn:I.
  - exfalso. destruct (lstrip_split (Ascii.eqb "\") core) as (bs & EB & FB).
    destruct (str_index_ok _ _ _ I) as [I0 IN].
    apply (NN bs (lstrip (Ascii.eqb "\") core)) with (l := -1 - i); [|exact EB|].
    + eapply Forall_impl; [|exact FB]. intros c Hc. apply Ascii.eqb_eq in Hc. now symmetry.
    + unfold name_of. destruct (Z.to_nat i) as [|[|[|k]]] eqn:K; cbn [nth_error named_durations] in IN.
      * left. split; [lia|]. congruence.
      * right. left. split; [lia|]. congruence.
      * right. right. split; [lia|]. congruence.
      * destruct k; discriminate.
  - cbn [bindr]. f_equal. eapply str_index_err. exact I.
Qed.

Lemma py_int_value s : s <> [] -> Forall is_digit s -> py_int s = Ok (digits_value s).
Proof.
  intros NE F. destruct (proj2 (digits_of_ok s) (conj NE F)) as [n E].
  rewrite <- (digits_of_value s n E), <- E.
  destruct s as [|c r]; [congruence|]. inversion F; subst.
  destruct (digit_sign c H1). now apply py_int_digits.
Qed.

Lemma from_string_int text s k : core_of text s -> s <> [] -> Forall is_digit s ->
  0 < digits_value s -> 0 <= k ->
  Qres_is (from_string text (Some k)) (dotted (Z.log2 (digits_value s)) k).
Proof.
  intros C NE F Hn Hk. unfold from_string. rewrite (strip_core _ _ C), py_int_value by assumption.
  unfold bit_length. destruct (Z.eqb_spec (digits_value s) 0); [lia|].
  cbn [bindr]. rewrite Z.abs_eq by lia.
  replace (Z.log2 (digits_value s) + 1 - 1) with (Z.log2 (digits_value s)) by lia.
  apply duration_value; [exact Hk|]. pose proof (Z.log2_nonneg (digits_value s)). lia.
Qed.

(** * Shifting and transforms *)

Lemma shift_value v l d ls ds : 0 <= d <= 52 -> (v == dotted l d)%Q ->
  0 <= Z.max 0 (d + ds) + (l + ls) + 3 ->
  Qres_is (shift_duration v ls ds) (dotted (l + ls) (Z.max 0 (d + ds))).
Proof.
  intros Hd E Dm. unfold shift_duration. rewrite (log_dotcount_dotted l d v Hd E).
  apply duration_value; lia.
Qed.

Lemma shift_undefined v l d ls ds : 0 <= d <= 52 -> (v == dotted l d)%Q ->
  Z.max 0 (d + ds) + (l + ls) + 3 < 0 -> shift_duration v ls ds = Err ValueError.
Proof.
  intros Hd E Dm. unfold shift_duration. rewrite (log_dotcount_dotted l d v Hd E).
  apply duration_error. lia.
Qed.

Lemma dotted_scale l d s : (dotted (l + s) d == dotted l d * p2 (- s))%Q.
Proof.
  unfold dotted. fold (p2 (- (l + s))) (p2 (- l)) (p2 (- d)).
  replace (- (l + s)) with (- l + - s) by lia. rewrite p2_plus. ring.
Qed.

Lemma transform_apply_value t v l d sc : 0 <= d <= 52 -> (v == dotted l d)%Q ->
  0 <= d + t_dotcount t ->
  (t_log t <> 0 \/ t_dotcount t <> 0 -> 0 <= d + t_dotcount t + (l + t_log t) + 3) ->
  exists w s, transform_apply t v sc = Ok (w, s) /\
    (w == dotted (l + t_log t) (d + t_dotcount t))%Q /\ (s == sc * t_scale t)%Q.
Proof.
  intros Hd E H0 Dm. unfold transform_apply.
  destruct (negb (t_log t =? 0) || negb (t_dotcount t =? 0)) eqn:B.
  - destruct (shift_value v l d (t_log t) (t_dotcount t) Hd E ltac:(lia)) as (w & -> & W).
    cbn [bindr]. eexists _, _. split; [reflexivity|]. split; [|reflexivity].
    rewrite Z.max_r in W by lia. exact W.
  - cbn [bindr]. eexists _, _. split; [reflexivity|]. split; [|reflexivity].
    replace (l + t_log t) with l by lia. replace (d + t_dotcount t) with d by lia. exact E.
Qed.

Lemma transform_compose t1 t2 v l d sc v1 s1 v2 s2 :
  0 <= d <= 52 -> (v == dotted l d)%Q ->
  0 <= d + t_dotcount t1 <= 52 -> 0 <= d + t_dotcount t1 + t_dotcount t2 ->
  transform_apply t1 v sc = Ok (v1, s1) -> transform_apply t2 v1 s1 = Ok (v2, s2) ->
  exists w s, transform_apply (transform_add t1 t2) v sc = Ok (w, s) /\ (w == v2)%Q /\ (s == s2)%Q.
Proof.
  intros Hd E B1 B2 A1 A2.
  assert (D1 : t_log t1 <> 0 \/ t_dotcount t1 <> 0 -> 0 <= d + t_dotcount t1 + (l + t_log t1) + 3).
  { intros N. unfold transform_apply in A1.
    replace (negb (t_log t1 =? 0) || negb (t_dotcount t1 =? 0)) with true in A1 by lia.
    destruct (Z.lt_ge_cases (Z.max 0 (d + t_dotcount t1) + (l + t_log t1) + 3) 0) as [L|L]; [|lia].
    rewrite (shift_undefined v l d _ _ Hd E L) in A1. discriminate. }
  destruct (transform_apply_value t1 v l d sc Hd E ltac:(lia) D1) as (w1 & r1 & X1 & W1 & S1).
  rewrite A1 in X1. injection X1 as <- <-.
  assert (D2 : t_log t2 <> 0 \/ t_dotcount t2 <> 0 ->
     0 <= d + t_dotcount t1 + t_dotcount t2 + (l + t_log t1 + t_log t2) + 3).
  { intros N. unfold transform_apply in A2.
    replace (negb (t_log t2 =? 0) || negb (t_dotcount t2 =? 0)) with true in A2 by lia.
    destruct (Z.lt_ge_cases (Z.max 0 (d + t_dotcount t1 + t_dotcount t2) + (l + t_log t1 + t_log t2) + 3) 0) as [L|L]; [|lia].
    rewrite (shift_undefined v1 (l + t_log t1) (d + t_dotcount t1) _ _ ltac:(lia) W1 L) in A2. discriminate. }
  destruct (transform_apply_value t2 v1 _ _ s1 B1 W1 B2 D2) as (w2 & r2 & X2 & W2 & S2).
  rewrite A2 in X2. injection X2 as <- <-.
  destruct (transform_apply_value (transform_add t1 t2) v l d sc Hd E) as (w & s & X & W & S).
  { cbn [t_dotcount transform_add]. lia. }
  { cbn [t_log t_dotcount transform_add]. intros N.
    destruct (Z.eq_dec (t_log t2) 0), (Z.eq_dec (t_dotcount t2) 0); lia. }
  exists w, s. split; [exact X|]. cbn [t_log t_dotcount t_scale transform_add] in W, S. split.
  - rewrite W, W2. rewrite !Z.add_assoc. reflexivity.
  - rewrite S, S2, S1. ring.
Qed.

(** * Values that are not floats *)

Lemma round_ge q n : (inject_Z n <= q)%Q -> n <= round_half_even q.
Proof.
  intros H. unfold round_half_even. destruct q as [a d]. unfold Qle, inject_Z in H. cbn [Qnum Qden] in *.
  assert (n <= a / Zpos d) by (apply Z.div_le_lower_bound; lia).
  destruct (_ <? _); [assumption|]. destruct (_ <? _); [lia|]. destruct (Z.even _); lia.
Qed.

Lemma round_half_error q : (Qabs (inject_Z (round_half_even q) - q) <= (1#2))%Q.
Proof.
  assert (X : (q - (1#2) <= inject_Z (round_half_even q) <= q + (1#2))%Q).
  { unfold round_half_even. destruct q as [a d]. cbn [Qnum Qden].
    pose proof (Z.div_mod a (Zpos d) ltac:(lia)) as E. pose proof (Z.mod_pos_bound a (Zpos d) ltac:(lia)) as B.
    set (f := a / Zpos d) in *. set (r := a mod Zpos d) in *.
    assert (EQ : ((a # d) == inject_Z f + (r # d))%Q).
    { unfold Qeq, Qplus, inject_Z. cbn. lia. }
    assert (R0 : (0 <= (r # d))%Q) by (unfold Qle; cbn; lia).
    assert (R1 : ((r # d) < 1)%Q) by (unfold Qlt; cbn; lia).
    rewrite EQ.
    destruct (Z.ltb_spec (2 * r) (Zpos d)).
    { assert ((r # d) <= (1#2))%Q by (unfold Qle; cbn; lia). split; lra. }
    assert ((1#2) <= (r # d))%Q by (unfold Qle; cbn; lia).
    assert (P1 : (inject_Z (f + 1) == inject_Z f + 1)%Q) by (rewrite inject_Z_plus; reflexivity).
    destruct (Z.ltb_spec (Zpos d) (2 * r)).
    { split; lra. }
    assert ((r # d) == (1#2))%Q by (unfold Qeq; cbn; lia).
    destruct (Z.even f); split; lra. }
  apply Qabs_case; intros; lra.
Qed.

Lemma scaled_bounds v : (0 < v)%Q -> let e := snd (frexpQ v) in
  (p2 52 <= v * p2 (53 - e))%Q /\ (v * p2 (53 - e) < p2 53)%Q.
Proof.
  intros H e. destruct (frexpQ_spec v H) as (E & B1 & B2). fold e in E. set (m := fst (frexpQ v)) in *.
  assert (X : (v * p2 (53 - e) == m * p2 53)%Q).
  { rewrite E at 1. rewrite <- Qmult_assoc, <- p2_plus. replace (e + (53 - e)) with 53 by lia. reflexivity. }
  assert (P := p2_pos 53). assert (PP := p2_pred 53). replace (53 - 1) with 52 in PP by reflexivity.
  assert ((1#2) * p2 53 <= m * p2 53)%Q by (apply Qmult_le_compat_r; lra).
  assert (m * p2 53 < 1 * p2 53)%Q by (apply Qmult_lt_compat_r; lra).
  split; lra.
Qed.

Lemma to_float_pos v : (0 < v)%Q ->
  (to_float v == inject_Z (round_half_even (v * p2 (53 - snd (frexpQ v)))) * p2 (snd (frexpQ v) - 53))%Q.
Proof. intros H. unfold to_float. rewrite Qeq_bool_false by lra. reflexivity. Qed.

Lemma round_le q n : (q <= inject_Z n)%Q -> round_half_even q <= n.
Proof.
  intros H. unfold round_half_even. destruct q as [a d]. unfold Qle, inject_Z in H. cbn [Qnum Qden] in *.
  pose proof (Z.div_mod a (Zpos d) ltac:(lia)) as E. pose proof (Z.mod_pos_bound a (Zpos d) ltac:(lia)) as B.
  set (f := a / Zpos d) in *. set (r := a mod Zpos d) in *.
  assert (f <= n) by nia.
  destruct (Z.ltb_spec (2 * r) (Zpos d)); [assumption|].
  assert (f + 1 <= n) by nia.
  destruct (_ <? _); [lia|]. destruct (Z.even _); lia.
Qed.

(** Rounding keeps below the floats above and above the floats below. *)
Lemma to_float_float53 v : (0 < v)%Q -> float53 (to_float v) /\ (0 < to_float v)%Q.
Proof.
  intros H. pose proof (to_float_pos v H) as E. destruct (scaled_bounds v H) as [B1 B2].
  set (e := snd (frexpQ v)) in *. set (x := (v * p2 (53 - e))%Q) in *.
  set (n := round_half_even x) in *.
  assert (N1 : 2 ^ 52 <= n). { apply round_ge. rewrite <- p2_int by lia. exact B1. }
  assert (N2 : n <= 2 ^ 53). { apply round_le. rewrite <- p2_int by lia. now apply Qlt_le_weak. }
  split.
  - destruct (Z.eq_dec n (2 ^ 53)) as [->|NE].
    + exists 1, (53 + (e - 53)). split; [lia|]. rewrite E, <- p2_int, <- p2_plus by lia.
      fold (p2 (53 + (e - 53))). change (inject_Z 1) with 1%Q. ring.
    + exists n, (e - 53). split; [lia|exact E].
  - rewrite E. assert (P := p2_pos (e - 53)).
    setoid_replace 0%Q with (0 * p2 (e - 53))%Q by ring. apply Qmult_lt_compat_r; [exact P|].
    change 0%Q with (inject_Z 0). rewrite <- Zlt_Qlt. lia.
Qed.

Lemma log_dotcount_float v : (0 < v)%Q -> log_dotcount (to_float v) = log_dotcount v.
Proof.
  intros H. destruct (to_float_float53 v H) as [F P].
  unfold log_dotcount at 1. unfold frexp. 
  assert (E := to_float_exact _ P F).
  pose proof (frexpQ_snd_proper _ _ E) as E1. pose proof (frexpQ_fst_proper _ _ E) as E2. cbn in E1, E2.
  unfold log_dotcount, frexp.
  destruct (frexpQ (to_float (to_float v))) as [m1 e1]. destruct (frexpQ (to_float v)) as [m2 e2]. cbn in E1, E2.
  subst e1. assert (EM : (1 - m1 == 1 - m2)%Q) by (rewrite E2; reflexivity).
  pose proof (frexpQ_snd_proper _ _ EM) as X1. pose proof (frexpQ_fst_proper _ _ EM) as X2. cbn in X1, X2.
  destruct (frexpQ (1 - m1)), (frexpQ (1 - m2)). cbn in X1, X2. subst.
  rewrite (Qleb_comp _ _ X2 (1#2) (1#2) (Qeq_refl _)). reflexivity.
Qed.

Lemma to_float_error v : (0 < v)%Q -> (Qabs (to_float v - v) <= v * p2 (-53))%Q.
Proof.
  intros H. pose proof (to_float_pos v H) as E. destruct (scaled_bounds v H) as [B1 B2].
  set (e := snd (frexpQ v)) in *. set (x := (v * p2 (53 - e))%Q) in *.
  pose proof (round_half_error x) as R. set (n := round_half_even x) in *.
  assert (P := p2_pos (e - 53)).
  assert (V : (v == x * p2 (e - 53))%Q).
  { unfold x. rewrite <- Qmult_assoc, <- p2_plus. replace (53 - e + (e - 53)) with 0 by lia. rewrite p2_0. ring. }
  assert (D : (to_float v - v == (inject_Z n - x) * p2 (e - 53))%Q) by (rewrite E; rewrite V at 1; ring).
  rewrite D, Qabs_Qmult, (Qabs_pos (p2 (e-53))) by lra.
  assert (Qabs (inject_Z n - x) * p2 (e - 53) <= (1#2) * p2 (e-53))%Q by (apply Qmult_le_compat_r; lra).
  assert (p2 52 * (p2 (e - 53) * p2 (-53)) <= x * (p2 (e - 53) * p2 (-53)))%Q.
  { apply Qmult_le_compat_r; [exact B1|]. rewrite <- p2_plus. apply Qlt_le_weak, p2_pos. }
  assert (x * (p2 (e - 53) * p2 (-53)) == v * p2 (-53))%Q by (rewrite V at 1; ring).
  assert (p2 52 * (p2 (e - 53) * p2 (-53)) == (1#2) * p2 (e - 53))%Q.
  { change (1#2) with (p2 (-1)). rewrite <- !p2_plus. replace (52 + (e - 53 + -53)) with (-1 + (e - 53)) by lia. reflexivity. }
  lra.
Qed.

Lemma float53_int_scaled g e : (0 < g)%Q -> float53 g -> snd (frexpQ g) = e ->
  exists n, (g * p2 (53 - e) == inject_Z n)%Q.
Proof.
  intros H F E. pose proof (to_float_exact g H F) as X. pose proof (to_float_pos g H) as Y. rewrite E in Y.
  exists (round_half_even (g * p2 (53 - e))). rewrite <- X at 1. rewrite Y at 1.
  rewrite <- Qmult_assoc, <- p2_plus. replace (e - 53 + (53 - e)) with 0 by lia. rewrite p2_0. ring.
Qed.

Lemma to_float_above g v : (0 < g)%Q -> float53 g -> (g <= v)%Q -> (g <= to_float v)%Q.
Proof.
  intros Hg F L. assert (H : (0 < v)%Q) by lra.
  pose proof (to_float_pos v H) as E. destruct (scaled_bounds v H) as [B1 B2].
  destruct (frexpQ_spec v H) as (EV & M1 & M2).
  set (e := snd (frexpQ v)) in *. set (x := (v * p2 (53 - e))%Q) in *.
  assert (PS := p2_pos (53 - e)). assert (PT := p2_pos (e - 53)).
  assert (I : (p2 (53 - e) * p2 (e - 53) == 1)%Q).
  { rewrite <- p2_plus. replace (53 - e + (e - 53)) with 0 by lia. apply p2_0. }
  destruct (frexpQ_spec g Hg) as (EG & G1 & G2).
  set (eg := snd (frexpQ g)) in *. assert (PG := p2_pos eg). assert (PE := p2_pos e).
  assert (LE : eg <= e).
  { assert ((1#2) * p2 eg <= fst (frexpQ g) * p2 eg)%Q by (apply Qmult_le_compat_r; lra).
    assert (fst (frexpQ v) * p2 e < 1 * p2 e)%Q by (apply Qmult_lt_compat_r; lra).
    assert (PP := p2_pred eg). assert (eg - 1 < e) by (apply p2_lt_down; lra). lia. }
  assert (K : exists n, (g * p2 (53 - e) <= inject_Z n)%Q /\ (inject_Z n <= x)%Q).
  { destruct (Z.eq_dec eg e) as [EE|NE].
    - destruct (float53_int_scaled g e Hg F EE) as [n En]. exists n. split; [lra|].
      rewrite <- En. unfold x. apply Qmult_le_compat_r; lra.
    - exists (2 ^ 52). rewrite <- p2_int by lia. split; [|exact B1].
      assert (fst (frexpQ g) * p2 eg < 1 * p2 eg)%Q by (apply Qmult_lt_compat_r; lra).
      assert (p2 eg <= p2 (e - 1))%Q by (apply p2_le_up; lia).
      assert (g * p2 (53 - e) <= p2 (e - 1) * p2 (53 - e))%Q by (apply Qmult_le_compat_r; lra).
      assert (p2 (e - 1) * p2 (53 - e) == p2 52)%Q.
      { rewrite <- p2_plus. replace (e - 1 + (53 - e)) with 52 by lia. reflexivity. }
      lra. }
  destruct K as (n & K1 & K2). apply round_ge in K2.
  rewrite E. set (r := round_half_even x) in *.
  assert (inject_Z n <= inject_Z r)%Q by (rewrite <- Zle_Qle; exact K2).
  assert (g * p2 (53 - e) * p2 (e - 53) <= inject_Z r * p2 (e - 53))%Q by (apply Qmult_le_compat_r; lra).
  assert (g * p2 (53 - e) * p2 (e - 53) == g)%Q by (rewrite <- Qmult_assoc, I; ring). lra.
Qed.

Lemma trunc_general v : (0 < v)%Q ->
  let (l, d) := log_dotcount v in
  0 <= d /\ (dotted l d <= v * (1 + p2 (-53)))%Q /\
  (forall l' d', 0 <= d' <= 52 -> (dotted l' d' <= v)%Q -> (dotted l' d' <= dotted l d)%Q).
Proof.
  intros H. destruct (to_float_float53 v H) as [F P].
  pose proof (log_dotcount_trunc _ P F) as T. rewrite (log_dotcount_float v H) in T.
  destruct (log_dotcount v) as [l d]. destruct T as (T1 & T2 & T3).
  split; [exact T1|]. split.
  - pose proof (to_float_error v H) as X. apply Qabs_Qle_condition in X. lra.
  - intros l' d' Hd L. apply T3; [lia|]. apply to_float_above; [apply dotted_pos; lia|now apply dotted_float53|exact L].
Qed.
