(** Converting the arguments of commands: the property C105. *)
From Coq Require Import String Ascii List ZArith NArith Bool PeanoNat Lia ZifyBool ZifyNat.
From Verif Require Import Base Duration_Model Duration_Spec Duration_Text Heads_Model Heads_Props Arg_Model Arg_Spec.
Import ListNotations.
Local Open Scope string_scope.
Local Open Scope list_scope.
Open Scope nat_scope.

Definition kids_of (e : el) := match e with E _ _ _ l => l end.

(** ** Pitches *)
Lemma add_pitch_full : forall count k h o args kids, count <= List.length (filter pitchable kids) ->
  fold_left (add_pitch count) args (E k h o kids) = E k h o (kids ++ args).
Proof.
  intros count k h o. induction args as [|x args IH]; intros kids L; [cbn; now rewrite app_nil_r|]. cbn [fold_left add_pitch].
  replace (List.length (filter pitchable kids) <? count) with false by (symmetry; apply Nat.ltb_ge; exact L). rewrite andb_false_r. cbn [append].
  rewrite IH, <- app_assoc; [reflexivity|]. rewrite filter_app, app_length. lia.
Qed.
(** A command that wants [count] pitches: after adding arguments one by one the notes among them are pitches, as long as there are fewer than
    [count]; all other arguments, and what was in the command, are as they were. *)
Theorem C105_pitches : forall count k h o args kids, exists args',
  fold_left (add_pitch count) args (E k h o kids) = E k h o (kids ++ args') /\
  arguments (count - List.length (filter pitchable kids)) args args'.
Proof.
  intros count k h o. induction args as [|x args IH]; intros kids; [exists []; split; [cbn; now rewrite app_nil_r|constructor]|].
  destruct (Nat.ltb_spec (List.length (filter pitchable kids)) count) as [L|L].
  2:{ exists (x :: args). split; [exact (add_pitch_full count k h o (x :: args) kids L)|]. replace (count - List.length (filter pitchable kids)) with 0 by lia. apply arguments_rest. }
  assert (SN : count - List.length (filter pitchable kids) = S (count - (List.length (filter pitchable kids) + 1))) by lia.
  assert (X : forall x', add_pitch count (E k h o kids) x = E k h o (kids ++ [x']) ->
    (forall args', arguments (count - (List.length (filter pitchable kids) + List.length (filter pitchable [x']))) args args' ->
       arguments (count - List.length (filter pitchable kids)) (x :: args) (x' :: args')) ->
    exists args', fold_left (add_pitch count) (x :: args) (E k h o kids) = E k h o (kids ++ args') /\ arguments (count - List.length (filter pitchable kids)) (x :: args) args').
  { intros x' E1 A1. cbn [fold_left]. rewrite E1. destruct (IH (kids ++ [x'])) as (args' & E2 & A2). exists (x' :: args'). split; [rewrite E2, <- app_assoc; reflexivity|].
    apply A1. rewrite filter_app, app_length in A2. exact A2. }
  destruct x as [kx hx ox lx]. destruct kx.
  - apply (X (E KPitch hx ox lx)).
    + cbn [add_pitch kind_of to_pitch append andb]. now rewrite (proj2 (Nat.ltb_lt _ _) L).
    + intros args' A. rewrite SN. apply arguments_note; [constructor|exact A].
  - apply (X (E KPitch hx ox lx)); [reflexivity|]. intros args' A. rewrite SN. apply arguments_pitch; [now left|exact A].
  - apply (X (E KRest hx ox lx)); [reflexivity|]. intros args' A. rewrite SN. apply arguments_pitch; [now right|exact A].
  - apply (X (E KUnpitched hx ox lx)); [reflexivity|]. intros args' A. apply arguments_other; [discriminate..|]. cbn in A. now rewrite Nat.add_0_r in A.
  - apply (X (E KDuration hx ox lx)); [reflexivity|]. intros args' A. apply arguments_other; [discriminate..|]. cbn in A. now rewrite Nat.add_0_r in A.
  - apply (X (E KInt hx ox lx)); [reflexivity|]. intros args' A. apply arguments_other; [discriminate..|]. cbn in A. now rewrite Nat.add_0_r in A.
  - apply (X (E (KOther id) hx ox lx)); [reflexivity|]. intros args' A. apply arguments_other; [discriminate..|]. cbn in A. now rewrite Nat.add_0_r in A.
Qed.
Print Assumptions C105_pitches.

(** The text of a command does not depend on the conversion. *)
Lemma arguments_text : forall n l l', arguments n l l' -> flat_map text l' = flat_map text l.
Proof. intros n l l' A. induction A as [|n x x' l l' B A IH|n x l l' K A IH|n x l l' K K' K'' A IH|l]; cbn [flat_map]; rewrite ?IH; try reflexivity. destruct B. reflexivity. Qed.
Theorem C105_pitch_text : forall count k h o args kids,
  text (fold_left (add_pitch count) args (E k h o kids)) = text (E k h o (kids ++ args)).
Proof. intros count k h o args kids. destruct (C105_pitches count k h o args kids) as (args' & -> & A). cbn [text]. rewrite !flat_map_app, (arguments_text _ _ _ A). reflexivity. Qed.
Print Assumptions C105_pitch_text.

(** ** Durations *)
(** An Unpitched with only a duration is replaced by that duration, everything else is added as it is; the text is the same.
    Missing for the full claim: what else the Unpitched has is lost (C105_duration_finding). *)
Theorem C105_duration_partial : forall k h o kids,
  (forall h' o' d, add_duration (E k h o kids) (E KUnpitched h' o' [d]) = E k h o (kids ++ [d])) /\
  (forall x, kind_of x <> KUnpitched -> add_duration (E k h o kids) x = E k h o (kids ++ [x])) /\
  (forall o' d, text (add_duration (E k h o kids) (E KUnpitched [] o' [d])) = text (E k h o (kids ++ [E KUnpitched [] o' [d]]))).
Proof.
  intros k h o kids. split; [reflexivity|]. split.
  - intros [k' h' o' l'] K. cbn in K. unfold add_duration. destruct k'; try reflexivity. congruence.
  - intros o' d. cbn [add_duration append text]. rewrite !flat_map_app. cbn [flat_map text app]. now rewrite !app_nil_r.
Qed.
Print Assumptions C105_duration_partial.
Theorem C105_duration_finding : forall k h o kids h' o' d rest, add_duration (E k h o kids) (E KUnpitched h' o' (d :: rest)) = E k h o (kids ++ [d]).
Proof. reflexivity. Qed.
Print Assumptions C105_duration_finding.

(** ** Numbers *)
Lemma digits_uint : forall s, Forall is_digit s -> exists u, uint_chars u = s.
Proof.
  induction s as [|c s IH]; intros F; [exists Decimal.Nil; reflexivity|]. inversion F as [|? ? D F']; subst. destruct (IH F') as [u <-].
  assert (C : (c = "0" \/ c = "1" \/ c = "2" \/ c = "3" \/ c = "4" \/ c = "5" \/ c = "6" \/ c = "7" \/ c = "8" \/ c = "9")%char).
  { unfold is_digit in D. rewrite <- (ascii_nat_embedding c). remember (nat_of_ascii c) as n. clear Heqn. do 48 (destruct n as [|n]; [lia|]).
    do 10 (destruct n as [|n]; [cbn; tauto|]). lia. }
  destruct C as [->|[->|[->|[->|[->|[->|[->|[->|[->| ->]]]]]]]]];
    [exists (Decimal.D0 u)|exists (Decimal.D1 u)|exists (Decimal.D2 u)|exists (Decimal.D3 u)|exists (Decimal.D4 u)|exists (Decimal.D5 u)|exists (Decimal.D6 u)|exists (Decimal.D7 u)|exists (Decimal.D8 u)|exists (Decimal.D9 u)]; reflexivity.
Qed.
Lemma plain_str : forall s z, plain_number s z -> str_int z = s.
Proof.
  intros s z (NE & D & V & H). destruct (digits_uint s D) as [u <-]. subst z. rewrite <- of_uint_value. unfold str_int.
  replace (Z.of_N (N.of_uint u) <? 0)%Z with false by lia. rewrite N2Z.id, dec_chars, DecimalN.Unsigned.to_of. f_equal.
  destruct H as [H|H].
  - destruct u as [|u|u|u|u|u|u|u|u|u|u]; cbn in H; try discriminate. injection H as H. destruct u; cbn in H; try discriminate. reflexivity.
  - destruct u as [|u|u|u|u|u|u|u|u|u|u]; cbn in H, NE; try reflexivity; congruence.
Qed.

(** An Unpitched that has only a number as its duration is replaced by that number, read from the same text; one that has another duration, and
    everything else, is added as it is. The text is the same.
    Missing for the full claim: dots, scalings and articulations after a number are lost (C105_number_finding). *)
Theorem C105_number_partial : forall k h o kids,
  (forall s z h' o' od, plain_number s z -> od = None \/ od = Some [s] ->
     add_int (E k h o kids) (E KUnpitched h' o' [E KDuration s od []]) = Ok (E k h o (kids ++ [E KInt (str_int z) od []])) /\ text (E KInt (str_int z) od []) = s) /\
  (forall h' o' s od l rest, (od = None /\ ~ int_literal (s ++ flat_map text l) \/ exists t ts, od = Some (t :: ts) /\ ~ int_literal t) ->
     add_int (E k h o kids) (E KUnpitched h' o' (E KDuration s od l :: rest)) = Ok (E k h o (kids ++ [E KUnpitched h' o' (E KDuration s od l :: rest)]))) /\
  (forall x, kind_of x <> KUnpitched -> add_int (E k h o kids) x = Ok (E k h o (kids ++ [x]))).
Proof.
  intros k h o kids. split; [|split].
  - intros s z h' o' od PN O. split; [|cbn [text flat_map]; rewrite app_nil_r; now apply plain_str].
    cbn [add_int first_duration convert_duration_to_int]. pose proof PN as (NE & D & V & _).
    destruct O as [->| ->]; cbn [bindr text flat_map]; rewrite ?app_nil_r, (py_int_value s NE D), V; reflexivity.
  - intros h' o' s od l rest H. cbn [add_int first_duration convert_duration_to_int].
    destruct H as [[-> N]|(t & ts & -> & N)]; cbn [bindr text].
    + destruct (py_int _) as [z|e] eqn:P; [destruct N; apply py_int_ok; eauto|reflexivity].
    + destruct (py_int _) as [z|e] eqn:P; [destruct N; apply py_int_ok; eauto|reflexivity].
  - intros [k' h' o' l'] K. cbn in K. unfold add_int. destruct k'; try reflexivity. congruence.
Qed.
Print Assumptions C105_number_partial.

(** Read from a source text, a number with dots, a scaling, or anything else after it, loses these; without an origin it stays. *)
Theorem C105_number_finding : forall k h o kids s z h' o' ts more l rest, plain_number s z ->
  add_int (E k h o kids) (E KUnpitched h' o' (E KDuration (s ++ more) (Some (s :: ts)) l :: rest)) = Ok (E k h o (kids ++ [E KInt s (Some (s :: ts)) []])).
Proof.
  intros k h o kids s z h' o' ts more l rest PN. cbn [add_int first_duration convert_duration_to_int bindr]. pose proof PN as (NE & D & V & _).
  rewrite (py_int_value s NE D), V, (plain_str s z PN). reflexivity.
Qed.
Print Assumptions C105_number_finding.
Theorem C105_origin_finding : let dotted od := E KUnpitched [] None [E KDuration (txt "4.") od []] in
  add_int (E (KOther 0) (txt "\ottava") None []) (dotted None) = Ok (E (KOther 0) (txt "\ottava") None [dotted None]) /\
  add_int (E (KOther 0) (txt "\ottava") None []) (dotted (Some [txt "4"; txt "."])) = Ok (E (KOther 0) (txt "\ottava") None [E KInt (txt "4") (Some [txt "4"; txt "."]) []]).
Proof. split; vm_compute; reflexivity. Qed.
Print Assumptions C105_origin_finding.

(** ** [\transpose c d' { e }], [\transpose c d e], [\ottava -1] and [\partial 4] *)
Definition note (s : string) : el := E KNote (txt s) (Some [txt s]) [].
Definition pitch (s : string) : el := E KPitch (txt s) (Some [txt s]) [].
Definition cmd (s : string) (l : list el) : el := E (KOther 0) (txt s) None l.
Example C105_witness :
  fold_left (add_pitch 2) [note "c"; E (KOther 1) (txt "%{ %}") None []; note "d"; E (KOther 2) (txt "{}") None [note "e"]] (cmd "\transpose" []) =
    cmd "\transpose" [pitch "c"; E (KOther 1) (txt "%{ %}") None []; pitch "d"; E (KOther 2) (txt "{}") None [note "e"]] /\
  fold_left (add_pitch 2) [note "c"; note "d"; note "e"] (cmd "\transpose" []) = cmd "\transpose" [pitch "c"; pitch "d"; note "e"] /\
  add_int (cmd "\ottava" []) (E KUnpitched [] None [E KDuration (txt "1") (Some [txt "1"]) []]) = Ok (cmd "\ottava" [E KInt (txt "1") (Some [txt "1"]) []]) /\
  plain_number (txt "16") 16 /\ ~ int_literal (txt "\breve").
Proof.
  split; [reflexivity|]. split; [reflexivity|]. split; [vm_compute; reflexivity|]. split.
  - split; [discriminate|]. split; [repeat constructor; unfold is_digit; cbn; lia|]. split; [reflexivity|right; discriminate].
  - intros H. apply py_int_ok in H. destruct H as [n H]. vm_compute in H. discriminate.
Qed.
