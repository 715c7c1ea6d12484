(** Properties C10-C19: pitches, pitch names, pitch languages. *)
From Coq Require Import String Ascii List ZArith QArith Bool Lia Permutation Sorting.Sorted.
From Verif Require Import Base Pitch_Model Pitch_Spec Pitch_Proofs Pitch_Lang.
Import ListNotations.
Open Scope Z_scope.

(** ** C10: MIDI keys *)

Theorem C10_midi_roundtrip : forall flats key,
  let p := from_midi major_scale flats key in
  0 <= note p <= 6 /\ to_midi major_scale p = key /\
  (white (key mod 12) -> (alter p == 0)%Q) /\
  (~ white (key mod 12) -> (exists f, In f flats /\ (f == inject_Z (key mod 12) / 2)%Q) -> (alter p == - (1#2))%Q) /\
  (~ white (key mod 12) -> ~ (exists f, In f flats /\ (f == inject_Z (key mod 12) / 2)%Q) -> (alter p == 1#2)%Q).
Proof.
  intros flats key p. destruct (from_midi_spec flats key) as (N & _ & A & M). fold p in N, A, M.
  split; [exact N|]. split; [exact M|].
  assert (F : flat_key flats key = true <-> exists f, In f flats /\ (f == inject_Z (key mod 12) / 2)%Q).
  { unfold flat_key. rewrite existsb_exists. split; intros (f & I & E); exists f; (split; [exact I|]);
      [apply Qeq_bool_iff in E|apply Qeq_bool_iff]; now symmetry. }
  unfold white. destruct (in_dec Z.eq_dec (key mod 12) _) as [W|W].
  - split; [intros _; exact A|]. split; intros NW; contradiction.
  - split; [intros C; contradiction|]. destruct (flat_key flats key).
    + split; [intros _ _; exact A|]. intros _ C. exfalso. apply C, F. reflexivity.
    + split; [|intros _ _; exact A]. intros _ C. apply F in C. discriminate.
Qed.
Print Assumptions C10_midi_roundtrip.

Example C10_witness : let p := from_midi major_scale major_flats (-2) in
  octave p = -6 /\ note p = 6 /\ (alter p == -(1#2))%Q /\ to_midi major_scale p = -2.
Proof. repeat split; vm_compute; reflexivity. Qed.

(** ** C11: the order of pitches *)

Theorem C11_total_order : forall a b c,
  (* exactly one of <, ==, > *)
  ((pitch_lt a b = true /\ pitch_eq a b = false /\ pitch_gt a b = false) \/
   (pitch_lt a b = false /\ pitch_eq a b = true /\ pitch_gt a b = false) \/
   (pitch_lt a b = false /\ pitch_eq a b = false /\ pitch_gt a b = true)) /\
  pitch_le a b = pitch_lt a b || pitch_eq a b /\
  pitch_ge a b = pitch_gt a b || pitch_eq a b /\
  pitch_ne a b = negb (pitch_eq a b) /\
  pitch_gt a b = pitch_lt b a /\
  (pitch_lt a b = true -> pitch_lt b c = true -> pitch_lt a c = true) /\
  (pitch_lt a b = true <-> plt a b) /\ (pitch_eq a b = true <-> peq a b).
Proof.
  intros a b c. pose proof (pitch_lt_spec a b) as L. pose proof (pitch_eq_spec a b) as E.
  pose proof (pitch_gt_spec a b) as G. pose proof (pitch_lt_spec b a) as L'.
  assert (TR : pitch_lt a b = true -> pitch_lt b c = true -> pitch_lt a c = true)
    by (rewrite !pitch_lt_spec; apply plt_trans).
  assert (T : (pitch_lt a b = true /\ pitch_eq a b = false /\ pitch_gt a b = false) \/
   (pitch_lt a b = false /\ pitch_eq a b = true /\ pitch_gt a b = false) \/
   (pitch_lt a b = false /\ pitch_eq a b = false /\ pitch_gt a b = true)).
  { destruct (plt_total a b) as [H|[H|H]]; [left|right; left|right; right];
      destruct (pitch_lt a b), (pitch_eq a b), (pitch_gt a b); intuition congruence. }
  split; [exact T|]. split; [|split; [|split; [reflexivity|split; [|split; [exact TR|split; [exact L|exact E]]]]]].
  - apply eq_true_iff_eq. rewrite orb_true_iff, pitch_le_spec, L, E. reflexivity.
  - apply eq_true_iff_eq. rewrite orb_true_iff, pitch_ge_spec, G, E. reflexivity.
  - apply eq_true_iff_eq. rewrite G, L'. reflexivity.
Qed.
Print Assumptions C11_total_order.

Example C11_witness : pitch_lt (Pitch 0 6 (1#2)) (Pitch 1 0 (-1)) = true /\
  pitch_eq (Pitch 0 6 (1#2)) (Pitch 0 6 (2#4)) = true.
Proof. split; reflexivity. Qed.

(** ** C12: absolute and relative octaves *)

Theorem C12_absolute_relative_inverse : forall l p prev d,
  make_absolute l (make_relative l p prev d) prev d = p /\
  make_relative l (make_absolute l p prev d) prev d = p /\
  note (make_absolute l p prev d) = note p /\ alter (make_absolute l p prev d) = alter p /\
  note (make_relative l p prev d) = note p /\ alter (make_relative l p prev d) = alter p.
Proof. intros. repeat split; [apply abs_rel|apply rel_abs]. Qed.
Print Assumptions C12_absolute_relative_inverse.

(** A note without octave marks ([octave p = d]) gets the only octave in which
    it is at most three staff steps from the previous note; every octave mark
    moves it one octave from there. *)
Theorem C12_nearest_octave : forall p prev d k,
  let q := make_absolute 7 (Pitch d (note p) (alter p)) prev d in
  Z.abs (staff q - staff prev) <= 3 /\
  (forall o, Z.abs (7 * o + note p - staff prev) <= 3 -> o = octave q) /\
  octave (make_absolute 7 (Pitch (d + k) (note p) (alter p)) prev d) = octave q + k.
Proof.
  intros p prev d k q. destruct (absolute_nearest (Pitch d (note p) (alter p)) prev d eq_refl) as (_ & _ & A & B).
  split; [exact A|]. split; [exact B|]. apply absolute_marks.
Qed.
Print Assumptions C12_nearest_octave.

Example C12_witness : octave (make_absolute 7 (Pitch (-1) 0 0) (Pitch 0 5 0) (-1)) = 1 /\
  octave (make_relative 7 (Pitch 0 0 0) (Pitch 0 5 0) (-1)) = -2.
Proof. split; reflexivity. Qed.

(** ** C13: octave strings *)

Theorem C13_octave_string_roundtrip : forall n,
  octave_from_string (octave_to_string n) = n /\
  octave_to_string n = (if n <? 0 then repeat ","%char (Z.abs_nat n) else repeat "'"%char (Z.abs_nat n)).
Proof. intros n. split; [apply octave_roundtrip|apply octave_string_shape]. Qed.
Print Assumptions C13_octave_string_roundtrip.

Theorem C13_octave_string_concat : forall a b,
  octave_from_string (a ++ b) = octave_from_string a + octave_from_string b.
Proof. exact octave_from_app. Qed.
Print Assumptions C13_octave_string_concat.

Example C13_witness : octave_to_string (-3) = txt ",,," /\ octave_from_string (txt "'',''") = 3.
Proof. split; reflexivity. Qed.

(** A small pitch language for the examples: two tables; Arabic-like names in
    different octaves. *)
Definition ex_t : table :=
  [(txt "c", (-1, 0, 0%Q)); (txt "d", (-1, 1, 0%Q)); (txt "es", (-1, 2, (-1#2)%Q));
   (txt "ees", (-1, 2, (-1#2)%Q)); (txt "fis", (-1, 3, (1#2)%Q)); (txt "hi", (1, 0, 0%Q))].
Definition ex_t2 : table :=
  [(txt "c", (-1, 0, 0%Q)); (txt "cs", (-1, 0, (1#2)%Q)); (txt "d", (-1, 1, 0%Q));
   (txt "css", (-1, 0, 1%Q)); (txt "cx", (-1, 0, 1%Q)); (txt "c-sharpsharp", (-1, 0, 1%Q))].
Definition ex_T : tables :=
  [(txt "nederlands", (0%nat, ex_t)); (txt "norsk", (2%nat, ex_t)); (txt "english", (1%nat, ex_t2))].

Fixpoint nodupb (l : list str) : bool :=
  match l with [] => true | x :: r => negb (in_strs x r) && nodupb r end.
Lemma nodupb_ok l : nodupb l = true -> NoDup l.
Proof.
  induction l as [|x r IH]; intros H; [constructor|]. cbn [nodupb] in H. apply andb_prop in H.
  destruct H as [A B]. constructor; [|now apply IH]. intros C. apply in_strs_iff in C. rewrite C in A. discriminate.
Qed.

Lemma ex_T_ok : tables_ok ex_T.
Proof.
  assert (D := nodupb_ok).
  split; [apply D; vm_compute; reflexivity|].
  intros l i t [H|[H|[H|[]]]]; injection H as <- <- <-; apply D; vm_compute; reflexivity.
Qed.

(** ** C14: naming *)

Theorem C14_naming : forall T P p t, lang_table T (language P) = Ok t ->
  match name_octave T P p with
  | Ok (name, k) =>
      exists o, names_pitch t name o (note p) (alter p) /\ o + k = octave p /\
        (forall name' o' k', names_pitch t name' o' (note p) (alter p) -> o' + k' = octave p -> Z.abs k <= Z.abs k')
  | Err e => e = KeyError /\ ~ exists name o, names_pitch t name o (note p) (alter p)
  end.
Proof.
  intros T P p t TL. destruct (name_octave T P p) as [[name k]|e] eqn:N.
  - destruct (name_octave_sound _ _ _ _ _ N) as (t' & o & TL' & A & B & C). rewrite TL in TL'. injection TL' as <-.
    exists o. split; [exact A|]. split; [exact B|]. intros name' o' k' H E. replace k' with (octave p - o') by lia.
    eapply C; exact H.
  - eapply name_octave_error; eassumption.
Qed.
Print Assumptions C14_naming.

(** The text is the name and the octave marks, which read back as the octave. *)
Theorem C14_text : forall T P p s, pitch_to_string T P p = Ok s ->
  exists name marks t o, s = name ++ marks /\ lang_table T (language P) = Ok t /\
    names_pitch t name o (note p) (alter p) /\ o + octave_from_string marks = octave p.
Proof.
  intros T P p s. unfold pitch_to_string. destruct (name_octave T P p) as [[name k]|e] eqn:N; cbn [bindr]; [|discriminate].
  intros [= <-]. destruct (name_octave_sound _ _ _ _ _ N) as (t & o & TL & A & B & _).
  exists name, (octave_to_string k), t, o. split; [reflexivity|]. split; [exact TL|]. split; [exact A|].
  now rewrite octave_roundtrip.
Qed.
Print Assumptions C14_text.

Example C14_witness :
  pitch_to_string ex_T default_processor (Pitch 0 0 0) = Ok (txt "c'") /\
  pitch_to_string ex_T default_processor (Pitch 2 0 0) = Ok (txt "hi'") /\
  pitch_to_string ex_T default_processor (Pitch (-3) 2 (-1#2)) = Ok (txt "es,,") /\
  pitch_to_string ex_T default_processor (Pitch 0 4 0) = Err KeyError.
Proof. repeat split; vm_compute; reflexivity. Qed.

(** ** C15: nodes *)

Theorem C15_write_read : forall T P n p n', tables_ok T -> write_node T P n p = (n', Ok tt) ->
  (exists q, read_node T P n' = Ok q /\ peq q p) /\ oct_check n' = oct_check n /\
  (forall q, read_node T P n = Ok q -> note q = note p -> (alter q == alter p)%Q -> head n' = head n).
Proof.
  intros T P n p n' OK H. destruct (write_read _ _ _ _ _ OK H) as [A B]. split; [exact A|]. split; [exact B|].
  intros q R N E. unfold read_node in R. destruct (pitch_of_name T P (head n)) as [q0|] eqn:Q0; [|discriminate].
  cbn [bindr] in R. injection R as <-. cbn [note alter] in N, E. eapply write_keeps_head; eassumption.
Qed.
Print Assumptions C15_write_read.

Theorem C15_failed_write_unchanged : forall T P n p n' e,
  write_node T P n p = (n', Err e) -> n' = n /\ e = KeyError.
Proof. exact write_fail. Qed.
Print Assumptions C15_failed_write_unchanged.

(** A node with a readable name can be given every pitch the language names. *)
Theorem C15_write_succeeds : forall T P n p q t, read_node T P n = Ok q ->
  lang_table T (language P) = Ok t -> (exists name o, names_pitch t name o (note p) (alter p)) ->
  exists n', write_node T P n p = (n', Ok tt).
Proof.
  intros T P n p q t R. unfold read_node in R. destruct (pitch_of_name T P (head n)) as [q0|] eqn:Q0; [|discriminate].
  eapply write_succeeds; eassumption.
Qed.
Print Assumptions C15_write_succeeds.

(** process(): nothing is written with write=False, when the body raises, or
    when writing fails; otherwise the node denotes the new pitch. *)
Theorem C15_process : forall T P n write body n' r, tables_ok T -> process T P n write body = (n', r) ->
  match r with
  | Err _ => n' = n
  | Ok p => if write then exists q, read_node T P n' = Ok q /\ peq q p else n' = n
  end.
Proof.
  intros T P n write body n' r OK. unfold process. destruct (read_node T P n) as [p0|e] eqn:R; [|intros [= <- <-]; reflexivity].
  destruct (body p0) as [p|e]; [|intros [= <- <-]; reflexivity].
  destruct write; [|intros [= <- <-]; reflexivity].
  destruct (write_node T P n p) as [m [[]|e]] eqn:W; intros [= <- <-].
  - eapply (proj1 (write_read _ _ _ _ _ OK W)).
  - now apply write_fail in W.
Qed.
Print Assumptions C15_process.

Example C15_witness :
  write_node ex_T default_processor (PNode (txt "ees") None (Some 0)) (Pitch 1 2 (-1#2))
  = (PNode (txt "ees") (Some 2) (Some 0), Ok tt) /\
  write_node ex_T default_processor (PNode (txt "c") (Some 1) None) (Pitch 1 2 (-1#2))
  = (PNode (txt "es") (Some 2) None, Ok tt) /\
  write_node ex_T default_processor (PNode (txt "c") (Some 1) None) (Pitch 1 4 0)
  = (PNode (txt "c") (Some 1) None, Err KeyError).
Proof. repeat split; vm_compute; reflexivity. Qed.

(** ** C16: preferences *)

(** Full statement: for every language with alternatives.  Proved: for every
    such language except norsk, for which it is false (see below). *)
Theorem C16_preferences_obeyed_partial : forall P names,
  styled (language P) -> language P <> txt "norsk" -> ~ In [] names ->
  (exists n, In n names /\ matches P n) ->
  matches P (choose_name P names) /\ In (choose_name P names) names.
Proof. exact choose_matches. Qed.
Print Assumptions C16_preferences_obeyed_partial.

Example C16_witness :
  let P := Processor false false true false true false (txt "english") in
  let names := [txt "css"; txt "cx"; txt "c-sharpsharp"] in
  (exists n, In n names /\ matches P n) /\ choose_name P names = txt "cx".
Proof.
  intros P names. split; [|vm_compute; reflexivity]. exists (txt "cx"). split; [right; now left|].
  apply match_bool_iff. vm_compute. reflexivity.
Qed.

(** Norwegian: with prefer_classic (the default) the processor writes ees
    although es is available, and without it es. *)
Theorem C16_preferences_norsk_refuted :
  let names := [txt "es"; txt "ees"] in
  let P := set_language default_processor (txt "norsk") in
  (matches P (txt "es") /\ choose_name P names = txt "ees" /\ ~ matches P (choose_name P names)) /\
  let P' := Processor false false false false false false (txt "norsk") in
  (matches P' (txt "ees") /\ choose_name P' names = txt "es" /\ ~ matches P' (choose_name P' names)).
Proof.
  assert (D : forall P n, match_bool P n = false -> ~ matches P n).
  { intros P n H M. apply match_bool_iff in M. congruence. }
  cbv zeta.
  split; (split; [apply match_bool_iff; vm_compute; reflexivity|
          split; [vm_compute; reflexivity|apply D; vm_compute; reflexivity]]).
Qed.
Print Assumptions C16_preferences_norsk_refuted.

(** What is the case for norsk: the preference for double s is obeyed, the preference for the classic names is reversed. *)
Theorem C16_norsk_reversed : forall P names, language P = txt "norsk" -> ~ In [] names ->
  let good n := agrees (prefer_double_s P) (substring (txt "ss") n) /\
                agrees (prefer_classic P) (substring (txt "ee") n \/ substring (txt "ae") n) in
  (exists n, In n names /\ good n) -> good (choose_name P names) /\ In (choose_name P names) names.
Proof.
  intros P l EL NE good (n & I & G). split; [|apply choose_in; intros ->; destruct I].
  set (f := fun n => eqb (prefer_double_s P) (contains (txt "ss") n)).
  set (g := fun n => eqb (prefer_classic P) (contains (txt "ee") n || contains (txt "ae") n)).
  assert (GI : forall m, good m <-> f m = true /\ g m = true).
  { intros m. unfold good, f, g. rewrite (agrees_iff (prefer_double_s P) _ _ (contains_iff (txt "ss") m)).
    assert (A : eqb (prefer_classic P) (contains (txt "ee") m || contains (txt "ae") m) = true <->
                agrees (prefer_classic P) (substring (txt "ee") m \/ substring (txt "ae") m)).
    { apply agrees_iff. rewrite orb_true_iff, !contains_iff. reflexivity. }
    now rewrite A. }
  assert (SU : forall l, suitable P l = match filter f l with
   | [x] => Some x
   | _ => first_name g (match filter f l with [] => l | _ => filter f l end)
   end) by (intros k; unfold suitable; rewrite EL; reflexivity).
  apply GI in G. destruct (two_stage_matches f g l (ex_intro _ n (conj I G))) as (m & M & FM & GM). rewrite <- SU in M.
  apply GI. unfold choose_name. destruct l as [|x [|y r]]; [destruct I|destruct I as [->|[]]; exact G|].
  pose proof (suitable_in _ _ _ M) as MI. rewrite M. destruct m as [|c m]; [contradiction|]. now split.
Qed.
Print Assumptions C16_norsk_reversed.

Example C16_norsk_witness :
  let P := set_language default_processor (txt "norsk") in
  let names := [txt "ess"; txt "eess"; txt "es"; txt "ees"] in
  choose_name P names = txt "ees" /\ agrees (prefer_double_s P) (substring (txt "ss") (txt "ees")) /\
  agrees (prefer_classic P) (substring (txt "ee") (txt "ees") \/ substring (txt "ae") (txt "ees")).
Proof.
  cbv zeta. split; [vm_compute; reflexivity|]. split.
  - apply (agrees_iff false _ _ (contains_iff (txt "ss") (txt "ees"))). vm_compute. reflexivity.
  - left. exists [], (txt "s"). reflexivity.
Qed.

(** The preferences that are documented as the default. *)
Theorem C16_defaults :
  language default_processor = txt "nederlands" /\ prefer_classic default_processor = true /\
  prefer_long default_processor = false /\ prefer_accented default_processor = false /\ prefer_x default_processor = false /\
  prefer_double_s default_processor = false /\ prefer_deprecated default_processor = false.
Proof. repeat split. Qed.
Print Assumptions C16_defaults.

(** ** C17: distilling preferences *)

Theorem C17_distill_order : forall T P t a b, lang_table T (language P) = Ok t ->
  one_language T t a -> (forall n, In n a <-> In n b) ->
  distill_preferences T P a = distill_preferences T P b.
Proof. exact distill_order. Qed.
Print Assumptions C17_distill_order.

(** Full statement: every change has evidence.  Proved: for all preferences,
    except that prefer_long is switched off without evidence, see below. *)
Theorem C17_distill_evidence_partial : forall T P t names P', lang_table T (language P) = Ok t ->
  one_language T t names -> distill_preferences T P names = Ok P' ->
  let known n := In n names /\ In n (map fst t) in
  language P' = language P /\
  (prefer_accented P <> prefer_accented P' ->
     if prefer_accented P' then exists n, known n /\ substring (txt "é") n
     else (exists n, known n /\ substring (txt "e") n) /\ forall n, known n -> ~ substring (txt "é") n) /\
  (prefer_classic P <> prefer_classic P' ->
     if prefer_classic P' then exists n, known n /\ In (firstn 2 n) [txt "es"; txt "as"]
     else (exists n, known n /\ In (firstn 2 n) [txt "ee"; txt "ae"]) /\
          forall n, known n -> ~ In (firstn 2 n) [txt "es"; txt "as"]) /\
  (prefer_double_s P <> prefer_double_s P' ->
     if prefer_double_s P' then exists n, known n /\ substring (txt "ss") n
     else (exists n, known n /\ substring (txt "s") n) /\ forall n, known n -> ~ substring (txt "ss") n) /\
  (prefer_x P <> prefer_x P' ->
     if prefer_x P' then exists n, known n /\ ends_in (txt "x") n
     else (exists n, known n /\ (ends_in (txt "ss") n \/ ends_in (txt "dd") n)) /\
          forall n, known n -> ~ ends_in (txt "x") n) /\
  (prefer_deprecated P <> prefer_deprecated P' ->
     if prefer_deprecated P'
     then exists n, known n /\ In n [txt "eeh"; txt "ases"; txt "aseh"; txt "aeh"; txt "bb"; txt "heses"]
     else exists n, known n /\ In n [txt "eh"; txt "asas"; txt "asah"; txt "ah"; txt "bes"]) /\
  (prefer_long P <> prefer_long P' ->
     if prefer_long P' then exists n, known n /\ substring (txt "-") n
     else forall n, known n -> ~ substring (txt "-") n).
Proof. exact distill_evidence. Qed.
Print Assumptions C17_distill_evidence_partial.

Example C17_witness :
  let P := set_language default_processor (txt "english") in
  lang_table ex_T (txt "english") = Ok ex_t2 /\
  one_language ex_T ex_t2 [txt "css"; txt "cx"] /\
  distill_preferences ex_T P [txt "css"; txt "cx"] = distill_preferences ex_T P [txt "cx"; txt "css"; txt "cx"] /\
  (exists P', distill_preferences ex_T P [txt "css"; txt "cx"] = Ok P' /\ prefer_x P' = true).
Proof.
  cbv zeta. split; [reflexivity|]. split; [|split; [vm_compute; reflexivity|eexists; split; [vm_compute; reflexivity|reflexivity]]].
  intros n [<-|[<-|[]]]; left; apply in_strs_iff; vm_compute; reflexivity.
Qed.

(** English: the name "d" (the same in long and short style) switches
    prefer_long off, while the short name "cs" does not: the code tests the note
    where it should test the alteration. *)
Theorem C17_english_evidence_refuted :
  let P := Processor true false false false true false (txt "english") in
  (exists P', distill_preferences ex_T P [txt "d"] = Ok P' /\ prefer_long P' = false) /\
  (exists P', distill_preferences ex_T P [txt "cs"] = Ok P' /\ prefer_long P' = true).
Proof. cbv zeta. split; eexists; (split; [vm_compute; reflexivity|reflexivity]). Qed.
Print Assumptions C17_english_evidence_refuted.

(** ** C18: following the language *)

(** The nodes yielded by follow_language are exactly those that set no
    language, in order, each with the language set last before it. *)
Theorem C18_follow_language : forall A T P (nodes : list (walked A)),
  (forall w s, In w nodes -> sets w = Some s -> In s (map fst T)) ->
  exists P',
  follow_language T P nodes =
    (flat_map (fun i => match nth_error nodes i with
                        | Some w => match sets w with
                                    | None => [(node_of w, last_set (firstn i nodes) (language P))]
                                    | Some _ => [] end
                        | None => [] end) (seq 0 (List.length nodes)), Ok P') /\
  language P' = last_set nodes (language P).
Proof.
  intros A T P nodes H. exists (set_language P (last_set nodes (language P))).
  split; [exact (follow_language_seen T nodes P H)|reflexivity].
Qed.
Print Assumptions C18_follow_language.

(** An unknown language raises KeyError; until then the walk is as above. *)
Theorem C18_unknown_language : forall A T P (nodes r : list (walked A)) w s,
  (forall w s, In w nodes -> sets w = Some s -> In s (map fst T)) ->
  sets w = Some s -> ~ In s (map fst T) ->
  follow_language T P (nodes ++ w :: r) =
    (flat_map (fun i => match nth_error nodes i with
                        | Some w => match sets w with
                                    | None => [(node_of w, last_set (firstn i nodes) (language P))]
                                    | Some _ => [] end
                        | None => [] end) (seq 0 (List.length nodes)), Err KeyError).
Proof. intros A T P nodes r w s. apply follow_language_unknown. Qed.
Print Assumptions C18_unknown_language.

(** Walking backwards from a node through the language commands, find_language
    arrives at the language follow_language has there. *)
Theorem C18_find_language : forall A T P (nodes : list (walked A)),
  (forall w s, In w nodes -> sets w = Some s -> In s (map fst T)) ->
  exists P', find_language T P (rev (lang_attrs nodes)) = Ok P' /\
    language P' = last_set nodes (language P).
Proof.
  intros A T P nodes H. eexists. split; [exact (find_language_last T nodes P H)|reflexivity].
Qed.
Print Assumptions C18_find_language.

Example C18_witness :
  let nodes := [WOther 1; WLang (Some (txt "english")) 2; WOther 3; WLang None 4; WOther 5;
                WLang (Some (txt "norsk")) 6; WOther 7]%nat in
  (forall w s, In w nodes -> sets w = Some s -> In s (map fst ex_T)) /\
  fst (follow_language ex_T default_processor nodes) =
   [(1, txt "nederlands"); (3, txt "english"); (4, txt "english"); (5, txt "english"); (7, txt "norsk")]%nat /\
  (exists P, find_language ex_T default_processor (rev (lang_attrs nodes)) = Ok P /\ language P = txt "norsk").
Proof.
  intros nodes. split; [|split; [vm_compute; reflexivity|eexists; split; [vm_compute; reflexivity|reflexivity]]].
  intros w s H. cbn [nodes In] in H.
  repeat (destruct H as [<-|H]; [intros E; cbn [sets txt list_ascii_of_string] in E; try discriminate; injection E as <-; apply in_strs_iff; vm_compute; reflexivity|]).
  destruct H.
Qed.

(** ** C19: determining the language *)

(** Languages that share one table (synonyms) count as one. *)
Theorem C19_determine_language : forall T names, languages_ok T ->
  exists ls, determine_language T names = Ok ls /\ NoDup ls /\
    (forall l, In l ls -> exists i t, In (l, (i, t)) T /\ has_names t names) /\
    (forall l i t, In (l, (i, t)) T -> has_names t names -> exists l', In l' ls /\ In (l', (i, t)) T).
Proof. exact determine_spec. Qed.
Print Assumptions C19_determine_language.

(** The order: first the languages that are used often, then the others, sorted, then the exotic ones. *)
Lemma str_leb_le a : forall b, str_leb a b = true <-> str_le a b.
Proof.
  induction a as [|x a IH]; intros [|y b]; cbn [str_leb].
  - split; [intros _; left; now exists []|auto].
  - split; [intros _; left; now exists (y :: b)|auto].
  - split; [discriminate|]. intros [[c E]|(p & x' & y' & r & s & _ & E & _)]; [discriminate E|destruct p; discriminate E].
  - destruct (Ascii.eqb_spec x y) as [->|NE].
    + rewrite IH. split.
      * intros [[c ->]|(p & x' & y' & r & s & -> & -> & L)]; [left; now exists c|right; now exists (y :: p), x', y', r, s].
      * intros [[c E]|(p & x' & y' & r & s & E1 & E2 & L)]; [left; exists c; now injection E|].
        destruct p as [|z p]; cbn in E1, E2; injection E1 as -> ->; [injection E2 as -> ->; lia|]. injection E2 as ->. right. now exists p, x', y', r, s.
    + rewrite Nat.leb_le. split.
      * intros L. right. exists [], x, y, a, b. split; [reflexivity|]. split; [reflexivity|]. 
        assert (nat_of_ascii x <> nat_of_ascii y) by (intros E; apply NE; rewrite <- (ascii_nat_embedding x), <- (ascii_nat_embedding y), E; reflexivity). lia.
      * intros [[c E]|(p & x' & y' & r & s & E1 & E2 & L)]; [cbn in E; congruence|].
        destruct p as [|z p]; cbn in E1, E2; [injection E1 as -> ->; injection E2 as -> ->; lia|congruence].
Qed.
Lemma str_leb_total a : forall b, str_leb a b = false -> str_leb b a = true.
Proof.
  induction a as [|x a IH]; intros [|y b]; cbn [str_leb]; try discriminate; [reflexivity|]. rewrite (Ascii.eqb_sym y x).
  destruct (Ascii.eqb_spec x y); [apply IH|]. rewrite Nat.leb_gt, Nat.leb_le. lia.
Qed.
Lemma str_leb_trans a : forall b c, str_leb a b = true -> str_leb b c = true -> str_leb a c = true.
Proof.
  induction a as [|x a IH]; intros [|y b] [|z c]; cbn [str_leb]; try discriminate; try reflexivity.
  destruct (Ascii.eqb_spec x y) as [->|N1].
  - destruct (Ascii.eqb_spec y z) as [->|N2]; [apply IH|auto].
  - destruct (Ascii.eqb_spec y z) as [->|N2]; [destruct (Ascii.eqb_spec x z); [congruence|auto]|].
    rewrite !Nat.leb_le. intros L1 L2. destruct (Ascii.eqb_spec x z) as [->|N3]; [|apply Nat.leb_le; lia].
    assert (E : nat_of_ascii y = nat_of_ascii z) by lia. elim N2. rewrite <- (ascii_nat_embedding y), <- (ascii_nat_embedding z), E. reflexivity.
Qed.
Lemma insert_by_In {A} leb (x : A) l y : In y (insert_by leb x l) -> y = x \/ In y l.
Proof.
  induction l as [|z l IH]; cbn [insert_by]; [intros [<-|[]]; now left|]. destruct (leb x z).
  - intros [<-|J]; [now left|now right].
  - intros [<-|J]; [right; now left|]. destruct (IH J) as [E|K]; [now left|right; now right].
Qed.
Lemma sort_str l : StronglySorted str_le (sort_by str_leb l).
Proof.
  induction l as [|x l IH]; cbn [sort_by]; [constructor|]. set (s := sort_by str_leb l) in *. clearbody s. clear l.
  induction IH as [|y s SS IH F]; cbn [insert_by]; [repeat constructor|]. destruct (str_leb x y) eqn:L.
  - constructor; [now constructor|]. constructor; [now apply str_leb_le|]. rewrite Forall_forall in *. intros z J.
    apply str_leb_le. eapply str_leb_trans; [exact L|]. now apply str_leb_le, F.
  - constructor; [exact IH|]. rewrite Forall_forall in *. intros z J. apply insert_by_In in J as [->|J]; [|now apply F].
    apply str_leb_le. now apply str_leb_total.
Qed.

Theorem C19_order : forall T names ls, determine_language T names = Ok ls ->
  exists (keep : str -> bool) others, StronglySorted str_le others /\
    ls = filter keep ([txt "nederlands"; txt "english"; txt "deutsch"; txt "français"; txt "italiano"] ++ others ++
                      [txt "arabic"; txt "bagpipe"; txt "persian"]).
Proof.
  intros T names ls. unfold determine_language, langs. destruct (map_res _ _) as [seen|e]; [|discriminate]. cbn [bindr]. 
  match goal with |- Ok (filter ?f _) = _ -> _ => intros E; exists f end. exists (sort_by str_leb (others T seen)). split; [apply sort_str|].
  symmetry. now apply (f_equal (fun r => match r with Ok l => l | Err _ => [] end)) in E.
Qed.
Print Assumptions C19_order.

Definition ex_T19 : tables :=
  map (fun '(i, l) => (l, (i, if Nat.even i then ex_t else ex_t2))) (combine (seq 0 20) (ubiquitous ++ exotic ++ [txt "klingon"]))
  ++ [(txt "dutch", (0%nat, ex_t))].

Example C19_witness : languages_ok ex_T19 /\
  exists ls, determine_language ex_T19 [txt "c"; txt "r"; txt "fis"] = Ok ls /\ ls <> [] /\
    exists l, In l (map fst ex_T19) /\ ~ In l ls.
Proof.
  assert (D := nodupb_ok).
  split.
  - split; [split|split].
    + apply D. vm_compute. reflexivity.
    + intros l i t H. unfold ex_T19 in H. apply in_app_or in H. destruct H as [H|[H|[]]].
      * apply in_map_iff in H. destruct H as ([j l'] & H & _). injection H as <- <- <-.
        destruct (Nat.even j); apply D; vm_compute; reflexivity.
      * injection H as <- <- <-. apply D; vm_compute; reflexivity.
    + intros l H. apply in_strs_iff. revert l H. apply Forall_forall. vm_compute. repeat constructor.
    + intros l1 l2 i t1 t2 H1 H2.
      assert (F : forall l i t, In (l, (i, t)) ex_T19 -> t = if Nat.even i then ex_t else ex_t2).
      { clear. intros l i t H. unfold ex_T19 in H. apply in_app_or in H. destruct H as [H|[H|[]]].
        - apply in_map_iff in H. destruct H as ([j l'] & H & _). injection H as <- <- <-. reflexivity.
        - injection H as <- <- <-. reflexivity. }
      rewrite (F _ _ _ H1), (F _ _ _ H2). reflexivity.
  - eexists. split; [vm_compute; reflexivity|]. split; [discriminate|].
    exists (txt "english"). split; [apply in_strs_iff; vm_compute; reflexivity|].
    intros H. apply in_strs_iff in H. vm_compute in H. discriminate.
Qed.
