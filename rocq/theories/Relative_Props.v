(** Properties C29 and C30: relative and absolute music. *)
From Coq Require Import String Ascii List ZArith QArith Bool Lia.
From Verif Require Import Base Pitch_Model Pitch_Spec Pitch_Proofs Transpose_Model Transpose_Spec Transpose_Proofs Transpose_Props.
From Verif Require Import Relative_Model Relative_Spec Relative_Proofs.
Import ListNotations.
Open Scope Z_scope.

(** ** C29: relative to absolute *)

(** Any nesting of lists, notes and chords.  Missing: music with \relative
    inside, or with something after an octave check, where the code is wrong
    (see the refutations below). *)
Theorem C29_rel2abs_partial : forall T P first_absolute s b p ps q,
  no_relative b = true -> checks_last b = true ->
  rel_start T P first_absolute s = Ok p -> rel_read T P first_absolute p b = Ok (ps, q) ->
  exists b', convert T P first_absolute s b = Ok b' /\ abs_read T P first_absolute b' = Ok ps /\
    bare b' = bare (drop_checks b).
Proof.
  intros T P fa s b p ps q NR CL S R. apply convert_spec; [exact NR|exact CL|]. cbn [entry_read]. rewrite S. cbn [bindr].
  rewrite R. reflexivity.
Qed.
Print Assumptions C29_rel2abs_partial.

Definition nt (h : string) (o : Z) : pnode := PNode (txt h) (if o =? 0 then None else Some o) None.

Example C29_witness : (* \relative c'' { c <e g b'> { f, } \octaveCheck c' } *)
  let b := IList [INote (nt "c" 0); IChord [nt "e" 0; nt "g" 0; nt "b" 1]; IList [INote (nt "f" (-1))]; ICheck (nt "c" 1)] in
  no_relative b = true /\ checks_last b = true /\
  (exists p, rel_start ex_tables default_processor true (Some (nt "c" 2)) = Ok p) /\
  (exists x, rel_read ex_tables default_processor true (Pitch 1 0 0) b = Ok x) /\
  convert ex_tables default_processor true (Some (nt "c" 2)) b =
   Ok (IList [INote (nt "c" 2); IChord [nt "e" 2; nt "g" 2; nt "b" 3]; IList [INote (nt "f" 1)]]).
Proof. repeat split; try (eexists; vm_compute; reflexivity); vm_compute; reflexivity. Qed.

(** Also with \relative inside, if no note comes before it: that is replaced by its music, and does not change the reference. *)
Theorem C29_nested_first : forall T P first_absolute s b p ps q z,
  early false b z -> checks_last b = true ->
  rel_start T P first_absolute s = Ok p -> rel_read T P first_absolute p b = Ok (ps, q) ->
  exists b', convert T P first_absolute s b = Ok b' /\ abs_read T P first_absolute b' = Ok ps /\
    bare b' = bare (no_relatives_left b).
Proof.
  intros T P fa s b p ps q z E CL S R. rewrite convert_eq. change (start_pitch T P fa s) with (rel_start T P fa s). rewrite S. cbn [bindr].
  destruct (walk_early T P fa b CL false z E p ps q R) as (b' & W & A & B). exists b'. rewrite W. auto.
Qed.
Print Assumptions C29_nested_first.
Example C29_nested_witness : (* \relative c'' { \relative { \relative c' { } } \relative c' { \relative c'' { e } g } c } *)
  let b := IList [IRelative None (IRelative (Some (nt "c" 1)) (IList [])); IRelative (Some (nt "c" 1)) (IList [IRelative (Some (nt "c" 2)) (INote (nt "e" 0)); INote (nt "g" 0)]); INote (nt "c" 0)] in
  early false b true /\ checks_last b = true /\
  convert ex_tables default_processor true (Some (nt "c" 2)) b =
   Ok (IList [IList []; IList [INote (nt "e" 2); INote (nt "g" 0)]; INote (nt "c" 2)]).
Proof. split; [repeat econstructor|]. split; vm_compute; reflexivity. Qed.

(** All \relative expressions of a document without language changes. *)
Theorem C29_document_partial : forall T P first_absolute d,
  (forall l, ~ In (DLang l) d) -> (exists s b, In (DRel true s b) d /\ meets_note b = true) ->
  (forall sel s b, In (DRel sel s b) d -> no_relative b = true /\ checks_last b = true) ->
  (forall e, In e d -> exists ps, entry_read T P first_absolute e = Ok ps) ->
  exists d', rel2abs T P first_absolute d = Ok d' /\
    Forall2 (fun e e' => entry_read T P first_absolute e' = entry_read T P first_absolute e /\
      match e with DRel _ _ _ => exists b', e' = DMusic b' | _ => e' = e end) d d'.
Proof.
  intros T P fa d NL (s & b & I & M) C R.
  assert (F : first_note_met T P d = Ok (Some P)).
  { clear C R. induction d as [|e d IH]; [destruct I|]. assert (NL' : forall l, ~ In (DLang l) d) by (intros l X; apply (NL l); now right).
    destruct e as [l|sel s' b'|b']; cbn [first_note_met].
    - elim (NL l). now left.
    - destruct I as [I|I].
      + injection I as -> -> ->. rewrite M. reflexivity.
      + destruct sel; [destruct (meets_note b'); [reflexivity|]|]; now apply IH.
    - destruct I as [I|I]; [discriminate|]. now apply IH. }
  unfold rel2abs. rewrite F. cbn [bindr].
  destruct (convert_all_spec T P fa d) as (d' & D & G).
  - apply Forall_forall. intros [l|sel s' b'|b'] J; cbn; auto. eapply C; exact J.
  - apply Forall_forall. exact R.
  - exists d'. split; [exact D|]. eapply Forall2_impl; [|exact G]. intros e e' [X Y]. split; [exact X|].
    destruct e; auto. destruct Y as (b' & Y & _). now exists b'.
Qed.
Print Assumptions C29_document_partial.

(** Doing it again changes nothing, whatever language and version it is done with. *)
Theorem C29_again_partial : forall T P first_absolute d,
  (forall l, ~ In (DLang l) d) -> (exists s b, In (DRel true s b) d /\ meets_note b = true) ->
  (forall sel s b, In (DRel sel s b) d -> no_relative b = true /\ checks_last b = true) ->
  (forall e, In e d -> exists ps, entry_read T P first_absolute e = Ok ps) ->
  exists d', rel2abs T P first_absolute d = Ok d' /\ forall T' P' fa', rel2abs T' P' fa' d' = Ok d'.
Proof.
  intros T P fa d NL X C R. destruct (C29_document_partial T P fa d NL X C R) as (d' & E & F). exists d'. split; [exact E|]. intros T' P' fa'.
  assert (M : Forall (fun e => exists b, e = DMusic b) d').
  { clear E X C R. induction F as [|e e' d d' [_ H] F IH]; constructor.
    - destruct e as [l|sel s b|b]; [elim (NL l); now left|exact H|subst e'; now exists b].
    - apply IH. intros l I. apply (NL l). now right. }
  assert (A : forall Q, first_note_met T' Q d' = Ok None /\ forall f, convert_where T' Q fa' f d' = Ok d').
  { clear E F. induction M as [|e d' [b ->] M IH]; intros Q; [split; reflexivity|]. destruct (IH Q) as [I1 I2]. split; [exact I1|]. intros f. cbn [convert_where bindr]. rewrite I2. reflexivity. }
  unfold rel2abs. rewrite (proj1 (A P')). cbn [bindr]. apply (A P').
Qed.
Print Assumptions C29_again_partial.

Example C29_document_witness :
  rel2abs ex_tables default_processor true [DRel true None (IList [INote (nt "c" 1)]); DMusic IOpaque; DRel true (Some (nt "c" 1)) (INote (nt "b" 0))]
  = Ok [DMusic (IList [INote (nt "c" 1)]); DMusic IOpaque; DMusic (INote (PNode (txt "b") None None))].
Proof. vm_compute. reflexivity. Qed.

(** The note after an octave check is passed over, since the check is removed
    from the list being iterated over:
    \relative c' { \octaveCheck c' d } becomes { d } instead of { d' }. *)
Theorem C29_octave_check_refuted :
  let b := IList [ICheck (nt "c" 1); INote (nt "d" 0)] in
  rel_read ex_tables default_processor true (Pitch 0 0 0) b = Ok ([Pitch 0 1 0], Pitch 0 1 0) /\
  exists b', convert ex_tables default_processor true (Some (nt "c" 1)) b = Ok b' /\
    abs_read ex_tables default_processor true b' = Ok [Pitch (-1) 1 0].
Proof. split; [vm_compute; reflexivity|]. eexists. split; vm_compute; reflexivity. Qed.
Print Assumptions C29_octave_check_refuted.

(** \relative inside \relative after a note is converted twice:
    \relative c'' { c \relative c'' { e } }; the e ends up two octaves too high. *)
Theorem C29_nested_refuted :
  let b := IList [INote (nt "c" 0); IRelative (Some (nt "c" 2)) (IList [INote (nt "e" 0)])] in
  (exists q, rel_read ex_tables default_processor true (Pitch 1 0 0) b = Ok ([Pitch 1 0 0; Pitch 1 2 0], q)) /\
  exists b', convert ex_tables default_processor true (Some (nt "c" 2)) b = Ok b' /\
    abs_read ex_tables default_processor true b' = Ok [Pitch 1 0 0; Pitch 3 2 0].
Proof. split; [eexists; vm_compute; reflexivity|]. eexists. split; vm_compute; reflexivity. Qed.
Print Assumptions C29_nested_refuted.

(** \relative music outside the range is converted too. *)
Theorem C29_selection_refuted :
  rel2abs ex_tables default_processor true [DRel true None (INote (nt "c" 1)); DRel false None (INote (nt "d" 1))]
  = Ok [DMusic (INote (nt "c" 1)); DMusic (INote (nt "d" 1))].
Proof. vm_compute. reflexivity. Qed.
Print Assumptions C29_selection_refuted.

(** ... and before a language change is followed: the "si" of the second
    expression is looked up in the language of the first one. *)
Theorem C29_language_refuted :
  let T := ex_tables ++ [(txt "italiano", (1%nat, [(txt "do", (-1, 0, 0%Q)); (txt "si", (-1, 6, 0%Q))]))] in
  let d := [DRel true None (INote (nt "c" 1)); DLang (txt "italiano"); DRel true None (INote (nt "si" 1))] in
  (exists ps, entry_read T (set_language default_processor (txt "italiano")) true (DRel true None (INote (nt "si" 1))) = Ok ps) /\
  rel2abs T default_processor true d = Err KeyError.
Proof. split; [eexists; vm_compute; reflexivity|]. vm_compute. reflexivity. Qed.
Print Assumptions C29_language_refuted.

(** ** C30: absolute to relative *)

(** [ws]: whether a start pitch is written; then the language must have a name
    for the natural c.  Missing: chords, which the code leaves as they are
    (refuted below), octave checks and \relative music inside. *)
Theorem C30_abs2rel_partial : forall T P first_absolute ws b ps, tables_ok T ->
  (ws = true -> exists t name o, lang_table T (language P) = Ok t /\ names_pitch t name o 0 0) ->
  no_relative b = true -> no_check b = true -> no_chord b = true ->
  abs_read T P first_absolute b = Ok ps ->
  exists s b' p q, make_relative_music T P first_absolute ws b = Ok (s, b') /\
    rel_start T P first_absolute s = Ok p /\ rel_read T P first_absolute p b' = Ok (ps, q) /\
    bare b' = bare b /\ (ws = true -> ps <> [] -> s <> None) /\ (ws = false -> s = None).
Proof.
  intros T P fa ws b ps OK CS NR NC NH A.
  destruct (make_relative_spec T P fa ws OK b ps CS NR NC NH A) as (s & b' & E & R & B & _ & _ & W).
  cbn [entry_read] in R. destruct (rel_start T P fa s) as [p|] eqn:S; [|discriminate]. cbn [bindr] in R.
  destruct (rel_read T P fa p b') as [[qs q]|] eqn:RR; [|discriminate]. cbn [bindr] in R. injection R as <-.
  exists s, b', p, q. split; [exact E|]. split; [exact S|]. split; [exact RR|]. split; [exact B|]. split; [exact W|].
  intros ->. eapply make_relative_no_start; exact E.
Qed.
Print Assumptions C30_abs2rel_partial.

(** rel2abs undoes it. *)
Theorem C30_undo_partial : forall T P first_absolute ws b ps, tables_ok T ->
  (ws = true -> exists t name o, lang_table T (language P) = Ok t /\ names_pitch t name o 0 0) ->
  no_relative b = true -> no_check b = true -> no_chord b = true ->
  abs_read T P first_absolute b = Ok ps ->
  exists s b' b'', make_relative_music T P first_absolute ws b = Ok (s, b') /\
    convert T P first_absolute s b' = Ok b'' /\ plain_zero b'' = plain_zero b.
Proof.
  intros T P fa ws b ps OK CS NR NC NH A.
  destruct (make_relative_spec T P fa ws OK b ps CS NR NC NH A) as (s & b' & E & R & B & NR' & NC' & _).
  destruct (convert_spec T P fa s b' ps NR' (no_check_last _ NC') R) as (b'' & C & AR & B').
  rewrite (drop_no_checks _ NC') in B'. exists s, b', b''. split; [exact E|]. split; [exact C|].
  symmetry. eapply (music_same T P fa b b'' ps ps NR NC); [congruence|exact A|exact AR|reflexivity].
Qed.
Print Assumptions C30_undo_partial.

(** With a start pitch written, the first note needs no octave mark. *)
Theorem C30_first_note : forall T P first_absolute n r ps, tables_ok T ->
  (exists t name o, lang_table T (language P) = Ok t /\ names_pitch t name o 0 0) ->
  no_relative (IList (INote n :: r)) = true -> no_check (IList (INote n :: r)) = true -> no_chord (IList (INote n :: r)) = true ->
  abs_read T P first_absolute (IList (INote n :: r)) = Ok ps -> (forall p, In p ps -> 0 <= note p <= 6) ->
  exists s m r', make_relative_music T P first_absolute true (IList (INote n :: r)) = Ok (Some s, IList (INote m :: r')) /\ node_octave m = 0.
Proof.
  intros T P fa n r ps OK CS NR NC NH A V.
  destruct (make_relative_spec T P fa true OK _ ps (fun _ => CS) NR NC NH A) as (s & b' & E & R & B & NR' & NC' & W).
  destruct (make_relative_first T P fa OK n r s b' ps CS A E V) as (m & r' & -> & Z).
  destruct s as [s|].
  - exists s, m, r'. auto.
  - elim (W eq_refl); [|reflexivity]. intros ->. cbn in A. destruct (read_node T P n) as [p|]; [|discriminate]. cbn in A.
    match type of A with context [bindr ?x _] => destruct x end; discriminate.
Qed.
Print Assumptions C30_first_note.

Example C30_witness : (* { c'' { b' } e''' } *)
  let b := IList [INote (nt "c" 2); IList [INote (nt "b" 1)]; INote (nt "e" 3)] in
  (exists t name o, lang_table ex_tables (language default_processor) = Ok t /\ names_pitch t name o 0 0) /\
  no_relative b = true /\ no_check b = true /\ no_chord b = true /\
  (exists ps, abs_read ex_tables default_processor true b = Ok ps) /\
  make_relative_music ex_tables default_processor true true b =
   Ok (Some (nt "c" 2), IList [INote (PNode (txt "c") (Some 0) None); IList [INote (PNode (txt "b") (Some 0) None)]; INote (nt "e" 1)]).
Proof.
  repeat split; try (eexists; vm_compute; reflexivity); try (vm_compute; reflexivity).
  exists ex_names, (txt "c"), (-1). split; [reflexivity|]. exists 0%Q. split; [now left|reflexivity].
Qed.

(** The notes of a chord are left as they are; in { a <c' e'> } they end up one
    and two octaves too high. *)
Theorem C30_chord_refuted :
  let b := IList [INote (nt "a" 0); IChord [nt "c" 1; nt "e" 1]] in
  abs_read ex_tables default_processor true b = Ok [Pitch (-1) 5 0; Pitch 0 0 0; Pitch 0 2 0] /\
  exists s b', make_relative_music ex_tables default_processor true true b = Ok (s, b') /\
    (exists q, entry_read ex_tables default_processor true (DRel true s b') = Ok q /\
      q = [Pitch (-1) 5 0; Pitch 1 0 0; Pitch 2 2 0]).
Proof. split; [vm_compute; reflexivity|]. do 2 eexists. split; [vm_compute; reflexivity|]. eexists. split; vm_compute; reflexivity. Qed.
Print Assumptions C30_chord_refuted.
