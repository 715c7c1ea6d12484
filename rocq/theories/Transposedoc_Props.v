(** Property C125: transposing a whole document. *)
From Coq Require Import String Ascii List ZArith QArith Lqa Bool Lia.
From Verif Require Import Base Pitch_Model Pitch_Spec Pitch_Proofs Transpose_Model Transpose_Spec Transpose_Proofs.
From Verif Require Import Transpose_Props Transpose_Chain Transposedoc_Model Transposedoc_Spec Transposedoc_Proofs.
Import ListNotations.
Local Open Scope string_scope. Local Open Scope list_scope.
Open Scope Z_scope.

(** Full statement: for every document.  Proved: for every document in which
    \fixed and \transpose have their pitches (no comment before those of
    \transpose), \transpose is not in \relative music, and the transposer moves
    no \fixed reference pitch into an octave of its own.
    Missing for the full claim: the excluded cases, for which it is false; see
    C125_transpose_in_relative_refuted, C125_comment_refuted and
    C27_fixed_music_refuted. *)
Theorem C125_document_partial : forall T t s o fa P x x',
  tables_ok T -> (forall P', uniform T P' o) -> tr_scale t = Some s ->
  full x = true -> usual false x = true ->
  transpose_doc T t fa P x = Ok x' ->
  exists hs hs', meaning T s fa P x = Ok hs /\ meaning T s fa P x' = Ok hs' /\
    (references_kept t hs -> Forall2 (heard_transposed t) hs hs').
Proof.
  intros T t s o fa P x x' OK U SC F W. unfold transpose_doc, meaning.
  destruct (walk T t fa false (BPlain 0) P x) as [[[x1 b1] P1]|] eqn:E; [|discriminate]. cbn [bindr]. intros [= <-].
  destruct (all_good T t s fa o OK U SC x (BPlain 0) P 0%Q 0%Q PAbs PAbs x1 b1 P1 F W ltac:(now left) ltac:(reflexivity) E)
    as (hs & pl1 & hs' & pl1' & R1 & R2 & _ & _ & X).
  rewrite R1, R2. cbn [bindr]. exists hs, hs'. split; [reflexivity|]. split; [reflexivity|]. intros RK. now apply X.
Qed.
Print Assumptions C125_document_partial.

(** In terms of sound: everything that sounds goes up by the interval. *)
Theorem C125_sound_partial : forall T t s o fa P x x' hs hs',
  tables_ok T -> (forall P', uniform T P' o) -> tr_scale t = Some s ->
  full x = true -> usual false x = true ->
  transpose_doc T t fa P x = Ok x' ->
  meaning T s fa P x = Ok hs -> meaning T s fa P x' = Ok hs' -> references_kept t hs ->
  Forall2 (fun h h' => forall p d, h = Sound p d ->
    exists p' d', h' = Sound p' d' /\ (height s p' + d' == height s p + d + interval t)%Q) hs hs'.
Proof.
  intros T t s o fa P x x' hs hs' OK U SC F W E M M' RK.
  destruct (C125_document_partial _ _ _ _ _ _ _ _ OK U SC F W E) as (h1 & h2 & E1 & E2 & X).
  rewrite M in E1. injection E1 as <-. rewrite M' in E2. injection E2 as <-.
  eapply Forall2_impl; [|exact (X RK)]. intros h h' H p d ->. destruct h' as [p' d'| | |]; try contradiction.
  destruct H as [H1 H2]. exists p', d'. split; [reflexivity|]. rewrite H2, (transposed_height _ s _ _ SC H1). ring.
Qed.
Print Assumptions C125_sound_partial.

(** Nothing but the pitches in the range changes: not the structure, not the
    commands, comments and language, not the pitches of instruments, and no
    pitch outside of the range. *)
Theorem C125_only_pitches : forall T t fa P x x', transpose_doc T t fa P x = Ok x' -> same_but_pitches x x'.
Proof.
  intros T t fa P x x'. unfold transpose_doc.
  destruct (walk T t fa false (BPlain 0) P x) as [[[x1 b1] P1]|] eqn:E; [|discriminate]. cbn [bindr]. intros [= <-].
  eapply walk_frame; eassumption.
Qed.
Print Assumptions C125_only_pitches.

(** The music of the example: c \relative c' { d <b e g> % \n b, } \key d,
    \fixed c' { c }, \transpose c d { e }, \transposition c. *)
Definition nt (h : string) (k : Z) : mtree := MPitch (ex_note h k) [].
Definition ex_doc : mtree := MOther
  [MLang (txt "nederlands"); nt "c" 0;
   MRelative [MComment; nt "c" 1; MOther [nt "d" 0; MChord [nt "b" 0; nt "e" 0; nt "g" 0]; MComment; nt "b" (-1)]];
   MKey [nt "d" 0]; MFixed [nt "c" 1; MOther [nt "c" 0]]; MTranspose [nt "c" 0; nt "d" 0; MOther [nt "e" 0]];
   MSkip [nt "c" 0]].
Definition ex_doc_up : mtree := MOther
  [MLang (txt "nederlands"); nt "f" 0;
   MRelative [MComment; nt "f" 1; MOther [nt "g" 0; MChord [nt "e" 0; nt "a" 0; nt "c" 0]; MComment; nt "e" (-1)]];
   MKey [nt "g" 0]; MFixed [nt "f" 1; MOther [nt "f" 0]]; MTranspose [nt "f" 0; nt "g" 0; MOther [nt "a" 0]];
   MSkip [nt "c" 0]].
Definition ex_heard : list heard :=
  [Sound (Pitch (-1) 0 0) 0; Start (Pitch 0 0 0); Sound (Pitch 0 1 0) 0; Sound (Pitch (-1) 6 0) 0; Sound (Pitch 0 2 0) 0;
   Sound (Pitch 0 4 0) 0; Sound (Pitch (-2) 6 0) 0; KeyNote (Pitch (-1) 1 0) 0; Reference (Pitch 0 0 0); Sound (Pitch 0 0 0) 0;
   Sound (Pitch (-1) 2 0) (0 + (-5 - -6))].

Lemma ex_uniform_all : forall P, uniform ex_tables P (-1).
Proof.
  intros P t name o' n a H I. unfold lang_table in H.
  destruct (dget str_eqb ex_tables (language P)) as [[k tb]|] eqn:E; [|discriminate].
  apply dget_str_in in E. destruct E as [E|[]]. injection E as _ <- <-. injection H as <-.
  cbn in I. repeat destruct I as [I|I]; try contradiction; injection I as <- <- <- <-; lia.
Qed.

Example C125_witness :
  let t := major_transposer c0 (Pitch (-1) 3 0) in
  full ex_doc = true /\ usual false ex_doc = true /\ tr_scale t = Some major_scale /\
  transpose_doc ex_tables t true default_processor ex_doc = Ok ex_doc_up /\
  meaning ex_tables major_scale true default_processor ex_doc = Ok ex_heard /\ references_kept t ex_heard.
Proof.
  cbv zeta. repeat (split; [vm_compute; reflexivity|]).
  intros r q I. unfold ex_heard in I. repeat destruct I as [I|I]; try discriminate; try contradiction.
  injection I as <-. intros H. vm_compute in H. injection H as <-. reflexivity.
Qed.

(** \relative c' { c \transpose c d { b } }: in the code the pitches in
    \transpose are relative, in LilyPond they are absolute.  Up a fifth, the b
    becomes fis an octave too low. *)
Theorem C125_transpose_in_relative_refuted :
  let x := MRelative [nt "c" 1; MOther [nt "c" 0; MTranspose [nt "c" 0; nt "d" 0; MOther [nt "b" 0]]]] in
  let x' := MRelative [nt "g" 1; MOther [nt "g" 0; MTranspose [nt "g" 0; nt "a" 0; MOther [nt "fis" 0]]]] in
  let t := major_transposer c0 (Pitch (-1) 4 0) in
  transpose_doc ex_tables t true default_processor x = Ok x' /\
  exists a b c q a' b' c' d d',
    meaning ex_tables major_scale true default_processor x = Ok [a; b; Sound c d] /\
    meaning ex_tables major_scale true default_processor x' = Ok [a'; b'; Sound c' d'] /\
    transpose t c = Ok q /\ octave c' = octave q - 1 /\ note c' = note q.
Proof.
  cbv zeta. split; [vm_compute; reflexivity|]. do 9 eexists.
  split; [vm_compute; reflexivity|]. split; [vm_compute; reflexivity|]. split; [vm_compute; reflexivity|]. now split.
Qed.
Print Assumptions C125_transpose_in_relative_refuted.

(** A comment between \transpose and its pitches: the second pitch is taken for
    a note.  Transposed up an octave, what is in it sounds an octave too high. *)
Theorem C125_comment_refuted :
  let x := MTranspose [MComment; nt "c" 0; nt "d" 0; MOther [nt "e" 0]] in
  let t := major_transposer c0 c1 in
  exists x' c q c' d d',
    transpose_doc ex_tables t true default_processor x = Ok x' /\
    meaning ex_tables major_scale true default_processor x = Ok [Sound c d] /\
    meaning ex_tables major_scale true default_processor x' = Ok [Sound c' d'] /\
    transpose t c = Ok q /\ c' = q /\ (d' == d + 6)%Q.
Proof.
  cbv zeta. do 6 eexists. repeat (split; [vm_compute; reflexivity|]). vm_compute. reflexivity.
Qed.
Print Assumptions C125_comment_refuted.
