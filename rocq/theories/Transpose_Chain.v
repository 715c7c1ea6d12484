(** Property C124: transposing the same music several times in a row.  The
    definitions are in Transpose_Model; what the music means, in Transpose_Spec. *)
From Coq Require Import String Ascii List ZArith QArith Lqa Bool Lia.
From Verif Require Import Base Pitch_Model Pitch_Spec Pitch_Proofs Pitch_Lang Transpose_Model Transpose_Spec Transpose_Proofs Transpose_Props.
Import ListNotations.
Open Scope Z_scope.

(** Specification: a history of transpositions of the same \relative
    expression, each applied to the outcome of the one before. *)
Inductive relative_history (T : tables) (P : processor) (fa : bool)
    : list transposer -> option rnote -> list event -> option rnote -> list event -> Prop :=
| rh_none start l : relative_history T P fa [] start l start l
| rh_next t ts start l start1 l1 start2 l2 :
    transpose_relative T P t fa start l = Ok (start1, l1) ->
    relative_history T P fa ts start1 l1 start2 l2 ->
    relative_history T P fa (t :: ts) start l start2 l2.

(** The same for absolute music. *)
Inductive absolute_history (T : tables) (P : processor)
    : list transposer -> list rnote -> list rnote -> Prop :=
| ah_none l : absolute_history T P [] l l
| ah_next t ts l l1 l2 :
    transpose_absolute T P t l = Ok l1 ->
    absolute_history T P ts l1 l2 ->
    absolute_history T P (t :: ts) l l2.

(** The sum of the intervals. *)
Definition total (ts : list transposer) : Q := fold_right (fun t a => (interval t + a)%Q) 0%Q ts.

Lemma peq_height s a b : peq a b -> (height s a == height s b)%Q.
Proof. intros (E1 & E2 & E3). unfold height. rewrite E1, E2, E3. reflexivity. Qed.

Lemma transposed_height t s p q : tr_scale t = Some s -> transposed t p q ->
  (height s q == height s p + interval t)%Q.
Proof.
  intros S (r & H & E). rewrite (peq_height s _ _ E). exact (C20_constant_interval _ _ _ _ S H).
Qed.

Lemma Forall2_trans {A B C} (R : A -> B -> Prop) (S : B -> C -> Prop) (U : A -> C -> Prop) :
  (forall a b c, R a b -> S b c -> U a c) ->
  forall l m n, Forall2 R l m -> Forall2 S m n -> Forall2 U l n.
Proof.
  intros H l m n F. revert n. induction F; intros n G; inversion G; subst; constructor; eauto.
Qed.

Lemma frame_writable l l' : Forall2 frame l l' -> all_writable l -> all_writable l'.
Proof.
  induction 1 as [|n m l l' [W _] F IH]; intros H; [constructor|].
  inversion H; subst. constructor; [now rewrite W|now apply IH].
Qed.

Lemma events_writable l : Forall (fun e => all_writable (event_notes e)) l <-> all_writable (flat_map event_notes l).
Proof.
  unfold all_writable. induction l as [|e r IH]; cbn [flat_map]; [split; constructor|].
  rewrite Forall_app, <- IH. split; [intros H; inversion H; now split|intros [A B]; now constructor].
Qed.

Lemma relative_writable T P t fa start l start' l' :
  transpose_relative T P t fa start l = Ok (start', l') ->
  all_writable (opt_list start) -> Forall (fun e => all_writable (event_notes e)) l ->
  all_writable (opt_list start') /\ Forall (fun e => all_writable (event_notes e)) l'.
Proof.
  intros H W1 W2. apply transpose_relative_frame in H. rewrite events_writable in W2.
  assert (W : all_writable (opt_list start ++ flat_map event_notes l)) by (apply Forall_app; now split).
  apply (frame_writable _ _ H) in W. apply Forall_app in W. now rewrite events_writable.
Qed.

(** Whatever transpositions are done one after the other, each pitch of the
    final music is the pitch it was, raised by the sum of all the intervals. *)
Theorem C124_relative_history : forall T P o s fa ts start l start' l' ps,
  tables_ok T -> uniform T P o ->
  all_writable (opt_list start) -> Forall (fun e => all_writable (event_notes e)) l ->
  Forall (fun t => tr_scale t = Some s) ts ->
  relative_history T P fa ts start l start' l' ->
  rel_expression T P fa start l = Ok ps ->
  exists ps', rel_expression T P fa start' l' = Ok ps' /\
    Forall2 (fun p p' => (height s (fst p') == height s (fst p) + total ts)%Q) ps ps'.
Proof.
  intros T P o s fa ts start l start' l' ps OK U W1 W2 S H. revert ps W1 W2 S.
  induction H as [start l|t ts start l start1 l1 start2 l2 H1 H2 IH]; intros ps W1 W2 S E.
  - exists ps. split; [exact E|]. clear E. induction ps; constructor; [|assumption]. cbn [total fold_right]. ring.
  - inversion S; subst.
    destruct (C25_relative_music _ _ _ _ _ _ _ _ _ OK U W1 W2 H1) as (qs & qs1 & E0 & E1 & F).
    rewrite E in E0. injection E0 as <-.
    destruct (relative_writable _ _ _ _ _ _ _ _ H1 W1 W2) as [V1 V2].
    destruct (IH qs1 V1 V2 ltac:(assumption) E1) as (ps' & E2 & G).
    exists ps'. split; [exact E2|]. eapply Forall2_trans; [|exact F|exact G].
    cbv beta. intros a b c X Y. rewrite Y, (transposed_height _ s _ _ ltac:(eassumption) X).
    cbn [total fold_right]. unfold total. ring.
Qed.
Print Assumptions C124_relative_history.

(** There and back: the pitches sound as before. *)
Theorem C124_relative_back : forall T P o a b s fa start l start1 l1 start2 l2 ps,
  tables_ok T -> uniform T P o ->
  all_writable (opt_list start) -> Forall (fun e => all_writable (event_notes e)) l ->
  transpose_relative T P (make_transposer a b s) fa start l = Ok (start1, l1) ->
  transpose_relative T P (make_transposer b a s) fa start1 l1 = Ok (start2, l2) ->
  rel_expression T P fa start l = Ok ps ->
  exists ps2, rel_expression T P fa start2 l2 = Ok ps2 /\
    Forall2 (fun p p' => (height s (fst p') == height s (fst p))%Q) ps ps2.
Proof.
  intros T P o a b s fa start l start1 l1 start2 l2 ps OK U W1 W2 H1 H2 E.
  destruct (C124_relative_history T P o s fa [make_transposer a b s; make_transposer b a s] start l start2 l2 ps)
    as (ps2 & E2 & F); try assumption.
  - repeat constructor.
  - econstructor; [exact H1|]. econstructor; [exact H2|constructor].
  - exists ps2. split; [exact E2|]. eapply Forall2_impl; [|exact F]. cbv beta. intros p q X. rewrite X.
    unfold total. cbn [fold_right]. rewrite !C20_interval. ring.
Qed.
Print Assumptions C124_relative_back.

Lemma transposed_back a b s p q r : good_scale s -> normal p ->
  (-1 <= alter (plain_shift (make_transposer a b s) s p) <= 1)%Q ->
  transposed (make_transposer a b s) p q -> transposed (make_transposer b a s) q r -> peq r p.
Proof.
  intros G N A (q0 & H1 & E1) (r0 & H2 & E2).
  destruct (C23_back_and_forth a b s p G N) as (q' & r' & K1 & K2 & _ & K3).
  rewrite H1 in K1. injection K1 as <-.
  pose proof (transpose_peq (make_transposer b a s) _ _ E1) as X. rewrite H2, K2 in X. cbn in X.
  specialize (K3 A). destruct E2 as (? & ? & e2), X as (? & ? & x), K3 as (? & ? & k3).
  split; [congruence|]. split; [congruence|]. now rewrite e2, x, k3.
Qed.

Lemma absolute_writable T P t l l' : tables_ok T -> transpose_absolute T P t l = Ok l' ->
  Forall2 (fun n n' => r_writable n' = r_writable n) l l'.
Proof.
  intros OK H. eapply map_notes_forall2; [|exact H]. intros n m E.
  apply (transpose_pitch_spec _ _ _ _ _ _ OK E).
Qed.

(** If moreover no note needed another name on the way there, every pitch comes
    back exactly: octave, note and alteration. *)
Theorem C124_relative_back_exact : forall T P o a b s fa start l start1 l1 start2 l2 ps,
  tables_ok T -> uniform T P o -> good_scale s ->
  all_writable (opt_list start) -> Forall (fun e => all_writable (event_notes e)) l ->
  transpose_relative T P (make_transposer a b s) fa start l = Ok (start1, l1) ->
  transpose_relative T P (make_transposer b a s) fa start1 l1 = Ok (start2, l2) ->
  rel_expression T P fa start l = Ok ps ->
  Forall (fun p => normal (fst p) /\
    (-1 <= alter (plain_shift (make_transposer a b s) s (fst p)) <= 1)%Q) ps ->
  exists ps2, rel_expression T P fa start2 l2 = Ok ps2 /\
    Forall2 (fun p p' => peq (fst p') (fst p)) ps ps2.
Proof.
  intros T P o a b s fa start l start1 l1 start2 l2 ps OK U G W1 W2 H1 H2 E N.
  destruct (C25_relative_music _ _ _ _ _ _ _ _ _ OK U W1 W2 H1) as (qs & qs1 & E0 & E1 & F).
  rewrite E in E0. injection E0 as <-.
  destruct (relative_writable _ _ _ _ _ _ _ _ H1 W1 W2) as [V1 V2].
  destruct (C25_relative_music _ _ _ _ _ _ _ _ _ OK U V1 V2 H2) as (qs & ps2 & E0 & E2 & F2).
  rewrite E1 in E0. injection E0 as <-.
  exists ps2. split; [exact E2|]. clear E E1 E2.
  revert ps2 F2. induction F as [|p q ps qs X F IH]; intros ps2 F2; inversion F2; subst; constructor.
  - inversion N as [|? ? [N1 N2] N3]; subst.
    eapply transposed_back; eassumption.
  - inversion N; subst. now apply IH.
Qed.
Print Assumptions C124_relative_back_exact.

(** Absolute music: the notes that may be changed move by the sum of the
    intervals, all others stay as they are written. *)
Theorem C124_absolute_history : forall T P s ts l l',
  tables_ok T -> Forall (fun t => tr_scale t = Some s) ts ->
  absolute_history T P ts l l' ->
  Forall2 (fun n n' =>
    if r_writable n then
      ts = [] /\ n' = n \/
      exists p p', read_node T P (r_node n) = Ok p /\ read_node T P (r_node n') = Ok p' /\
        (height s p' == height s p + total ts)%Q
    else n' = n) l l'.
Proof.
  intros T P s ts l l' OK S H. revert S.
  induction H as [l|t ts l l1 l2 H1 H2 IH]; intros S.
  - induction l; constructor; [|assumption]. destruct (r_writable a); [now left|reflexivity].
  - inversion S; subst. specialize (IH ltac:(assumption)).
    pose proof (C68_absolute_selected _ _ _ _ _ OK H1) as F.
    pose proof (absolute_writable _ _ _ _ _ OK H1) as FW.
    clear H1 H2 S. revert l2 IH FW. induction F as [|n m l l1 X F IHF]; intros l2 IH FW;
      inversion IH; subst; constructor.
    + inversion FW; subst. match goal with E : r_writable m = r_writable n |- _ => rename E into WE end.
      match goal with Y : if r_writable m then _ else _ |- _ => rename Y into Y0 end.
      rewrite WE in Y0. destruct (r_writable n).
      * right. destruct X as (p & p' & R1 & R2 & TR).
        pose proof (transposed_height _ s _ _ ltac:(eassumption) TR) as HT.
        destruct Y0 as [[-> ->]|(q & q' & Q1 & Q2 & Q3)].
        -- exists p, p'. split; [exact R1|]. split; [exact R2|]. rewrite HT. unfold total. cbn [fold_right]. ring.
        -- rewrite R2 in Q1. injection Q1 as <-. exists p, q'. split; [exact R1|]. split; [exact Q2|].
           rewrite Q3, HT. unfold total. cbn [fold_right]. ring.
      * now subst.
    + inversion FW; subst. apply IHF; assumption.
Qed.
Print Assumptions C124_absolute_history.

(** \relative c' { d <b e g> b, } up a fourth and down again: the same
    pitches; and the transposers compose with a third one, up an octave. *)
Definition chain_events : list event :=
  [ENote (ex_note "d" 0); EChord [ex_note "b" 0; ex_note "e" 0; ex_note "g" 0]; ENote (ex_note "b" (-1))].
Definition chain_up : list event :=
  [ENote (ex_note "g" 0); EChord [ex_note "e" 0; ex_note "a" 0; ex_note "c" 0]; ENote (ex_note "e" (-1))].

Example C124_witness :
  let f0 := Pitch (-1) 3 0 in
  transpose_relative ex_tables default_processor (major_transposer c0 f0) false (Some (ex_note "c" 1)) chain_events
    = Ok (Some (ex_note "f" 1), chain_up) /\
  transpose_relative ex_tables default_processor (major_transposer f0 c0) false (Some (ex_note "f" 1)) chain_up
    = Ok (Some (ex_note "c" 1), chain_events) /\
  all_writable (opt_list (Some (ex_note "c" 1))) /\
  Forall (fun e => all_writable (event_notes e)) chain_events /\
  (exists ps, rel_expression ex_tables default_processor false (Some (ex_note "c" 1)) chain_events = Ok ps /\
     List.length ps = 6%nat /\
     Forall (fun p => normal (fst p) /\
       (-1 <= alter (plain_shift (major_transposer c0 f0) major_scale (fst p)) <= 1)%Q) ps) /\
  (exists start' l', relative_history ex_tables default_processor false
     [major_transposer c0 f0; major_transposer c0 c1; major_transposer f0 c0] (Some (ex_note "c" 1)) chain_events start' l' /\
     start' = Some (ex_note "c" 2) /\ l' = chain_events) /\
  (total [major_transposer c0 f0; major_transposer c0 c1; major_transposer f0 c0] == 6)%Q.
Proof.
  cbv zeta. split; [vm_compute; reflexivity|]. split; [vm_compute; reflexivity|].
  split; [repeat constructor|]. split; [repeat constructor|]. split; [|split].
  - eexists. split; [vm_compute; reflexivity|]. split; [reflexivity|].
    repeat constructor; cbn; try lia; try (vm_compute; discriminate).
  - exists (Some (ex_note "c" 2)), chain_events. split; [|split; reflexivity].
    eapply rh_next; [vm_compute; reflexivity|]. eapply rh_next; [vm_compute; reflexivity|].
    eapply rh_next; [vm_compute; reflexivity|]. constructor.
  - vm_compute. reflexivity.
Qed.
