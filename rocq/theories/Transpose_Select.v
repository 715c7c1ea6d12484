(** Transposing a contiguous selection of relative music. *)
From Coq Require Import String Ascii List ZArith QArith Bool Lia.
From Coq Require Import ZifyBool ZifyNat.
From Verif Require Import Base Pitch_Model Pitch_Spec Pitch_Proofs Transpose_Model Transpose_Spec Transpose_Proofs.
Import ListNotations.
Open Scope Z_scope.
Ltac Zify.zify_post_hook ::= Z.div_mod_to_equations.

(** The reference pitch after reading one event, or more. *)
Definition after_event (T : tables) (P : processor) (prev : pitch) (e : event) : res (list (pitch * option Z) * pitch) :=
  match e with
  | ENote n => let! p := rel_pitch T P prev (r_node n) in Ok ([p], fst p)
  | EChord c => let! qs := rel_notes T P prev (map r_node c) in Ok (qs, match qs with [] => prev | q :: _ => fst q end)
  | ECheck c => let! qs := abs_notes T P (map r_node c) in Ok (qs, fst (last qs (prev, None)))
  end.

Lemma rel_events_cons T P prev e r : rel_events T P prev (e :: r) =
  let! (ps, p) := after_event T P prev e in let! qs := rel_events T P p r in Ok (ps ++ qs).
Proof.
  destruct e as [n|c|c]; cbn [rel_events after_event].
  - destruct (rel_pitch T P prev (r_node n)) as [p|]; cbn [bindr]; [|reflexivity].
    destruct (rel_events T P (fst p) r); reflexivity.
  - destruct (rel_notes T P prev (map r_node c)) as [p|]; cbn [bindr]; reflexivity.
  - destruct (abs_notes T P (map r_node c)) as [p|]; cbn [bindr]; reflexivity.
Qed.

Lemma note_unselected T P t n st prev m st' : r_writable n = false -> inv 0 st prev prev ->
  transpose_note T P t n st = Ok (m, st') ->
  m = n /\ exists p c, rel_pitch T P prev (r_node n) = Ok (p, c) /\ inv 0 st' p p.
Proof.
  intros W [[I1 I2] _]. unfold transpose_note. rewrite W. cbn [negb].
  destruct (read_node T P (r_node n)) as [p0|] eqn:R; [|discriminate]. cbn [bindr]. intros [= <- <-].
  split; [reflexivity|]. destruct (read_node_name _ _ _ _ R) as (q & N & ->).
  unfold rel_pitch. rewrite N. cbn [bindr]. do 2 eexists. split; [reflexivity|].
  unfold inv, at_octave, make_absolute. cbn [fst snd odefault octave note alter]. rewrite nearest_eq, I1, I2.
  split; split; try reflexivity; lia.
Qed.

Lemma chord_unselected T P t c : none_writable c -> forall st prev c' ss, inv 0 st prev prev ->
  transpose_chord T P t c st = Ok (c', ss) ->
  c' = c /\ exists qs, rel_notes T P prev (map r_node c) = Ok qs /\
   (let p := match qs with [] => prev | q :: _ => fst q end in inv 0 (match ss with [] => st | s :: _ => s end) p p).
Proof.
  induction c as [|n r IH]; intros W st prev c' ss I; cbn [transpose_chord].
  - intros [= <- <-]. split; [reflexivity|]. exists []. split; [reflexivity|exact I].
  - inversion W as [|? ? Wn Wr]; subst. destruct (transpose_note T P t n st) as [[m s]|] eqn:TN; [|discriminate]. cbn [bindr].
    destruct (transpose_chord T P t r s) as [[r' s2]|] eqn:TC; [|discriminate]. cbn [bindr]. intros [= <- <-].
    destruct (note_unselected _ _ _ _ _ _ _ _ Wn I TN) as (-> & p & k & R & I').
    destruct (IH Wr _ _ _ _ I' TC) as (-> & qs & Q & _). split; [reflexivity|].
    exists ((p, k) :: qs). cbn [map rel_notes]. rewrite R. cbn [bindr fst]. rewrite Q. split; [reflexivity|exact I'].
Qed.

Lemma last_skip {A} (x : A) l d : last (x :: l) d = last l x.
Proof. revert x d. induction l as [|y r IH]; intros x d; [reflexivity|]. change (last (x :: y :: r) d) with (last (y :: r) d). now rewrite !IH. Qed.

Lemma check_unselected T P t c : none_writable c -> forall st (prev : pitch * option Z) c' st', inv 0 st (fst prev) (fst prev) ->
  transpose_check T P t c st = Ok (c', st') ->
  c' = c /\ exists qs, abs_notes T P (map r_node c) = Ok qs /\
   (let p := fst (last qs prev) in inv 0 st' p p).
Proof.
  induction c as [|n r IH]; intros W st prev c' st' I; cbn [transpose_check].
  - intros [= <- <-]. split; [reflexivity|]. exists []. split; [reflexivity|exact I].
  - inversion W as [|? ? Wn Wr]; subst. rewrite Wn.
    destruct (read_node T P (r_node n)) as [p|] eqn:R; [|discriminate]. cbn [bindr].
    destruct (transpose_check T P t r _) as [[r' s2]|] eqn:TC; [|discriminate]. cbn [bindr]. intros [= <- <-].
    assert (I' : inv 0 (p, None) (fst (p, @None Z)) (fst (p, @None Z))) by (split; split; cbn; lia).
    destruct (IH Wr _ (p, None) _ _ I' TC) as (-> & qs & Q & IQ). split; [reflexivity|].
    exists ((p, None) :: qs). cbn [map abs_notes]. rewrite R. cbn [bindr]. rewrite Q. split; [reflexivity|].
    cbv zeta. rewrite last_skip. exact IQ.
Qed.

Lemma events_unselected T P t pre : Forall (fun e => none_writable (event_notes e)) pre ->
  forall r st prev l', inv 0 st prev prev -> transpose_events T P t (pre ++ r) st = Ok l' ->
  exists r' st' ps p, l' = pre ++ r' /\ transpose_events T P t r st' = Ok r' /\ inv 0 st' p p /\
    forall x, rel_events T P prev (pre ++ x) = let! qs := rel_events T P p x in Ok (ps ++ qs).
Proof.
  induction pre as [|e pre IH]; intros W r st prev l' I.
  - cbn [app]. intros H. exists l', st, [], prev. split; [reflexivity|]. split; [exact H|]. split; [exact I|].
    intros x. destruct (rel_events T P prev x); reflexivity.
  - inversion W as [|? ? We Wr]; subst.
    assert (X : forall st2 e' l2, (exists ps p, after_event T P prev e = Ok (ps, p) /\ inv 0 st2 p p) -> e' = e ->
      transpose_events T P t (pre ++ r) st2 = Ok l2 ->
      exists r' st' ps p, e' :: l2 = (e :: pre) ++ r' /\ transpose_events T P t r st' = Ok r' /\ inv 0 st' p p /\
       forall x, rel_events T P prev ((e :: pre) ++ x) = let! qs := rel_events T P p x in Ok (ps ++ qs)).
    { intros st2 e' l2 (ps & p & A & I2) -> TE. destruct (IH Wr _ _ _ _ I2 TE) as (r' & st' & ps' & p' & -> & TE' & I' & RE).
      exists r', st', (ps ++ ps'), p'. split; [reflexivity|]. split; [exact TE'|]. split; [exact I'|].
      intros x. cbn [app]. rewrite rel_events_cons, A. cbn [bindr]. rewrite RE.
      destruct (rel_events T P p' x); cbn [bindr]; [|reflexivity]. now rewrite app_assoc. }
    cbn [app transpose_events]. destruct e as [n|c|c]; cbn [event_notes] in We.
    + destruct (transpose_note T P t n st) as [[m s]|] eqn:TN; [|discriminate]. cbn [bindr].
      destruct (transpose_events T P t (pre ++ r) s) as [l2|] eqn:TE; [|discriminate]. cbn [bindr]. intros [= <-].
      inversion We as [|? ? Wn _]; subst.
      destruct (note_unselected _ _ _ _ _ _ _ _ Wn I TN) as (-> & p & k & R & I').
      eapply X; [|reflexivity|exact TE]. exists [(p, k)], p. cbn [after_event]. rewrite R. split; [reflexivity|exact I'].
    + destruct (transpose_chord T P t c st) as [[c' ss]|] eqn:TN; [|discriminate]. cbn [bindr].
      destruct (transpose_events T P t (pre ++ r) _) as [l2|] eqn:TE; [|discriminate]. cbn [bindr]. intros [= <-].
      destruct (chord_unselected _ _ _ _ We _ _ _ _ I TN) as (-> & qs & R & I').
      eapply X; [|reflexivity|exact TE]. eexists qs, _. cbn [after_event]. rewrite R. split; [reflexivity|exact I'].
    + destruct (transpose_check T P t c st) as [[c' s]|] eqn:TN; [|discriminate]. cbn [bindr].
      destruct (transpose_events T P t (pre ++ r) _) as [l2|] eqn:TE; [|discriminate]. cbn [bindr]. intros [= <-].
      destruct (check_unselected _ _ _ _ We _ (prev, None) _ _ I TN) as (-> & qs & R & I').
      eapply X; [|reflexivity|exact TE]. eexists qs, _. cbn [after_event]. rewrite R. split; [reflexivity|exact I'].
Qed.

Lemma frame_none c c' : none_writable c -> Forall2 frame c c' -> c' = c.
Proof.
  intros W F. induction F as [|n m c c' Fn F IH]; [reflexivity|]. inversion W as [|? ? Wn Wr]; subst.
  f_equal; [now apply Fn|now apply IH].
Qed.

Lemma events_split T P t a : forall b st l', transpose_events T P t (a ++ b) st = Ok l' ->
  exists a' b' st', l' = a' ++ b' /\ transpose_events T P t a st = Ok a' /\ transpose_events T P t b st' = Ok b'.
Proof.
  induction a as [|e a IH]; intros b st l'; cbn [app].
  - intros H. exists [], l', st. now repeat split.
  - cbn [transpose_events]. destruct e as [n|c|c].
    + destruct (transpose_note T P t n st) as [[m s]|]; [|discriminate]. cbn [bindr].
      destruct (transpose_events T P t (a ++ b) s) as [l2|] eqn:TE; [|discriminate]. cbn [bindr]. intros [= <-].
      destruct (IH _ _ _ TE) as (a' & b' & st' & -> & -> & B). exists (ENote m :: a'), b', st'. now repeat split.
    + destruct (transpose_chord T P t c st) as [[c' ss]|]; [|discriminate]. cbn [bindr].
      destruct (transpose_events T P t (a ++ b) _) as [l2|] eqn:TE; [|discriminate]. cbn [bindr]. intros [= <-].
      destruct (IH _ _ _ TE) as (a' & b' & st' & -> & -> & B). exists (EChord c' :: a'), b', st'. now repeat split.
    + destruct (transpose_check T P t c st) as [[c' s]|]; [|discriminate]. cbn [bindr].
      destruct (transpose_events T P t (a ++ b) _) as [l2|] eqn:TE; [|discriminate]. cbn [bindr]. intros [= <-].
      destruct (IH _ _ _ TE) as (a' & b' & st' & -> & -> & B). exists (ECheck c' :: a'), b', st'. now repeat split.
Qed.

Lemma events_frame_none T P t l : Forall (fun e => none_writable (event_notes e)) l ->
  forall st l', transpose_events T P t l st = Ok l' -> l' = l.
Proof.
  induction l as [|e r IH]; intros W st l'; cbn [transpose_events]; [intros [= <-]; reflexivity|].
  inversion W as [|? ? We Wr]; subst. destruct e as [n|c|c]; cbn [event_notes] in We.
  - destruct (transpose_note T P t n st) as [[m s]|] eqn:TN; [|discriminate]. cbn [bindr].
    destruct (transpose_events T P t r s) as [l2|] eqn:TE; [|discriminate]. cbn [bindr]. intros [= <-].
    inversion We as [|? ? Wn _]; subst. f_equal; [f_equal; now apply (transpose_note_frame _ _ _ _ _ _ _ TN)|eapply IH; eassumption].
  - destruct (transpose_chord T P t c st) as [[m s]|] eqn:TN; [|discriminate]. cbn [bindr].
    destruct (transpose_events T P t r _) as [l2|] eqn:TE; [|discriminate]. cbn [bindr]. intros [= <-].
    f_equal; [f_equal; eapply frame_none; [exact We|eapply transpose_chord_frame; eassumption]|eapply IH; eassumption].
  - destruct (transpose_check T P t c st) as [[m s]|] eqn:TN; [|discriminate]. cbn [bindr].
    destruct (transpose_events T P t r _) as [l2|] eqn:TE; [|discriminate]. cbn [bindr]. intros [= <-].
    f_equal; [f_equal; eapply frame_none; [exact We|eapply transpose_check_frame; eassumption]|eapply IH; eassumption].
Qed.

Lemma relative_selection T P t o fa start pre sel post start' l' :
  tables_ok T -> uniform T P o -> none_writable (opt_list start) ->
  Forall (fun e => none_writable (event_notes e)) pre ->
  Forall (fun e => all_writable (event_notes e)) sel ->
  Forall (fun e => none_writable (event_notes e)) post ->
  transpose_relative T P t fa start (pre ++ sel ++ post) = Ok (start', l') ->
  exists sel' ps qs qs', start' = start /\ l' = pre ++ sel' ++ post /\
    rel_expression T P fa start (pre ++ sel) = Ok (ps ++ qs) /\
    rel_expression T P fa start (pre ++ sel') = Ok (ps ++ qs') /\
    rel_expression T P fa start pre = Ok ps /\
    Forall2 (fun p p' => transposed t (fst p) (fst p')) qs qs'.
Proof.
  intros OK U WS WP WL WQ H.
  assert (X : forall st prev l2, inv 0 st prev prev -> transpose_events T P t (pre ++ sel ++ post) st = Ok l2 ->
    exists sel' ps qs qs', l2 = pre ++ sel' ++ post /\
      rel_events T P prev (pre ++ sel) = Ok (ps ++ qs) /\ rel_events T P prev (pre ++ sel') = Ok (ps ++ qs') /\
      rel_events T P prev pre = Ok ps /\
      Forall2 (fun p p' => transposed t (fst p) (fst p')) qs qs').
  { intros st prev l2 I TE. destruct (events_unselected _ _ _ _ WP _ _ _ _ I TE) as (r' & st' & ps & p & -> & TE' & I' & RE).
    destruct (events_split _ _ _ _ _ _ _ TE') as (a' & b' & st2 & -> & TA & TB).
    rewrite (events_frame_none _ _ _ _ WQ _ _ TB).
    destruct (transpose_events_spec T P t o sel OK U WL _ _ _ _ _ I' TA) as (qs & qs' & Q1 & Q2 & F).
    exists a', ps, qs, qs'. split; [reflexivity|]. rewrite !RE, Q1, Q2. split; [reflexivity|]. split; [reflexivity|].
    split; [rewrite <- (app_nil_r pre), RE; cbn [rel_events bindr]; now rewrite app_nil_r|].
    eapply Forall2_impl; [|exact F]. intros a b [Y|Y]; apply Y. }
  unfold transpose_relative in H. destruct start as [n|].
  - inversion WS as [|? ? W _]; subst. rewrite W in H. destruct (read_node T P (r_node n)) as [p|] eqn:R; [|discriminate].
    cbn [bindr] in H. destruct (transpose_events T P t _ (p, None)) as [l2|] eqn:TE; [|discriminate]. cbn [bindr] in H. injection H as <- <-.
    destruct (X (p, None) p _ ltac:(split; split; cbn [fst snd odefault]; lia) TE) as (sel' & ps & qs & qs' & -> & Q1 & Q2 & Q3 & F).
    exists sel', ((p, None) :: ps), qs, qs'. cbn [rel_expression]. rewrite R. cbn [bindr]. rewrite Q1, Q2, Q3. cbn [bindr].
    split; [reflexivity|]. split; [reflexivity|]. split; [reflexivity|]. split; [reflexivity|].
    split; [reflexivity|exact F].
  - destruct (transpose_events T P t _ _) as [l2|] eqn:TE; [|discriminate]. cbn [bindr] in H. injection H as <- <-.
    set (p0 := if fa then Pitch (-1) 3 0 else Pitch 0 0 0) in *.
    destruct (X (p0, None) p0 _ ltac:(unfold p0; destruct fa; split; split; cbn; lia) TE) as (sel' & ps & qs & qs' & -> & Q1 & Q2 & Q3 & F).
    exists sel', ps, qs, qs'. cbn [rel_expression]. fold p0.    split; [reflexivity|]. split; [reflexivity|]. split; [exact Q1|]. split; [exact Q2|].
    split; [exact Q3|exact F].
Qed.
