(** Properties C60-C64, C70: rhythm. *)
From Coq Require Import List ZArith QArith Bool Lia.
From Verif Require Import Base Duration_Model Rhythm_Model Rhythm_Spec Rhythm_Proofs Rhythm_Lists Rhythm_Text.
Import ListNotations.
Open Scope nat_scope.

(** Nothing but durations of selected durables changes. *)
Definition only_durations (inr : list nat -> bool) (t t' : rn) : Prop :=
  bare t' = bare t /\ Forall2 (fun x y => same_place x y /\ untouched x y) (document inr t) (document inr t').

Lemma flats_durable inr n : forall path right, Forall (fun x => is_durable (i_kind x) = true) (durables inr path right n).
Proof.
  induction n as [k b d kids IH] using rn_ind2. intros path right. rewrite durables_eq. apply Forall_app. split.
  - destruct (is_durable k) eqn:D; repeat constructor. exact D.
  - revert IH. generalize 0. induction kids as [|c r IHr]; intros i IH; [constructor|]. cbn [flats]. apply Forall_app. split; [apply (Forall_inv IH)|apply IHr; apply (Forall_inv_tail IH)].
Qed.
Lemma document_durable inr t : Forall (fun x => is_durable (i_kind x) = true) (document inr t).
Proof. apply flats_durable. Qed.

Lemma sets_not_skip x : is_durable (i_kind x) = true -> sounds x = true -> i_durs x = [] -> sets_previous (i_kind x) = true.
Proof. unfold sounds, sets_previous. intros -> SO E. rewrite E in SO. destruct (is_skip (i_kind x)); [discriminate|reflexivity]. Qed.

Lemma set_ds_nil a b : exists d, set_duration_scaling (Some (a, b)) [] = Ok [d] /\ same (dur_value d) (a, b) /\ length (snd d) <= 1.
Proof.
  unfold set_duration_scaling, set_duration, set_scaling, one_or_none. destruct (Qeq_bool b 1) eqn:E.
  - eexists. split; [reflexivity|]. apply Qeq_bool_iff in E. split; [split; cbn; [reflexivity|symmetry; exact E]|cbn; lia].
  - eexists. split; [reflexivity|]. split; [split; cbn; [reflexivity|apply Qmult_1_l]|cbn; lia].
Qed.
Lemma set_ds_plain a b durs : length durs <= 1 -> Forall (fun d => length (snd d) <= 1) durs ->
  exists d, set_duration_scaling (Some (a, b)) durs = Ok [d] /\ same (dur_value d) (a, b) /\ length (snd d) <= 1.
Proof.
  intros L P. destruct durs as [|[h s] [|]]; [apply set_ds_nil| |cbn in L; lia].
  unfold set_duration_scaling, set_duration, set_scaling, one_or_none. pose proof (Forall_inv P) as PS. cbn [snd] in PS.
  destruct s as [|s0 [|]]; [| |cbn in PS; lia]; destruct (Qeq_bool b 1) eqn:E; (eexists; split; [reflexivity|]); cbn;
    try (apply Qeq_bool_iff in E; split; [split; cbn; [reflexivity|symmetry; exact E]|lia]); split; [split; cbn; [reflexivity|apply Qmult_1_l]|lia|split; cbn; [reflexivity|apply Qmult_1_l]|lia].
Qed.

(** ** C60 *)
Definition i_explicit (st : option dnode) (p : Q * Q) : Prop := match st with Some d => same (dur_value d) p | None => True end.

Lemma explicit_keep last p x st st' d : is_durable (i_kind x) = true -> i_sel x = true -> i_explicit st p -> same (odef last) p -> g_explicit last x st = Ok (st', d) ->
  same (now p x) (now p (with_durs x d)) /\ same (next p x) (next p (with_durs x d)) /\ i_explicit st' (next p (with_durs x d)).
Proof.
  intros D _ HI HL. unfold g_explicit, on. destruct (sounds x) eqn:SO.
  - destruct (i_durs x) as [|d0 dr] eqn:E.
    + intros [= <- <-]. pose proof (sets_not_skip x D SO E) as SP. set (p' := match st with Some p => p | None => _ end).
      assert (PP : same (dur_value p') p).
      { unfold p'. destruct st as [p0|]; [exact HI|]. destruct (odef last) as [a b]. eapply same_trans; [apply from_duration_same|exact HL]. }
      unfold next, now, written. cbn [with_durs i_kind i_durs]. rewrite SP, E. cbn [duration_scaling i_explicit]. repeat split; try apply same_sym; try apply PP; apply same_refl.
    + intros [= <- <-]. rewrite <- E, with_same. unfold next, now, written. rewrite E. cbn [duration_scaling]. split; [apply same_refl|]. split; [apply same_refl|].
      destruct (sets_previous (i_kind x)); [cbn; apply same_refl|exact HI].
  - intros [= <- <-]. rewrite with_same. split; [apply same_refl|]. split; [apply same_refl|].
    assert (sets_previous (i_kind x) = false) as E. { destruct (sets_previous (i_kind x)) eqn:SP; [apply sets_sounds in SP; congruence|reflexivity]. }
    unfold next. rewrite E. exact HI.
Qed.

Lemma explicit_total last x st : exists r, g_explicit last x st = Ok r.
Proof. unfold g_explicit, on. destruct (sounds x); [|eauto]. destruct (i_durs x); eauto. Qed.

(** explicit(): every selected durable gets a duration (but not a \skip that has music instead), those that have one keep it, and the effective durations in the whole
    document stay the same. *)
Theorem C60_explicit : forall inr t, starts_outside_chords inr t -> contiguous (document inr t) ->
  exists t', explicit inr t = Ok t' /\ only_durations inr t t' /\
    Forall2 same (effective quarter (document inr t)) (effective quarter (document inr t')) /\
    Forall2 (fun x y => i_durs x <> [] \/ i_kind x = KSkip -> y = x) (document inr t) (document inr t') /\
    Forall (fun y => i_sel y = true -> i_kind y <> KSkip -> i_durs y <> []) (document inr t').
Proof.
  intros inr t O C. pose proof (explicit_run inr t O) as R. unfold explicit.
  destruct (run_total g_explicit explicit_total (document inr t) None None) as (st & l & T).
  destruct (edit p_explicit inr None t) as [[s t']|e]; [|congruence]. cbn [bindr]. destruct R as [B R]. exists t'. split; [reflexivity|].
  split; [split; [exact B|eapply run_place; exact R]|]. split; [|split].
  - eapply run_contiguous with (I := i_explicit) (ok := fun x => is_durable (i_kind x) = true); [|exact C|apply document_durable| |exact R].
    + intros. eapply explicit_keep; eauto.
    + intros p. exact Logic.I.
  - eapply run_each; [| |exact R]; [|auto]. intros last x st0 st' d SX G N. unfold g_explicit, on in G. destruct (sounds x) eqn:SO.
    + destruct (i_durs x) eqn:E; [|injection G as _ <-; rewrite <- E; apply with_same]. destruct N as [N|N]; [contradiction|]. unfold sounds in SO. rewrite N, E in SO. discriminate.
    + injection G as _ <-. apply with_same.
  - clear T. assert (F : Forall2 (fun x y => i_sel y = true -> i_kind y <> KSkip -> i_durs y <> []) (document inr t) (document inr t')).
    { eapply run_each; [| |exact R].
      - intros last x st0 st' d SX G _ NS. cbn [with_durs i_durs i_kind] in *. unfold g_explicit, on in G.
        assert (sounds x = true) as SO. { unfold sounds. destruct (i_kind x); try reflexivity. contradiction. }
        rewrite SO in G. destruct (i_durs x) eqn:E; injection G as _ <-; discriminate.
      - intros x U1 U2. congruence. }
    clear -F. induction F; constructor; auto.
Qed.
Print Assumptions C60_explicit.

(** On a whole document. *)
Theorem C60_explicit_document : forall t, is_durable (kind_of t) = false ->
  exists t', explicit (fun _ => true) t = Ok t' /\ bare t' = bare t /\
    Forall2 same (effective quarter (document (fun _ => true) t)) (effective quarter (document (fun _ => true) t')) /\
    Forall (fun y => i_kind y <> KSkip -> i_durs y <> []) (document (fun _ => true) t').
Proof.
  intros t D. set (all := fun _ : list nat => true).
  assert (SEL : forall t, is_durable (kind_of t) = false -> selected (document all t)).
  { clear. intros [k b d kids] D. unfold document. rewrite durables_eq. cbn [kind_of] in D. rewrite D. cbn [app].
    assert (G : forall n path right, path <> [] -> selected (durables (fun p => match p with [] => false | _ => all p end) path right n)).
    { clear. induction n as [k b d kids IH] using rn_ind2. intros path right N. rewrite durables_eq. apply Forall_app. split.
      - destruct (is_durable k); repeat constructor. destruct path; [contradiction|reflexivity].
      - revert IH. generalize 0. induction kids as [|c r IHr]; intros i IH; [constructor|]. cbn [flats]. apply Forall_app. split; [apply (Forall_inv IH); destruct path; discriminate|apply IHr; apply (Forall_inv_tail IH)]. }
    generalize 0. induction kids as [|c r IHr]; intros i; [constructor|]. cbn [flats]. apply Forall_app. split; [apply G; discriminate|apply IHr]. }
  assert (O : starts_outside_chords all t).
  { assert (G : forall n path, path <> [] -> outside_ok (fun p => match p with [] => false | _ => all p end) path n).
    { clear. induction n as [k b d kids IH] using rn_ind2. intros path N. apply ok_eq. split; [destruct path; [contradiction|discriminate]|].
      revert IH. generalize 0. induction kids as [|c r IHr]; intros i IH; [exact Logic.I|]. cbn [oks]. split; [apply (Forall_inv IH); destruct path; discriminate|apply IHr; apply (Forall_inv_tail IH)]. }
    unfold starts_outside_chords. destruct t as [k b d kids]. apply ok_eq. cbn [kind_of] in D. split; [unfold sets_previous; rewrite D; discriminate|].
    generalize 0. induction kids as [|c r IHr]; intros i; [exact Logic.I|]. cbn [oks]. split; [apply G; discriminate|apply IHr]. }
  destruct (C60_explicit all t O) as (t' & E & (B & _) & EF & _ & F).
  { exists [], (document all t), []. rewrite app_nil_r. repeat split; [constructor|apply SEL; exact D|constructor]. }
  exists t'. repeat split; auto.
  assert (D' : is_durable (kind_of t') = false). { destruct t as [k b d kids], t' as [k' b' d' kids']. cbn in *. injection B as -> _ _ _. exact D. }
  specialize (SEL t' D'). clear -F SEL. revert F. unfold selected in SEL. rewrite !Forall_forall in *. intros F y I. apply F; auto.
Qed.
Print Assumptions C60_explicit_document.

(** ** C61 *)
Lemma implicit_total last x st : exists r, g_implicit last x st = Ok r.
Proof. unfold g_implicit, on. destruct (sounds x); [|eauto]. destruct (written x); [|eauto]. destruct (_ && _); [eauto|]. destruct (sets_previous _); eauto. Qed.

Definition i_implicit (st : option (Q * Q)) (p : Q * Q) : Prop := match st with Some d => same d p | None => True end.
Lemma single x : one_duration x -> del_duration (i_durs x) = [].
Proof. intros L. unfold one_duration in L. destruct (i_durs x) as [|d [|]]; [reflexivity|reflexivity|cbn in L; lia]. Qed.

Lemma implicit_keep last p x st st' d : one_duration x -> i_implicit st p -> g_implicit last x st = Ok (st', d) ->
  same (now p x) (now p (with_durs x d)) /\ same (next p x) (next p (with_durs x d)) /\ i_implicit st' (next p (with_durs x d)).
Proof.
  intros PL HI. unfold g_implicit, on.
  assert (KEEP : forall s, (sets_previous (i_kind x) = true -> i_implicit s (now p x)) -> (sets_previous (i_kind x) = false -> i_implicit s p) ->
    same (now p x) (now p (with_durs x (i_durs x))) /\ same (next p x) (next p (with_durs x (i_durs x))) /\ i_implicit s (next p (with_durs x (i_durs x)))).
  { intros s H1 H2. rewrite with_same. split; [apply same_refl|]. split; [apply same_refl|]. unfold next. destruct (sets_previous (i_kind x)); auto. }
  destruct (sounds x) eqn:SO.
  - destruct (written x) as [dur|] eqn:W.
    + destruct (is_prev dur st && i_free x) eqn:E.
      * intros [= <- <-]. rewrite (single x PL). apply andb_prop in E. destruct E as [E _]. destruct st as [p0|]; [|discriminate]. cbn in E, HI. apply dur_eqb_same in E.
        pose proof (same_trans _ _ _ E HI) as SP. unfold next, now, written. cbn [with_durs i_kind i_durs duration_scaling]. unfold written in W. rewrite W.
        destruct (sets_previous (i_kind x)); repeat split; try apply SP; try apply HI; try reflexivity.
      * destruct (sets_previous (i_kind x)) eqn:SP; intros [= <- <-]; apply KEEP; intros Z; try discriminate; [|exact HI]. unfold now. rewrite W. apply same_refl.
    + intros [= <- <-]. apply KEEP; intros _; [|exact HI]. unfold now. rewrite W. exact HI.
  - intros [= <- <-]. apply KEEP; [|auto]. intros SP. apply sets_sounds in SP. congruence.
Qed.

Lemma implicit_tidy l : Forall one_duration l -> forall last st st' l', run g_implicit last st l = Ok (st', l') -> tidy st l'.
Proof.
  induction 1 as [|x r PL H IH]; intros last st st' l'; cbn [run]; [intros [= <- <-]; exact Logic.I|].
  destruct (if i_sel x then g_implicit last x st else Ok (st, i_durs x)) as [[s d]|] eqn:G; cbn [bindr]; [|discriminate].
  destruct (run g_implicit (step last (with_durs x d)) s r) as [[s' r']|] eqn:R; cbn [bindr]; [|discriminate]. intros [= <- <-].
  cbn [tidy with_durs i_sel i_free i_kind]. specialize (IH _ _ _ _ R). destruct (i_sel x) eqn:SX.
  - cbn [andb]. unfold g_implicit, on in G. destruct (sounds x) eqn:SO.
    + destruct (written x) as [dur|] eqn:W.
      * destruct (is_prev dur st && i_free x) eqn:E.
        -- injection G as <- <-. rewrite (single x PL). cbn. split; [discriminate|]. destruct (sets_previous (i_kind x)); exact IH.
        -- assert (s = if sets_previous (i_kind x) then Some dur else st) as -> by (destruct (sets_previous (i_kind x)); congruence).
           assert (d = i_durs x) as -> by (destruct (sets_previous (i_kind x)); congruence).
           change (written {| i_sel := i_sel x; i_kind := i_kind x; i_free := i_free x; i_blk := i_blk x; i_durs := i_durs x |}) with (written x). change (written (with_durs x (i_durs x))) with (written x). rewrite W.
           split; [|destruct (sets_previous (i_kind x)); exact IH]. intros _ FR d0 p [= <-] -> SM. rewrite FR, andb_true_r in E. cbn in E. apply dur_eqb_same in SM. congruence.
      * injection G as <- <-. change (written (with_durs x (i_durs x))) with (written x). rewrite W. split; [discriminate|]. destruct (sets_previous (i_kind x)); exact IH.
    + injection G as <- <-. change (written (with_durs x (i_durs x))) with (written x).
      assert (i_durs x = []) as D. { unfold sounds in SO. destruct (i_durs x); [reflexivity|]. rewrite andb_false_r in SO. discriminate. }
      unfold written. rewrite D. cbn. split; [discriminate|]. destruct (sets_previous (i_kind x)); exact IH.
  - injection G as <- <-. cbn [andb]. split; [discriminate|exact IH].
Qed.
Lemma tidy_run l : forall last st, tidy st l -> exists st', run g_implicit last st l = Ok (st', l).
Proof.
  induction l as [|x r IH]; intros last st; cbn [run tidy]; [eauto|]. intros [T1 T2].
  assert (G : (if i_sel x then g_implicit last x st else Ok (st, i_durs x)) = Ok (if i_sel x && sets_previous (i_kind x) then match written x with Some d => Some d | None => st end else st, i_durs x)).
  { destruct (i_sel x); cbn [andb]; [|reflexivity]. unfold g_implicit, on. destruct (sounds x) eqn:SO.
    - destruct (written x) as [dur|] eqn:W; [|destruct (sets_previous (i_kind x)); reflexivity].
      destruct (is_prev dur st && i_free x) eqn:E; [|destruct (sets_previous (i_kind x)); reflexivity].
      exfalso. apply andb_prop in E. destruct E as [E FR]. destruct st as [p|]; [|discriminate]. cbn in E. apply dur_eqb_same in E. exact (T1 eq_refl FR dur p eq_refl eq_refl E).
    - destruct (sets_previous (i_kind x)) eqn:SP; [apply sets_sounds in SP; congruence|reflexivity]. }
  rewrite G. cbn [bindr]. rewrite with_same. destruct (IH (step last x) _ T2) as (s & ->). cbn [bindr]. eauto.
Qed.

(** implicit(): removes only removable durations, the effective durations in the whole document stay the same, and nothing is left
    that could be removed. *)
Theorem C61_implicit : forall inr t, contiguous (document inr t) -> Forall one_duration (document inr t) ->
  exists t', implicit inr false t = Ok t' /\ only_durations inr t t' /\
    Forall2 same (effective quarter (document inr t)) (effective quarter (document inr t')) /\
    Forall2 (fun x y => y = x \/ (i_free x = true /\ i_durs y = [])) (document inr t) (document inr t') /\
    tidy None (document inr t') /\
    implicit inr false t' = Ok t'.
Proof.
  intros inr t C PL. pose proof (implicit_run inr t) as R. unfold implicit.
  destruct (run_total g_implicit implicit_total (document inr t) None None) as (st & l & T).
  destruct (edit p_implicit inr None t) as [[s t']|e] eqn:ED; [|congruence]. cbn [bindr]. destruct R as [B R]. exists t'. split; [reflexivity|].
  split; [split; [exact B|eapply run_place; exact R]|]. split; [|split; [|split]].
  - eapply run_contiguous with (I := i_implicit) (ok := one_duration); [|exact C|exact PL| |exact R].
    + intros. eapply implicit_keep; eauto.
    + intros p. exact Logic.I.
  - assert (F : Forall2 (fun x y => one_duration x -> y = x \/ (i_free x = true /\ i_durs y = [])) (document inr t) (document inr t')).
    { eapply run_each; [| |exact R]; [|auto]. intros last x st0 st' d SX G P. unfold g_implicit, on in G. destruct (sounds x); [|injection G as _ <-; left; apply with_same].
      destruct (written x); [|injection G as _ <-; left; apply with_same]. destruct (is_prev p st0 && i_free x) eqn:E.
      - injection G as _ <-. right. apply andb_prop in E. split; [apply E|]. exact (single x P).
      - left. destruct (sets_previous (i_kind x)); injection G as _ <-; apply with_same. }
    clear -F PL. induction F; inversion PL; subst; constructor; auto.
  - eapply implicit_tidy; [exact PL|exact R].
  - pose proof (implicit_tidy _ PL _ _ _ _ R) as TI. destruct (tidy_run _ None _ TI) as (s2 & R2). pose proof (implicit_run inr t') as R3.
    destruct (edit p_implicit inr None t') as [[s3 t2]|e]; [|congruence]. destruct R3 as [B3 R3]. cbn [bindr]. f_equal. rewrite R2 in R3. injection R3 as _ R3.
    eapply flat_inj; [exact B3|]. symmetry. exact R3.
Qed.
Print Assumptions C61_implicit.

Lemma blk_eqb_eq a b : blk_eqb a b = true <-> a = b.
Proof. destruct a, b; cbn; rewrite ?Nat.eqb_eq; split; congruence. Qed.
Lemma line_total last x st : exists r, g_implicit_line last x st = Ok r.
Proof.
  unfold g_implicit_line, on. destruct (sounds x); [|eauto]. destruct (written x) eqn:W.
  - destruct (_ && _); [eauto|]. destruct (sets_previous _); eauto.
  - destruct (i_blk x); [|eauto]. destruct st as [[[a b] bl]|]; [|eauto]. destruct (negb _); [|eauto].
    assert (i_durs x = []) as -> by (unfold written in W; destruct (i_durs x); [reflexivity|discriminate]). destruct (set_ds_nil a b) as (d & -> & _). cbn [bindr]. eauto.
Qed.
Definition i_line (st : option ((Q * Q) * option nat)) (p : Q * Q) : Prop := match st with Some (d, _) => same d p | None => True end.
Lemma line_keep last p x st st' d : one_duration x -> is_durable (i_kind x) = true -> i_line st p -> g_implicit_line last x st = Ok (st', d) ->
  same (now p x) (now p (with_durs x d)) /\ same (next p x) (next p (with_durs x d)) /\ i_line st' (next p (with_durs x d)).
Proof.
  intros PL DU HI. unfold g_implicit_line, on.
  assert (KEEP : forall s, (sets_previous (i_kind x) = true -> i_line s (now p x)) -> (sets_previous (i_kind x) = false -> i_line s p) ->
    same (now p x) (now p (with_durs x (i_durs x))) /\ same (next p x) (next p (with_durs x (i_durs x))) /\ i_line s (next p (with_durs x (i_durs x)))).
  { intros s H1 H2. rewrite with_same. split; [apply same_refl|]. split; [apply same_refl|]. unfold next. destruct (sets_previous (i_kind x)); auto. }
  destruct (sounds x) eqn:SO.
  - destruct (written x) as [dur|] eqn:W.
    + destruct (_ && i_free x) eqn:E.
      * intros [= <- <-]. rewrite (single x PL). apply andb_prop in E. destruct E as [E _]. destruct st as [[p0 b0]|]; [|discriminate]. cbn in HI. apply andb_prop in E. destruct E as [E _]. apply dur_eqb_same in E.
        pose proof (same_trans _ _ _ E HI) as SP. unfold next, now, written. cbn [with_durs i_kind i_durs duration_scaling]. unfold written in W. rewrite W.
        destruct (sets_previous (i_kind x)); repeat split; try apply SP; try apply HI; try reflexivity.
      * destruct (sets_previous (i_kind x)) eqn:SP; intros [= <- <-]; apply KEEP; intros Z; try discriminate; [|exact HI]. unfold now. rewrite W. apply same_refl.
    + assert (NOP : Ok (st, i_durs x) = Ok (st', d) -> same (now p x) (now p (with_durs x d)) /\ same (next p x) (next p (with_durs x d)) /\ i_line st' (next p (with_durs x d))).
      { intros [= <- <-]. apply KEEP; intros _; [|exact HI]. unfold now. rewrite W. exact HI. }
      destruct (i_blk x) eqn:BL; [|exact NOP]. destruct st as [[[a c] b0]|]; [|exact NOP]. destruct (negb _); [|exact NOP].
      assert (D0 : i_durs x = []) by (unfold written in W; destruct (i_durs x); [reflexivity|discriminate]). rewrite D0.
      destruct (set_ds_nil a c) as (d1 & -> & SD & _). cbn [bindr]. intros [= <- <-].
      pose proof (sets_not_skip x DU SO D0) as SP. cbn in HI. pose proof (same_trans _ _ _ SD HI) as S2.
      unfold next, now, written. cbn [with_durs i_kind i_durs duration_scaling]. rewrite D0, SP. cbn [duration_scaling i_line]. repeat split; try (symmetry; apply S2); symmetry; apply SD.
  - intros [= <- <-]. apply KEEP; [|auto]. intros SP. apply sets_sounds in SP. congruence.
Qed.
Definition line_rel (a b : option ((Q * Q) * option nat)) : Prop :=
  match a, b with Some (p, l), Some (q, m) => same p q /\ l = m | None, None => True | _, _ => False end.
Lemma line_rel_refl a : line_rel a a.
Proof. destruct a as [[p l]|]; cbn; [split; [apply same_refl|reflexivity]|exact Logic.I]. Qed.
Lemma line_tidy l : Forall one_duration l -> Forall (fun x => is_durable (i_kind x) = true) l -> forall last st st2 st' l', line_rel st st2 -> run g_implicit_line last st l = Ok (st', l') -> tidy_lines st2 l'.
Proof.
  induction 1 as [|x r PL H IH]; intros DU last st st2 st' l' RL; cbn [run]; [intros [= <- <-]; exact Logic.I|].
  destruct (if i_sel x then g_implicit_line last x st else Ok (st, i_durs x)) as [[s d]|] eqn:G; cbn [bindr]; [|discriminate].
  destruct (run g_implicit_line (step last (with_durs x d)) s r) as [[s' r']|] eqn:R; cbn [bindr]; [|discriminate]. intros [= <- <-].
  cbn [tidy_lines with_durs i_sel i_free i_kind i_blk]. destruct (i_sel x) eqn:SX.
  2:{ injection G as <- <-. cbn [andb]. split; [discriminate|]. eapply IH; [apply (Forall_inv_tail DU)|exact RL|exact R]. }
  cbn [andb].
  assert (REST : forall y, line_rel s y -> tidy_lines y r'). { intros y Y. eapply IH; [apply (Forall_inv_tail DU)|exact Y|exact R]. }
  clear IH. unfold g_implicit_line, on in G. destruct (sounds x) eqn:SO.
  - destruct (written x) as [dur|] eqn:W.
    + destruct (match st with Some (p, b) => dur_eqb dur p && blk_eqb (i_blk x) b | None => false end && i_free x) eqn:E.
      * injection G as <- <-. rewrite (single x PL). change (written {| i_sel := true; i_kind := i_kind x; i_free := i_free x; i_blk := i_blk x; i_durs := [] |}) with (@None (Q*Q)). unfold written. cbn [i_durs with_durs duration_scaling].
        split; [|destruct (sets_previous (i_kind x)); apply REST; exact RL].
        intros _ p b -> _ _. destruct st as [[p0 b0]|]; [|contradiction]. destruct RL as [_ ->]. apply andb_prop in E. destruct E as [E _]. apply andb_prop in E. destruct E as [_ E]. apply blk_eqb_eq in E. auto.
      * assert (s = if sets_previous (i_kind x) then Some (dur, i_blk x) else st) as -> by (destruct (sets_previous (i_kind x)); congruence).
        assert (d = i_durs x) as -> by (destruct (sets_previous (i_kind x)); congruence).
        change (written (with_durs x (i_durs x))) with (written x). rewrite W.
        split; [|apply REST; destruct (sets_previous (i_kind x)); [apply line_rel_refl|exact RL]].
        intros _ p b -> FR SM EB. destruct st as [[p0 b0]|]; [|contradiction]. destruct RL as [RP ->]. rewrite FR, andb_true_r in E.
        assert (T1 : dur_eqb dur p0 = true) by (apply dur_eqb_same; eapply same_trans; [exact SM|apply same_sym; exact RP]). assert (T2 : blk_eqb (i_blk x) b = true) by (apply blk_eqb_eq; auto). rewrite T1, T2 in E. discriminate.
    + assert (D0 : i_durs x = []) by (unfold written in W; destruct (i_durs x); [reflexivity|discriminate]).
      destruct (i_blk x) as [bl|] eqn:BL.
      2:{ injection G as <- <-. change (written (with_durs x (i_durs x))) with (written x). rewrite W. split; [intros _ p b _ _ Z; contradiction|]. destruct (sets_previous (i_kind x)); apply REST; exact RL. }
      destruct st as [[[a c] b0]|].
      2:{ injection G as <- <-. change (written (with_durs x (i_durs x))) with (written x). rewrite W. destruct st2; [contradiction|]. split; [discriminate|]. destruct (sets_previous (i_kind x)); apply REST; exact Logic.I. }
      destruct (negb (blk_eqb b0 (Some bl))) eqn:NB.
      * rewrite D0 in G. destruct (set_ds_nil a c) as (d1 & E1 & SD & _). rewrite E1 in G. cbn [bindr] in G. injection G as <- <-.
        unfold written. cbn [with_durs i_durs duration_scaling]. rewrite (sets_not_skip x (Forall_inv DU) SO D0). split.
        -- intros _ p b -> _ _ EB. destruct RL as [_ ->]. apply (proj2 (blk_eqb_eq b (Some bl))) in EB. rewrite EB in NB. discriminate.
        -- apply REST. cbn. split; [apply same_sym; exact SD|reflexivity].
      * injection G as <- <-. change (written (with_durs x (i_durs x))) with (written x). rewrite W. split; [|destruct (sets_previous (i_kind x)); apply REST; exact RL].
        intros _ p b -> _ _. destruct RL as [_ <-]. apply blk_eqb_eq. destruct (blk_eqb b0 (Some bl)); [reflexivity|discriminate].
  - injection G as <- <-.
    assert (D0 : i_durs x = []). { unfold sounds in SO. destruct (i_durs x); [reflexivity|]. rewrite andb_false_r in SO. discriminate. }
    assert (written (with_durs x (i_durs x)) = None) as -> by (unfold written; cbn; rewrite D0; reflexivity).
    split; [|destruct (sets_previous (i_kind x)); apply REST; exact RL].
    intros _ p b _ SO2. exfalso. rewrite with_same in SO2. congruence.
Qed.

(** implicit(per_line=True) *)
Theorem C61_implicit_per_line : forall inr t, contiguous (document inr t) -> Forall one_duration (document inr t) ->
  exists t', implicit inr true t = Ok t' /\ only_durations inr t t' /\
    Forall2 same (effective quarter (document inr t)) (effective quarter (document inr t')) /\
    Forall2 removed_only (document inr t) (document inr t') /\
    tidy_lines None (document inr t') /\
    Forall2 (fun x y => i_kind x = KSkip -> i_durs x = [] -> y = x) (document inr t) (document inr t').
Proof.
  intros inr t C PL. pose proof (implicit_line_run inr t) as R. unfold implicit.
  destruct (run_total g_implicit_line line_total (document inr t) None None) as (st & l & T).
  destruct (edit p_implicit_line inr None t) as [[s t']|e] eqn:ED; [|congruence]. cbn [bindr]. destruct R as [B R]. exists t'. split; [reflexivity|].
  split; [split; [exact B|eapply run_place; exact R]|]. split; [|split; [|split]].
  - eapply run_contiguous with (I := i_line) (ok := fun x => one_duration x /\ is_durable (i_kind x) = true); [|exact C| | |exact R].
    + intros ? ? ? ? ? ? [? ?]. intros. eapply line_keep; eauto.
    + pose proof (document_durable inr t) as DU. clear -PL DU. rewrite Forall_forall in *. auto.
    + intros p. exact Logic.I.
  - eapply run_each; [| |exact R].
    + intros last x st0 st' d SX G. unfold removed_only. cbn [with_durs i_durs]. intros ->. unfold g_implicit_line, on in G. destruct (sounds x); [|injection G as _ G; auto].
      destruct (written x) eqn:W.
      * destruct (_ && i_free x) eqn:E; [apply andb_prop in E; right; apply E|]. left. destruct (sets_previous (i_kind x)); injection G as _ G; auto.
      * left. unfold written in W. destruct (i_durs x); [reflexivity|discriminate].
    + intros x _ E. auto.
  - eapply line_tidy; [exact PL|apply document_durable|exact (line_rel_refl None)|exact R].
  - eapply run_each; [| |exact R]; [|auto]. intros last x st0 st' d SX G K E. unfold g_implicit_line, on in G. assert (sounds x = false) as SO by (unfold sounds; rewrite K, E; reflexivity).
    rewrite SO in G. injection G as _ <-. apply with_same.
Qed.
Print Assumptions C61_implicit_per_line.

(** ** C62 *)
Lemma remove_total last x st : exists r, g_remove last x st = Ok r.
Proof. unfold g_remove, on. destruct (sounds x); eauto. Qed.

(** remove(): removes precisely the durations of the selected durables that are not needed. *)
Theorem C62_remove : forall inr t, Forall one_duration (document inr t) ->
  exists t', remove inr t = Ok t' /\ only_durations inr t t' /\
    Forall2 (fun x y => i_durs y = if i_sel x && i_free x then [] else i_durs x) (document inr t) (document inr t').
Proof.
  intros inr t PL. pose proof (remove_run inr t) as R. unfold remove.
  destruct (run_total g_remove remove_total (document inr t) None tt) as (st & l & T).
  destruct (edit p_remove inr tt t) as [[s t']|e] eqn:ED; [|congruence]. cbn [bindr]. destruct R as [B R]. exists t'. split; [reflexivity|].
  split; [split; [exact B|eapply run_place; exact R]|].
  assert (F : Forall2 (fun x y => one_duration x -> i_durs y = if i_sel x && i_free x then [] else i_durs x) (document inr t) (document inr t')).
  { eapply run_each; [| |exact R].
    - intros last x st0 st' d SX G P. cbn [with_durs i_durs]. rewrite SX. cbn [andb]. unfold g_remove, on in G. destruct (sounds x) eqn:SO; injection G as _ <-.
      + destruct (i_free x); [apply single; exact P|reflexivity].
      + unfold sounds in SO. destruct (i_durs x); [destruct (i_free x); reflexivity|]. rewrite andb_false_r in SO. discriminate.
    - intros x U _. rewrite U. reflexivity. }
  clear -F PL. induction F; inversion PL; subst; constructor; auto.
Qed.
Print Assumptions C62_remove.

Lemma walled_bare n : forall n', bare n' = bare n -> walled n -> walled n'.
Proof.
  induction n as [k b d kids IH] using rn_ind2. intros [k' b' d' kids'] B. cbn [bare] in B. injection B as -> _ _ B. rewrite !walled_eq.
  assert (K : forall c c', bare c' = bare c -> kind_of c' = kind_of c). { intros [? ? ? ?] [? ? ? ?] E. cbn in E. injection E. auto. }
  assert (F : Forall2 (fun c c' => bare c' = bare c) kids kids').
  { clear -B. revert kids' B. induction kids as [|c r IHr]; intros [|c' r'] B; try discriminate; constructor; cbn in B; injection B; auto. }
  intros [W S]. split.
  - assert (FL : forall tl, followed tl kids -> followed tl kids').
    { intros tl. clear -F K. induction F as [|c c' r r' E F IHF]; [auto|]. cbn [followed]. intros [A C]. split; [|auto]. rewrite (K _ _ E). intros D. specialize (A D).
      destruct F as [|m m' ? ? E2 ?]; [exact A|]. unfold visible in *. rewrite (K _ _ E2). exact A. }
    assert (FD : Forall (fun c => is_durable (kind_of c) = false) kids -> Forall (fun c => is_durable (kind_of c) = false) kids').
    { clear -F K. induction F as [|c c' r r' E F IHF]; [auto|]. intros A. constructor; [rewrite (K _ _ E); exact (Forall_inv A)|apply IHF; exact (Forall_inv_tail A)]. }
    destruct k; auto.
  - clear -F S IH. induction F as [|c c' r r' E F IHF]; [exact Logic.I|]. cbn [walls] in *. destruct S as [S1 S2]. split; [exact (Forall_inv IH _ E S1)|exact (IHF (Forall_inv_tail IH) S2)].
Qed.

Lemma text_kept inr t t' : bare t' = bare t -> Forall2 removed_only (document inr t) (document inr t') -> walled t -> safe (text t) -> walled t' /\ safe (text t').
Proof.
  intros B F W S. pose proof (walled_bare t t' B W) as W'. split; [exact W'|]. apply (text_safe t' W'). eapply sibsafe_kept; [exact B|reflexivity|exact F|]. apply (text_safe t W). exact S.
Qed.

Lemma set_ds_not_nil v durs l : set_duration_scaling (Some v) durs = Ok l -> l <> [].
Proof.
  destruct v as [a b]. unfold set_duration_scaling, set_duration, set_scaling. destruct durs as [|[h [|s ss]] r]; destruct (one_or_none (Some b)); intros [= <-]; discriminate.
Qed.

(** The text written after the edit is safe: no duration is read as the duration of the durable before it.  Partial: in [walled] it is
    required that every durable is followed by a sibling that writes something, or by the tail of its parent. *)
Theorem C62_text_partial : forall inr t t', walled t -> safe (text t) ->
  remove inr t = Ok t' \/ (exists per_line, implicit inr per_line t = Ok t') \/ (exists ds cycle, paste inr ds cycle t = Ok t') \/ (starts_outside_chords inr t /\ explicit inr t = Ok t') ->
  walled t' /\ safe (text t').
Proof.
  intros inr t t' W S [E|[(pl & E)|[(ds & cy & E)|[O E]]]].
  - unfold remove in E. pose proof (remove_run inr t) as R. destruct (edit p_remove inr tt t) as [[s t2]|]; [|discriminate]. cbn [bindr] in E. injection E as ->. destruct R as [B R].
    apply (text_kept inr t); auto. eapply run_each; [| |exact R]; [|intros x _ Z; auto]. intros last x st0 st' d _ G. unfold removed_only. cbn [with_durs i_durs]. intros ->.
    unfold g_remove, on in G. destruct (sounds x); injection G as _ G; [|auto]. destruct (i_free x); auto.
  - unfold implicit in E. destruct pl.
    + pose proof (implicit_line_run inr t) as R. destruct (edit p_implicit_line inr None t) as [[s t2]|]; [|discriminate]. cbn [bindr] in E. injection E as ->. destruct R as [B R].
      apply (text_kept inr t); auto. eapply run_each; [| |exact R]; [|intros x _ Z; auto]. intros last x st0 st' d _ G. unfold removed_only. cbn [with_durs i_durs]. intros ->.
      unfold g_implicit_line, on in G. destruct (sounds x); [|injection G as _ G; auto]. destruct (written x) eqn:WR.
      * destruct (_ && i_free x) eqn:E; [apply andb_prop in E; right; apply E|]. destruct (sets_previous _); injection G as _ G; auto.
      * left. unfold written in WR. destruct (i_durs x); [reflexivity|discriminate].
    + pose proof (implicit_run inr t) as R. destruct (edit p_implicit inr None t) as [[s t2]|]; [|discriminate]. cbn [bindr] in E. injection E as ->. destruct R as [B R].
      apply (text_kept inr t); auto. eapply run_each; [| |exact R]; [|intros x _ Z; auto]. intros last x st0 st' d _ G. unfold removed_only. cbn [with_durs i_durs]. intros ->.
      unfold g_implicit, on in G. destruct (sounds x); [|injection G as _ G; auto]. destruct (written x); [|injection G as _ G; auto].
      destruct (is_prev p st0 && i_free x) eqn:E; [apply andb_prop in E; right; apply E|]. destruct (sets_previous _); injection G as _ G; auto.
  - unfold paste in E. pose proof (paste_run ds cy inr t) as R. destruct (edit (p_paste ds cy) inr (0, None) t) as [[s t2]|]; [|discriminate]. cbn [bindr] in E. injection E as ->. destruct R as [B R].
    apply (text_kept inr t); auto. eapply run_each; [| |exact R]; [|intros x _ Z; auto]. intros last x [i p] st' d _ G. unfold removed_only. cbn [with_durs i_durs]. intros ->.
    unfold g_paste, on in G. destruct (sounds x); [|injection G as _ G; auto]. destruct (match ds with [] => None | _ => _ end) as [[v|]|]; [| |injection G as _ G; auto].
    + destruct (set_duration_scaling (Some v) (i_durs x)) eqn:SD; [|discriminate]. cbn [bindr] in G. injection G as _ ->. apply set_ds_not_nil in SD. contradiction.
    + destruct (i_free x); [auto|]. destruct p as [v|]; [|injection G as _ G; auto]. destruct (set_duration_scaling (Some v) (i_durs x)) eqn:SD; [|discriminate]. cbn [bindr] in G. injection G as _ ->. apply set_ds_not_nil in SD. contradiction.
  - unfold explicit in E. pose proof (explicit_run inr t O) as R. destruct (edit p_explicit inr None t) as [[s t2]|]; [|discriminate]. cbn [bindr] in E. injection E as ->. destruct R as [B R].
    apply (text_kept inr t); auto. eapply run_each; [| |exact R]; [|intros x _ Z; auto]. intros last x st0 st' d _ G. unfold removed_only. cbn [with_durs i_durs]. intros ->.
    unfold g_explicit, on in G. destruct (sounds x); [|injection G as _ G; auto]. destruct (i_durs x); injection G as _ G; auto.
Qed.
Print Assumptions C62_text_partial.

(** ** C63 *)
(** What is in the rhythm of the selection. *)
Definition in_rhythm (x : item) : bool := i_sel x && sounds x.

Lemma copy_list l : forall last out, run g_copy last out l = Ok (out ++ map written (filter in_rhythm l), l).
Proof.
  induction l as [|x r IH]; intros last out; cbn [run filter map]; [rewrite app_nil_r; reflexivity|]. unfold in_rhythm at 1. destruct (i_sel x) eqn:SX.
  - cbn [andb]. unfold g_copy at 1, on. destruct (sounds x); cbn [bindr]; rewrite with_same, IH; cbn [bindr map]; rewrite <- ?app_assoc; reflexivity.
  - cbn [andb bindr]. rewrite with_same, IH. reflexivity.
Qed.
(** copy(): the written durations, None for a durable without one. *)
Theorem C63_copy : forall inr t, copy inr t = Ok (map written (filter in_rhythm (document inr t))).
Proof.
  intros inr t. unfold copy. pose proof (copy_run inr t) as R. rewrite copy_list in R. destruct (edit p_copy inr [] t) as [[s t']|]; [|discriminate]. destruct R as [_ R]. injection R as <- _. reflexivity.
Qed.
Print Assumptions C63_copy.

Lemma copy_explicit_list l : selected l -> Forall (fun x => i_kind x <> KSkip) l -> Forall (fun x => is_durable (i_kind x) = true) l ->
  forall last p out prev, same (odef last) p -> match prev with Some q => same q p | None => True end ->
  exists vs prev', run g_copy_explicit last (out, prev) l = Ok ((out ++ vs, prev'), l) /\ Forall2 same vs (effective p l).
Proof.
  induction 1 as [|x r SX H IH]; intros NS DU last p out prev HL HP; cbn [run].
  - exists [], prev. rewrite app_nil_r. split; [reflexivity|constructor].
  - rewrite SX. unfold g_copy_explicit at 1, on.
    assert (NK : is_skip (i_kind x) = false) by (pose proof (Forall_inv NS) as Z; cbn beta in Z; destruct (i_kind x); try reflexivity; exfalso; apply Z; reflexivity).
    assert (sounds x = true) as -> by (unfold sounds; rewrite NK; reflexivity). cbn [bindr]. rewrite with_same.
    set (v := match written x with Some dur => dur | None => _ end).
    assert (V : same v (now p x)). { unfold v, now. destruct (written x); [apply same_refl|]. destruct prev; [exact HP|exact HL]. }
    assert (SP : sets_previous (i_kind x) = true) by (unfold sets_previous; rewrite (Forall_inv DU), NK; reflexivity).
    destruct (IH (Forall_inv_tail NS) (Forall_inv_tail DU) (step last x) (next p x) (out ++ [v]) (Some v)) as (vs & pr & -> & F).
    + apply next_step. exact HL.
    + unfold next. rewrite SP. exact V.
    + cbn [bindr]. exists (v :: vs), pr. rewrite <- app_assoc. split; [reflexivity|]. cbn [effective]. constructor; [exact V|exact F].
Qed.
(** copy_explicit(): the effective durations of the selected durables.  Partial: there is no \skip in the selection. *)
Theorem C63_copy_explicit_partial : forall inr t a b c, starts_outside_chords inr t ->
  document inr t = a ++ b ++ c -> unselected a -> selected b -> unselected c -> Forall (fun x => i_kind x <> KSkip) b ->
  exists vs, copy_explicit inr t = Ok vs /\ Forall2 same vs (firstn (length b) (skipn (length a) (effective quarter (document inr t)))).
Proof.
  intros inr t a b c O D UA SB UC NS. pose proof (document_durable inr t) as DU. unfold copy_explicit. pose proof (copy_explicit_run inr t O) as R. rewrite D in *.
  apply Forall_app in DU. destruct DU as [_ DU]. apply Forall_app in DU. destruct DU as [DU _].
  rewrite !run_app, (run_unselected _ _ UA) in R. cbn [bindr] in R. rewrite run_app in R.
  assert (HL : forall a l p, same (odef l) p -> same (odef (lasts l a)) (fold_left next a p)).
  { clear. induction a as [|x a IH]; intros l p H; [exact H|]. unfold lasts in *. cbn [fold_left]. apply IH. apply next_step. exact H. }
  destruct (copy_explicit_list b SB NS DU (lasts None a) (fold_left next a quarter) [] None) as (vs & pr & E & F).
  { apply (HL a None quarter). apply same_refl. } { exact Logic.I. }
  rewrite E in R. cbn [bindr app] in R. rewrite (run_unselected _ _ UC) in R. cbn [bindr] in R.
  destruct (edit p_copy_explicit inr ([], None) t) as [[s t']|]; [|discriminate]. destruct R as [_ R]. injection R as <- _. cbn [bindr fst]. exists vs. split; [reflexivity|].
  assert (LE : forall p l, length (effective p l) = length l). { clear. intros p l. revert p. induction l; intros p; cbn; auto. }
  rewrite !effective_app. rewrite skipn_app, (LE quarter a), Nat.sub_diag. rewrite skipn_all2 by (rewrite LE; lia). cbn [skipn app].
  rewrite firstn_app, LE, Nat.sub_diag. cbn [firstn]. rewrite app_nil_r, firstn_all2 by (rewrite LE; lia). exact F.
Qed.
Print Assumptions C63_copy_explicit_partial.

(** The durables in the rhythm of the selection, before and after. *)
Definition pairs (l l' : list item) : list (item * item) := filter (fun p => in_rhythm (fst p)) (combine l l').

Lemma paste_list ds cycle l : ds <> [] -> Forall plain l -> forall last i prev, exists st l', run (g_paste (map Some ds) cycle) last (i, prev) l = Ok (st, l') /\
  forall j x y, nth_error (pairs l l') j = Some (x, y) ->
    if cycle || (i + j <? length ds) then exists v, written y = Some v /\ same v (nth ((i + j) mod length ds) ds (0, 0)%Q) else y = x.
Proof.
  intros N. induction 1 as [|x r PL H IH]; intros last i prev; cbn [run].
  - exists (i, prev), []. split; [reflexivity|]. intros [|j]; discriminate.
  - assert (SKIP : in_rhythm x = false -> (if i_sel x then g_paste (map Some ds) cycle last x (i, prev) else Ok ((i, prev), i_durs x)) = Ok ((i, prev), i_durs x)).
    { unfold in_rhythm, g_paste, on. destruct (i_sel x); [|reflexivity]. cbn [andb]. intros ->. reflexivity. }
    destruct (in_rhythm x) eqn:IR.
    2:{ rewrite SKIP by reflexivity. cbn [bindr]. destruct (IH (step last (with_durs x (i_durs x))) i prev) as (st & l' & -> & F). cbn [bindr]. do 2 eexists. split; [reflexivity|].
      unfold pairs. cbn [combine filter fst]. rewrite IR. exact F. }
    clear SKIP. pose proof IR as IR'. unfold in_rhythm in IR'. apply andb_prop in IR'. destruct IR' as [SX SO]. rewrite SX.
    assert (M : match map Some ds with [] => None | _ => nth_error (map Some ds) (if cycle then i mod length (map Some ds) else i) end = if cycle || (i <? length ds) then Some (Some (nth (i mod length ds) ds (0, 0)%Q)) else None).
    { destruct ds as [|d0 dr] eqn:E; [exfalso; apply N; reflexivity|]. rewrite <- E. replace (match map Some ds with [] => None | _ => nth_error (map Some ds) (if cycle then i mod length (map Some ds) else i) end) with (nth_error (map Some ds) (if cycle then i mod length (map Some ds) else i)) by (rewrite E; reflexivity).
      assert (L : length ds <> 0) by (rewrite E; discriminate). rewrite map_length. destruct cycle; cbn [orb].
      - rewrite nth_error_map. rewrite (nth_error_nth' ds (0,0)%Q) by (apply Nat.mod_upper_bound; exact L). reflexivity.
      - rewrite nth_error_map. destruct (i <? length ds) eqn:LT.
        + apply Nat.ltb_lt in LT. rewrite Nat.mod_small by exact LT. rewrite (nth_error_nth' ds (0,0)%Q) by exact LT. reflexivity.
        + apply Nat.ltb_ge in LT. assert (nth_error ds i = None) as -> by (apply nth_error_None; exact LT). reflexivity. }
    unfold g_paste at 1, on. rewrite SO, M. clear M. destruct (cycle || (i <? length ds)) eqn:CY.
    + destruct (nth (i mod length ds) ds (0,0)%Q) as [a b] eqn:NT. destruct (set_ds_plain a b (i_durs x)) as (d & -> & SD & _); [apply PL|apply PL|]. cbn [bindr].
      destruct (IH (step last (with_durs x [d])) (S i) (Some (a, b))) as (st & l' & -> & F). cbn [bindr]. do 2 eexists. split; [reflexivity|].
      unfold pairs. cbn [combine filter fst]. rewrite IR. intros [|j] x0 y0; cbn [nth_error].
      * intros [= <- <-]. rewrite Nat.add_0_r, CY, NT. exists (dur_value d). split; [reflexivity|exact SD].
      * intros E. specialize (F j x0 y0 E). replace (i + S j) with (S i + j) by lia. exact F.
    + cbn [bindr]. destruct (IH (step last (with_durs x (i_durs x))) i prev) as (st & l' & -> & F). cbn [bindr]. do 2 eexists. split; [reflexivity|].
      apply orb_false_elim in CY. destruct CY as [-> LT]. cbn [orb] in *. apply Nat.ltb_ge in LT. rewrite with_same.
      unfold pairs. cbn [combine filter fst]. rewrite IR. intros [|j] x0 y0; cbn [nth_error].
      * intros [= <- <-]. assert (i + 0 <? length ds = false) as -> by (apply Nat.ltb_ge; lia). reflexivity.
      * intros E. specialize (F j x0 y0 E). assert (i + j <? length ds = false) as Z by (apply Nat.ltb_ge; lia). rewrite Z in F. assert (i + S j <? length ds = false) as -> by (apply Nat.ltb_ge; lia). exact F.
Qed.
(** paste(): the i-th durable gets the (i mod n)-th of n durations; without cycle only the first n durables get one.
    Missing for the full claim: durables with more than one duration or scaling. *)
Theorem C63_paste_partial : forall inr t ds cycle, ds <> [] -> Forall plain (document inr t) ->
  exists t', paste inr (map Some ds) cycle t = Ok t' /\ only_durations inr t t' /\
    forall i x y, nth_error (pairs (document inr t) (document inr t')) i = Some (x, y) ->
      if cycle || (i <? length ds) then exists v, written y = Some v /\ same v (nth (i mod length ds) ds (0, 0)%Q) else y = x.
Proof.
  intros inr t ds cycle N PL. destruct (paste_list ds cycle _ N PL None 0 None) as (st & l & E & F). unfold paste. pose proof (paste_run (map Some ds) cycle inr t) as R.
  destruct (edit _ inr (0, None) t) as [[s t']|]; [|congruence]. destruct R as [B R]. cbn [bindr]. exists t'. split; [reflexivity|]. split; [split; [exact B|eapply run_place; exact R]|].
  rewrite E in R. injection R as _ ->. exact F.
Qed.
Print Assumptions C63_paste_partial.

Lemma paste_any_list ds cycle l : Forall plain l -> forall last i k, k = i \/ pasted ds cycle i = None /\ (forall j, i <= j -> pasted ds cycle j = None) -> i <= k ->
  exists st l', run (g_paste ds cycle) last (i, last_pasted ds cycle i) l = Ok (st, l') /\
  forall j x y, nth_error (pairs l l') j = Some (x, y) ->
    match pasted ds cycle (k + j) with
    | None => y = x
    | Some (Some d) => exists v, written y = Some v /\ same v d
    | Some None => if i_free x then i_durs y = [] else
        match last_pasted ds cycle (k + j) with Some d => exists v, written y = Some v /\ same v d | None => y = x end
    end.
Proof.
  induction 1 as [|x r PL H IH]; intros last i k KI IK; cbn [run].
  - do 2 eexists. split; [reflexivity|]. intros [|j]; discriminate.
  - destruct (in_rhythm x) eqn:IR.
    2:{ assert ((if i_sel x then g_paste ds cycle last x (i, last_pasted ds cycle i) else Ok ((i, last_pasted ds cycle i), i_durs x)) = Ok ((i, last_pasted ds cycle i), i_durs x)) as ->.
      { unfold in_rhythm in IR. unfold g_paste, on. destruct (i_sel x); [|reflexivity]. cbn [andb] in IR. rewrite IR. reflexivity. }
      cbn [bindr]. destruct (IH (step last (with_durs x (i_durs x))) i k KI IK) as (st & l' & -> & F). cbn [bindr]. do 2 eexists. split; [reflexivity|].
      unfold pairs. cbn [combine filter fst]. rewrite IR. exact F. }
    pose proof IR as IR'. unfold in_rhythm in IR'. apply andb_prop in IR'. destruct IR' as [SX SO]. rewrite SX.
    assert (M : match ds with [] => None | _ => nth_error ds (if cycle then i mod length ds else i) end = pasted ds cycle i).
    { unfold pasted. destruct ds as [|d0 dr] eqn:E; [reflexivity|]. rewrite <- E. destruct cycle; [|reflexivity].
      rewrite (nth_error_nth' ds None); [reflexivity|]. apply Nat.mod_upper_bound. rewrite E. discriminate. }
    assert (STEP : forall d s, (if true then g_paste ds cycle last x (i, last_pasted ds cycle i) else Ok s) = Ok ((S i, last_pasted ds cycle (S i)), d) -> pasted ds cycle i <> None ->
      match pasted ds cycle i with
      | None => with_durs x d = x
      | Some (Some e) => exists v, written (with_durs x d) = Some v /\ same v e
      | Some None => if i_free x then d = [] else
        match last_pasted ds cycle i with Some e => exists v, written (with_durs x d) = Some v /\ same v e | None => with_durs x d = x end
      end -> exists st l', (let! (st, d) := g_paste ds cycle last x (i, last_pasted ds cycle i) in let! (st', l') := run (g_paste ds cycle) (step last (with_durs x d)) st r in Ok (st', with_durs x d :: l')) = Ok (st, l') /\
        forall j x0 y, nth_error (pairs (x :: r) l') j = Some (x0, y) ->
          match pasted ds cycle (k + j) with
          | None => y = x0
          | Some (Some d) => exists v, written y = Some v /\ same v d
          | Some None => if i_free x0 then i_durs y = [] else
              match last_pasted ds cycle (k + j) with Some d => exists v, written y = Some v /\ same v d | None => y = x0 end
          end).
    { intros d s -> NN C. cbn [bindr]. assert (k = i) as -> by (destruct KI as [K|[K _]]; [exact K|contradiction]).
      destruct (IH (step last (with_durs x d)) (S i) (S i) (or_introl eq_refl) (le_n _)) as (st & l' & -> & F). cbn [bindr]. do 2 eexists. split; [reflexivity|].
      unfold pairs. cbn [combine filter fst]. rewrite IR. intros [|j] x0 y0; cbn [nth_error].
      - intros [= <- <-]. rewrite Nat.add_0_r. exact C.
      - intros E. specialize (F j x0 y0 E). replace (i + S j) with (S i + j) by lia. exact F. }
    unfold g_paste at 1, on in STEP. rewrite SO, M in STEP. unfold g_paste at 1, on. rewrite SO, M. cbn [last_pasted] in STEP. destruct (pasted ds cycle i) as [[[a b]|]|] eqn:PA.
    + destruct (set_ds_plain a b (i_durs x)) as (d & SD & SE & _); [apply PL|apply PL|]. unfold g_paste at 1, on in STEP. rewrite SO, M, SD in STEP. rewrite SD. cbn [bindr] in *. apply (STEP [d] ((i, None), [])); [reflexivity|discriminate|]. exists (dur_value d). split; [reflexivity|exact SE].
    + unfold g_paste at 1, on in STEP. rewrite SO, M in STEP. destruct (i_free x) eqn:FR.
      * apply (STEP (del_duration (i_durs x)) ((i, None), [])); [reflexivity|discriminate|]. apply single. exact (proj1 PL).
      * destruct (last_pasted ds cycle i) as [[a b]|] eqn:LP.
        -- destruct (set_ds_plain a b (i_durs x)) as (d & SD & SE & _); [apply PL|apply PL|]. rewrite SD in *. cbn [bindr] in *. apply (STEP [d] ((i, None), [])); [reflexivity|discriminate|]. exists (dur_value d). split; [reflexivity|exact SE].
        -- apply (STEP (i_durs x) ((i, None), [])); [reflexivity|discriminate|apply with_same].
    + clear STEP. cbn [bindr]. assert (ALL : forall j, i <= j -> pasted ds cycle j = None).
      { destruct KI as [_|[_ K]]; [|exact K]. intros j L. unfold pasted in *. destruct ds as [|d0 dr]; [reflexivity|]. destruct cycle; [discriminate|]. apply nth_error_None in PA. apply nth_error_None. lia. }
      destruct (IH (step last (with_durs x (i_durs x))) i (S k) (or_intror (conj PA ALL)) ltac:(lia)) as (st & l' & -> & F). cbn [bindr]. do 2 eexists. split; [reflexivity|].
      rewrite with_same. unfold pairs. cbn [combine filter fst]. rewrite IR. intros [|j] x0 y0; cbn [nth_error].
      * intros [= <- <-]. rewrite ALL by lia. reflexivity.
      * intros E. specialize (F j x0 y0 E). replace (k + S j) with (S k + j) by lia. exact F.
Qed.
(** paste() with any list, also with None: then the duration is removed, or if it is needed, it becomes the last pasted one.
    Missing for the full claim: durables with more than one duration or scaling. *)
Theorem C63_paste_any_partial : forall inr t ds cycle, Forall plain (document inr t) ->
  exists t', paste inr ds cycle t = Ok t' /\ only_durations inr t t' /\
    forall i x y, nth_error (pairs (document inr t) (document inr t')) i = Some (x, y) ->
      match pasted ds cycle i with
      | None => y = x
      | Some (Some d) => exists v, written y = Some v /\ same v d
      | Some None => if i_free x then i_durs y = [] else
          match last_pasted ds cycle i with Some d => exists v, written y = Some v /\ same v d | None => y = x end
      end.
Proof.
  intros inr t ds cycle PL. destruct (paste_any_list ds cycle _ PL None 0 0 (or_introl eq_refl) (le_n _)) as (st & l & E & F). unfold paste. pose proof (paste_run ds cycle inr t) as R.
  cbn [last_pasted] in E. destruct (edit _ inr (0, None) t) as [[s t']|]; [|congruence]. destruct R as [B R]. cbn [bindr]. exists t'. split; [reflexivity|]. split; [split; [exact B|eapply run_place; exact R]|].
  rewrite E in R. injection R as _ ->. exact F.
Qed.
Print Assumptions C63_paste_any_partial.

Lemma paste_copy_list cycle ds : forall l pre last prev, ds = pre ++ map written (filter in_rhythm l) -> Forall plain l ->
  Forall (fun x => in_rhythm x = true -> i_durs x = [] -> i_free x = true) l ->
  exists st l', run (g_paste ds cycle) last (length pre, prev) l = Ok (st, l') /\ Forall2 same_written l l'.
Proof.
  induction l as [|x r IH]; intros pre last prev E PL FR; cbn [run].
  - do 2 eexists. split; [reflexivity|constructor].
  - assert (SWR : forall d, same_written x (with_durs x d) -> forall (st : nat * option (Q * Q)) l', Forall2 same_written r l' -> Ok (st, with_durs x d :: l') = Ok (st, with_durs x d :: l') /\ Forall2 same_written (x :: r) (with_durs x d :: l')) by (intros; split; [reflexivity|constructor; assumption]).
    assert (SWX : same_written x (with_durs x (i_durs x))). { rewrite with_same. unfold same_written. destruct (written x); [apply same_refl|exact Logic.I]. }
    destruct (in_rhythm x) eqn:IR.
    + pose proof IR as IR'. unfold in_rhythm in IR'. apply andb_prop in IR'. destruct IR' as [SX SO]. rewrite SX. cbn [filter] in E. rewrite IR in E. cbn [map] in E.
      assert (M : match ds with [] => None | _ => nth_error ds (if cycle then length pre mod length ds else length pre) end = Some (written x)).
      { assert (L : length pre < length ds) by (rewrite E, app_length; cbn; lia). rewrite Nat.mod_small by exact L. destruct ds as [|d0 dr] eqn:ED; [cbn in L; lia|]. rewrite <- ED in *. destruct cycle; rewrite E, nth_error_app2, Nat.sub_diag by lia; reflexivity. }
      unfold g_paste at 1, on. rewrite SO, M.
      assert (E2 : ds = (pre ++ [written x]) ++ map written (filter in_rhythm r)) by (rewrite <- app_assoc; exact E).
      assert (LL : S (length pre) = length (pre ++ [written x])) by (rewrite app_length; cbn; lia).
      destruct (written x) as [[a b]|] eqn:W.
      * destruct (set_ds_plain a b (i_durs x)) as (d & -> & SD & _); [apply (Forall_inv PL)|apply (Forall_inv PL)|]. cbn [bindr]. rewrite LL.
        destruct (IH _ (step last (with_durs x [d])) (Some (a, b)) E2 (Forall_inv_tail PL) (Forall_inv_tail FR)) as (st & l' & -> & F). cbn [bindr]. do 2 eexists. apply SWR; [|exact F].
        unfold same_written. rewrite W. cbn. apply same_sym. exact SD.
      * assert (D0 : i_durs x = []) by (unfold written in W; destruct (i_durs x); [reflexivity|discriminate]). rewrite (Forall_inv FR IR D0). cbn [bindr]. rewrite LL.
        destruct (IH _ (step last (with_durs x (del_duration (i_durs x)))) prev E2 (Forall_inv_tail PL) (Forall_inv_tail FR)) as (st & l' & -> & F). cbn [bindr]. do 2 eexists. apply SWR; [|exact F].
        rewrite D0. cbn. unfold same_written. rewrite W. reflexivity.
    + assert (E2 : ds = pre ++ map written (filter in_rhythm r)) by (cbn [filter] in E; rewrite IR in E; exact E).
      assert ((if i_sel x then g_paste ds cycle last x (length pre, prev) else Ok ((length pre, prev), i_durs x)) = Ok ((length pre, prev), i_durs x)) as ->.
      { unfold in_rhythm in IR. unfold g_paste, on. destruct (i_sel x); [|reflexivity]. cbn [andb] in IR. rewrite IR. reflexivity. }
      cbn [bindr]. destruct (IH pre (step last (with_durs x (i_durs x))) prev E2 (Forall_inv_tail PL) (Forall_inv_tail FR)) as (st & l' & -> & F). cbn [bindr]. do 2 eexists. apply SWR; [exact SWX|exact F].
Qed.
(** Pasting what was copied from the same music changes nothing, if every durable without a duration need not have one.
    Missing for the full claim: durables with more than one duration or scaling, and durables that must have a duration but have none. *)
Theorem C63_paste_copy_partial : forall inr t cycle, Forall plain (document inr t) ->
  Forall (fun x => in_rhythm x = true -> i_durs x = [] -> i_free x = true) (document inr t) ->
  exists ds t', copy inr t = Ok ds /\ paste inr ds cycle t = Ok t' /\ bare t' = bare t /\ Forall2 same_written (document inr t) (document inr t').
Proof.
  intros inr t cycle PL FR. eexists. rewrite C63_copy. destruct (paste_copy_list cycle _ (document inr t) [] None None eq_refl PL FR) as (st & l & E & F).
  unfold paste. cbn [app] in *. pose proof (paste_run (map written (filter in_rhythm (document inr t))) cycle inr t) as R. destruct (edit _ inr (0, None) t) as [[s t']|] eqn:ED; [|cbn [length] in E; congruence].
  destruct R as [B R]. exists t'. split; [reflexivity|]. rewrite ED. split; [reflexivity|]. split; [exact B|]. cbn [length] in E. rewrite E in R. injection R as _ <-. exact F.
Qed.
Print Assumptions C63_paste_copy_partial.

(** ** C64 *)
Lemma transform_node tr right before n :
  handles (kind_of n) = true -> Forall (fun d => length (snd d) <= 1) (durs_of n) ->
  match p_transform tr right before n tt with
  | Ok (_, durs') =>
      match duration_scaling (durs_of n) with
       | None => durs' = []
       | Some (d, s) => exists d' s' e, transform_apply tr d s = Ok (d', s') /\ duration_scaling durs' = Some e /\
            same e (d', match kind_of n with KTempo => s | _ => s' end) /\ length durs' = length (durs_of n)
       end
  | Err e => exists d s, duration_scaling (durs_of n) = Some (d, s) /\ transform_apply tr d s = Err e
  end.
Proof.
  destruct n as [k b durs kids]. cbn [kind_of durs_of]. intros H P. unfold p_transform. cbn [kind_of durs_of]. rewrite H.
  destruct durs as [|[h ss] r]; [reflexivity|]. cbn [duration_scaling]. unfold dur_value at 1 2. cbn [fst snd].
  destruct (transform_apply tr h (fold_left Qmult ss 1%Q)) as [[d' s']|e] eqn:T; cbn [bindr].
  2:{ cbn. exists h, (fold_left Qmult ss 1%Q). split; [reflexivity|exact T]. }
  assert (X : k <> KTempo -> match (let! l := set_duration_scaling (Some (d', s')) ((h, ss) :: r) in Ok (tt, l)) with Ok (_, durs') => exists d2 s2 e, transform_apply tr h (fold_left Qmult ss 1%Q) = Ok (d2, s2) /\ duration_scaling durs' = Some e /\ same e (d2, match k with KTempo => fold_left Qmult ss 1%Q | _ => s2 end) /\ length durs' = length ((h, ss) :: r) | Err e => False end).
  { intros NT. unfold set_duration_scaling, set_duration, set_scaling, one_or_none. pose proof (Forall_inv P) as PS. cbn [snd] in PS.
    assert (K : forall A (a b : A), match k with KTempo => a | _ => b end = b) by (intros; destruct k; auto; contradiction).
    destruct ss as [|s0 [|]]; [| |cbn in PS; lia]; destruct (Qeq_bool s' 1) eqn:E; cbn [bindr remove_all]; do 3 eexists; (split; [exact T|]); (split; [reflexivity|]); (split; [|reflexivity]); rewrite K; split; cbn; try reflexivity;
      try (symmetry; apply Qeq_bool_iff; exact E); apply Qmult_1_l. }
  destruct k; try discriminate H; try (specialize (X ltac:(discriminate)); rewrite T in X; match goal with |- context [set_duration_scaling ?v ?l] => change (set_duration_scaling v l) with (set_duration_scaling (Some (d', s')) ((h, ss) :: r)) end; revert X; destruct (set_duration_scaling (Some (d', s')) ((h, ss) :: r)); cbn [bindr]; [intros X; exact X|intros []]).
  cbn [set_duration bindr]. exists d', s'. eexists. split; [reflexivity|]. split; [reflexivity|]. split; [|reflexivity]. split; cbn; reflexivity.
Qed.

Lemma transform_visit tr inr n : (forall path m d, node_at n path = Some m -> In d (durs_of m) -> length (snd d) <= 1) -> forall path right before,
  match visit (p_transform tr) inr path right before tt n with
  | Ok (_, n') => transformed (fun '(d, s) => transform_apply tr d s) inr path n n'
  | Err e => exists p m d s, node_at n p = Some m /\ inr (path ++ p) = true /\ handles (kind_of m) = true /\ duration_scaling (durs_of m) = Some (d, s) /\ transform_apply tr d s = Err e
  end.
Proof.
  induction n as [k b durs kids IH] using rn_ind2. intros ONE path right before. rewrite visit_eq.
  pose proof (transform_node tr right before (RN k b durs kids)) as TN.
  assert (HEAD : match (if inr path then p_transform tr right before (RN k b durs kids) tt else Ok (tt, durs)) with
    | Ok (_, durs') => if inr path && handles k then
       match duration_scaling durs with
       | None => durs' = []
       | Some (d, s) => exists d' s' e, transform_apply tr d s = Ok (d', s') /\ duration_scaling durs' = Some e /\
            same e (d', match k with KTempo => s | _ => s' end) /\ length durs' = length durs
       end
     else durs' = durs
    | Err e => inr path = true /\ handles k = true /\ exists d s, duration_scaling durs = Some (d, s) /\ transform_apply tr d s = Err e
    end).
  { destruct (inr path) eqn:IN; [|reflexivity]. cbn [andb]. destruct (handles k) eqn:HK.
    - specialize (TN HK). cbn [kind_of durs_of] in TN. assert (P : Forall (fun d => length (snd d) <= 1) durs). { apply Forall_forall. intros d I. apply (ONE [] (RN k b durs kids) d eq_refl I). } specialize (TN P).
      destruct (p_transform tr right before (RN k b durs kids) tt) as [[? ?]|]; [exact TN|]. split; [reflexivity|]. split; [reflexivity|]. exact TN.
    - unfold p_transform. cbn [kind_of durs_of]. rewrite HK. reflexivity. }
  clear TN. destruct (if inr path then p_transform tr right before (RN k b durs kids) tt else Ok (tt, durs)) as [[[] durs']|e]; cbn [bindr].
  2:{ destruct HEAD as (IN & HK & d & s & D & T). exists [], (RN k b durs kids), d, s. rewrite app_nil_r. repeat split; auto. }
  assert (KIDS : forall i0 before, Forall (fun n => (forall path m d, node_at n path = Some m -> In d (durs_of m) -> length (snd d) <= 1) -> forall path right before,
      match visit (p_transform tr) inr path right before tt n with
      | Ok (_, n') => transformed (fun '(d, s) => transform_apply tr d s) inr path n n'
      | Err e => exists p m d s, node_at n p = Some m /\ inr (path ++ p) = true /\ handles (kind_of m) = true /\ duration_scaling (durs_of m) = Some (d, s) /\ transform_apply tr d s = Err e
      end) kids -> (forall i c, nth_error kids i = Some c -> forall path m d, node_at c path = Some m -> In d (durs_of m) -> length (snd d) <= 1) ->
    match visits (p_transform tr) inr path i0 before tt kids with
    | Ok (_, kids') => length kids' = length kids /\ forall i c c', nth_error kids i = Some c -> nth_error kids' i = Some c' -> transformed (fun '(d, s) => transform_apply tr d s) inr (path ++ [i0 + i]) c c'
    | Err e => exists i c p m d s, nth_error kids i = Some c /\ node_at c p = Some m /\ inr (path ++ (i0 + i) :: p) = true /\ handles (kind_of m) = true /\ duration_scaling (durs_of m) = Some (d, s) /\ transform_apply tr d s = Err e
    end).
  { clear. induction kids as [|c r IHr]; intros i0 before IH ONE; cbn [visits]; [split; [reflexivity|]; intros [|i]; discriminate|].
    pose proof (Forall_inv IH (ONE 0 c eq_refl) (path ++ [i0]) (hd_error r) before) as V.
    destruct (visit (p_transform tr) inr (path ++ [i0]) (hd_error r) before tt c) as [[[] c']|e]; cbn [bindr].
    - pose proof (IHr (S i0) (bwd c' ++ before) (Forall_inv_tail IH) (fun i => ONE (S i))) as R. destruct (visits (p_transform tr) inr path (S i0) (bwd c' ++ before) tt r) as [[[] r']|e]; cbn [bindr].
      + destruct R as [L R]. split; [cbn; lia|]. intros [|i] x x'; cbn [nth_error]; [intros [= <-] [= <-]; rewrite Nat.add_0_r; exact V|]. replace (i0 + S i) with (S i0 + i) by lia. apply R.
      + destruct R as (i & x & p & m & d & s & N & A & B). exists (S i), x, p, m, d, s. replace (i0 + S i) with (S i0 + i) by lia. repeat split; auto; apply B.
    - destruct V as (p & m & d & s & N & I & B). exists 0, c, p, m, d, s. rewrite Nat.add_0_r. rewrite <- app_assoc in I. repeat split; auto; apply B. }
  specialize (KIDS 0 before IH). pose proof (KIDS (fun i c N p m d A I => ONE (i :: p) m d (ltac:(cbn [node_at kids_of]; rewrite N; exact A)) I)) as V. clear KIDS.
  destruct (visits (p_transform tr) inr path 0 before tt kids) as [[[] kids']|e]; cbn [bindr].
  - destruct V as [L V]. constructor; auto.
  - destruct V as (i & c & p & m & d & s & N & A & B). exists (i :: p), m, d, s. cbn [node_at kids_of]. rewrite N. repeat split; auto; apply B.
Qed.
(** transform(): exactly the written durations change, each by the transform; it only fails if the transform fails on a written duration.
    Missing for the full claim: durations with more than one scaling (C64_two_scalings_finding). *)
Theorem C64_transform_partial : forall inr tr t, one_scaling t ->
  match rtransform inr tr t with
  | Ok t' => transformed (fun '(d, s) => transform_apply tr d s) (fun p => match p with [] => false | _ => inr p end) [] t t'
  | Err e => exists path n d s, node_at t path = Some n /\ inr path = true /\ handles (kind_of n) = true /\ duration_scaling (durs_of n) = Some (d, s) /\ transform_apply tr d s = Err e
  end.
Proof.
  intros inr tr t ONE. unfold rtransform, edit. pose proof (transform_visit tr (fun p => match p with [] => false | _ => inr p end) t ONE [] None []) as V.
  destruct (visit (p_transform tr) _ [] None [] tt t) as [[[] t']|e]; cbn [bindr]; [exact V|]. destruct V as (p & m & d & s & N & I & R). exists p, m, d, s. cbn [app] in I. destruct p; [discriminate|]. repeat split; auto; apply R.
Qed.
Print Assumptions C64_transform_partial.
(** A quarter note times 2 times 1/2, halved, keeps the second scaling. *)
Theorem C64_two_scalings_finding : let t := RN (KOther true true) None [] [RN KDurable (Some 0) [(1 # 4, [2 # 1; 1 # 2])%Q] []] in
  rtransform (fun _ => true) (Transform 1 0 1) t = Ok (RN (KOther true true) None [] [RN KDurable (Some 0) [(8 # 64, [1 # 2])%Q] []]).
Proof. vm_compute. reflexivity. Qed.
Print Assumptions C64_two_scalings_finding.

(** ** C70 *)
Lemma remove_scaling_one ss : length ss <= 1 -> remove_all ss = [].
Proof. destruct ss as [|s [|]]; auto. cbn. lia. Qed.
Lemma del_scaling_plain x : plain x -> exists durs, del_scaling (i_durs x) = Ok durs /\
  match written x with Some (d, s) => duration_scaling durs = Some (d, 1%Q) | None => durs = [] end.
Proof.
  intros [L P]. unfold del_scaling, set_scaling, written. destruct (i_durs x) as [|[h ss] [|]]; [exists []; split; reflexivity| |cbn in L; lia]. pose proof (Forall_inv P) as PS. cbn [snd] in PS.
  destruct ss as [|s0 [|]]; [| |cbn in PS; lia]; cbn; eexists; split; reflexivity.
Qed.
Definition integral (q : Q) : Prop := exists z, (q == inject_Z z)%Q.
Lemma integral_quot s : Qeq_bool (inject_Z (Z.quot (Qnum s) (Zpos (Qden s)))) s = true <-> integral s.
Proof.
  rewrite Qeq_bool_iff. split; [intros E; exists (Z.quot (Qnum s) (Zpos (Qden s))); symmetry; exact E|].
  intros [z E]. unfold Qeq, inject_Z in *. cbn in *. rewrite Z.mul_1_r in *. rewrite E, Z.quot_mul by lia. reflexivity.
Qed.

(** remove_scaling(): the durations stay, without scaling.
    Missing for the full claim: durations with more than one scaling (C70_two_scalings_finding). *)
Theorem C70_remove_scaling_partial : forall inr t, Forall plain (document inr t) ->
  exists t', remove_scaling inr t = Ok t' /\ only_durations inr t t' /\
    Forall2 (fun x y => written y = if i_sel x then option_map (fun d => (fst d, 1%Q)) (written x) else written x) (document inr t) (document inr t').
Proof.
  intros inr t PL. pose proof (remove_scaling_run inr t) as R. unfold remove_scaling.
  assert (T : forall l last st, Forall plain l -> exists st' l', run g_remove_scaling last st l = Ok (st', l') /\ Forall2 (fun x y => written y = if i_sel x then option_map (fun d => (fst d, 1%Q)) (written x) else written x) l l').
  { clear. intros l last st H. revert last st. induction H as [|x r P H IH]; intros last st; cbn [run]; [do 2 eexists; split; [reflexivity|constructor]|].
    assert (exists d, (if i_sel x then g_remove_scaling last x st else Ok (st, i_durs x)) = Ok (st, d) /\ written (with_durs x d) = if i_sel x then option_map (fun d => (fst d, 1%Q)) (written x) else written x) as (d & -> & W).
    { destruct (i_sel x); [|exists (i_durs x); split; [reflexivity|rewrite with_same; reflexivity]]. unfold g_remove_scaling, on. destruct (sounds x) eqn:SO.
      - destruct (del_scaling_plain x P) as (durs & -> & E). cbn [bindr]. exists durs. split; [reflexivity|]. unfold written at 1. cbn [with_durs i_durs]. destruct (written x) as [[d s]|]; [exact E|rewrite E; reflexivity].
      - exists (i_durs x). split; [reflexivity|]. rewrite with_same. unfold sounds in SO. unfold written. destruct (i_durs x); [reflexivity|]. rewrite andb_false_r in SO. discriminate. }
    cbn [bindr]. destruct (IH (step last (with_durs x d)) st) as (s' & l' & -> & F). cbn [bindr]. do 2 eexists. split; [reflexivity|constructor; assumption]. }
  destruct (T _ None tt PL) as (st & l & E & F). destruct (edit p_remove_scaling inr tt t) as [[s t']|e]; [|congruence]. cbn [bindr]. destruct R as [B R]. exists t'. split; [reflexivity|].
  split; [split; [exact B|eapply run_place; exact R]|]. rewrite E in R. injection R as _ <-. exact F.
Qed.
Print Assumptions C70_remove_scaling_partial.

(** remove_fraction_scaling(): scalings that are not whole numbers are removed.
    Missing for the full claim: durations with more than one scaling. *)
Theorem C70_remove_fraction_scaling_partial : forall inr t, Forall plain (document inr t) ->
  exists t', remove_fraction_scaling inr t = Ok t' /\ only_durations inr t t' /\
    Forall2 (fun x y => match written x with
      | Some (d, s) => (i_sel x = false \/ integral s -> y = x) /\ (i_sel x = true -> ~ integral s -> written y = Some (d, 1%Q))
      | None => y = x end) (document inr t) (document inr t').
Proof.
  intros inr t PL. pose proof (remove_fraction_scaling_run inr t) as R. unfold remove_fraction_scaling.
  assert (T : forall l last st, Forall plain l -> exists st' l', run g_remove_fraction_scaling last st l = Ok (st', l') /\ Forall2 (fun x y => match written x with
      | Some (d, s) => (i_sel x = false \/ integral s -> y = x) /\ (i_sel x = true -> ~ integral s -> written y = Some (d, 1%Q))
      | None => y = x end) l l').
  { clear. intros l last st H. revert last st. induction H as [|x r P H IH]; intros last st; cbn [run]; [do 2 eexists; split; [reflexivity|constructor]|].
    assert (exists d, (if i_sel x then g_remove_fraction_scaling last x st else Ok (st, i_durs x)) = Ok (st, d) /\ match written x with
      | Some (q, s) => (i_sel x = false \/ integral s -> with_durs x d = x) /\ (i_sel x = true -> ~ integral s -> written (with_durs x d) = Some (q, 1%Q))
      | None => with_durs x d = x end) as (d & -> & W).
    { destruct (i_sel x) eqn:SX.
      2:{ exists (i_durs x). split; [reflexivity|]. rewrite with_same. destruct (written x) as [[q s]|]; [|reflexivity]. split; [reflexivity|discriminate]. }
      unfold g_remove_fraction_scaling, on. destruct (sounds x) eqn:SO.
      - unfold scaling. fold (written x). destruct (written x) as [[q s]|] eqn:W; cbn [option_map snd].
        + destruct (Qeq_bool (inject_Z (Z.quot (Qnum s) (Zpos (Qden s)))) s) eqn:E; cbn [negb].
          * apply integral_quot in E. exists (i_durs x). rewrite with_same. split; [reflexivity|]. split; [reflexivity|]. intros _ N. contradiction.
          * destruct (del_scaling_plain x P) as (durs & -> & ED). cbn [bindr]. exists durs. split; [reflexivity|]. rewrite W in ED.
            split; [|intros _ _; exact ED]. intros [Z|Z]; [discriminate|]. apply integral_quot in Z. congruence.
        + exists (i_durs x). rewrite with_same. auto.
      - exists (i_durs x). split; [reflexivity|]. rewrite with_same. unfold sounds in SO. unfold written. destruct (i_durs x); [reflexivity|]. rewrite andb_false_r in SO. discriminate. }
    cbn [bindr]. destruct (IH (step last (with_durs x d)) st) as (s' & l' & -> & F). cbn [bindr]. do 2 eexists. split; [reflexivity|constructor; assumption]. }
  destruct (T _ None tt PL) as (st & l & E & F). destruct (edit p_remove_fraction_scaling inr tt t) as [[s t']|e]; [|congruence]. cbn [bindr]. destruct R as [B R]. exists t'. split; [reflexivity|].
  split; [split; [exact B|eapply run_place; exact R]|]. rewrite E in R. injection R as _ <-. exact F.
Qed.
Print Assumptions C70_remove_fraction_scaling_partial.

(** ** Cases *)
Definition nl (line : nat) (durs : list dnode) : rn := RN KDurable (Some line) durs [].
Definition nt := nl 0.
Definition seq (kids : list rn) : rn := RN (KOther false false) None [] [RN (KOther true true) None [] kids].
(** <c e> *)
Definition ch (durs : list dnode) : rn := RN KDurable (Some 1) durs [RN (KOther true true) None [] [nl 1 []; nl 1 []]].
Definition q4 : dnode := (1 # 4, [])%Q.
Definition q8 : dnode := (1 # 8, [])%Q.
(** { c4 d e8*2/3 f \skip 2 8 <c e> g8 } *)
Definition doc : rn := seq
  [nt [q4]; nt []; nt [(1 # 8, [2 # 3])%Q]; nt []; RN KSkip (Some 0) [(1 # 2, [])%Q] []; RN KUnpitched (Some 1) [q8] []; ch []; nl 1 [q8]].
(** The second to the seventh. *)
Definition part (p : list nat) : bool := match p with 0 :: i :: _ => (1 <=? i) && (i <=? 6) | _ => false end.

Lemma doc_contiguous : contiguous (document part doc).
Proof.
  exists (firstn 1 (document part doc)), (firstn 8 (skipn 1 (document part doc))), (skipn 9 (document part doc)).
  split; [reflexivity|]. split; [|split]; unfold unselected, selected; vm_compute; repeat constructor.
Qed.
Lemma doc_outside : starts_outside_chords part doc.
Proof. unfold starts_outside_chords, doc, seq. cbn. repeat split; intros; try discriminate; try constructor; contradiction. Qed.
Lemma doc_plain : Forall plain (document part doc).
Proof. unfold document, doc, seq. cbn. repeat constructor; cbn; lia. Qed.
Lemma doc_safe : walled doc /\ safe (text doc).
Proof. cbn. repeat split; auto. Qed.
Definition q23 : dnode := (1 # 8, [2 # 3])%Q.
Definition skip2 : rn := RN KSkip (Some 0) [(1 # 2, [])%Q] [].
Definition only8 (line : nat) : rn := RN KUnpitched (Some line) [q8] [].

Example C60_witness : starts_outside_chords part doc /\ contiguous (document part doc) /\
  explicit part doc = Ok (seq [nt [q4]; nt [q4]; nt [q23]; nt [q23]; skip2; only8 1; RN KDurable (Some 1) [q8] [RN (KOther true true) None [] [nl 1 [q8]; nl 1 [q8]]]; nl 1 [q8]]).
Proof. split; [exact doc_outside|]. split; [exact doc_contiguous|vm_compute; reflexivity]. Qed.
(** Finding: notes in a chord are durables too, so they get durations: <c e>4 becomes <c4 e4>4, which is not valid LilyPond. *)
Theorem C60_chord_finding : explicit (fun _ => true) (seq [ch [q4]]) = Ok (seq [RN KDurable (Some 1) [q4] [RN (KOther true true) None [] [nl 1 [q4]; nl 1 [q4]]]]).
Proof. vm_compute. reflexivity. Qed.

Example C61_witness : contiguous (document part doc) /\ Forall plain (document part doc) /\
  implicit (fun _ => true) false doc = Ok (seq [nt [q4]; nt []; nt [q23]; nt []; skip2; only8 1; ch []; nl 1 []]) /\
  (** c4 d / e f8 g8 : on a new line the duration is written. *)
  implicit (fun _ => true) true (seq [nt [q4]; nt [q4]; nl 1 []; nl 1 [q8]; nl 1 [q8]]) = Ok (seq [nt [q4]; nt []; nl 1 [q4]; nl 1 [q8]; nl 1 []]).
Proof. split; [exact doc_contiguous|]. split; [exact doc_plain|]. split; vm_compute; reflexivity. Qed.

(** { c4 8 d4 e4 } : the first duration stays. *)
Example C62_witness : let t := seq [nt [q4]; only8 0; nt [q4]; ch [q4]] in
  Forall plain (document (fun _ => true) t) /\ walled t /\ safe (text t) /\
  remove (fun _ => true) t = Ok (seq [nt [q4]; only8 0; nt []; ch []]).
Proof. cbn zeta. repeat split; auto; try (unfold document, seq; cbn; repeat constructor; cbn; lia); vm_compute; reflexivity. Qed.
(** Finding: with a comment in between, the duration is removed: { c4 %{ %} 8 } becomes { c %{ %} 8 }, read as c8. *)
Theorem C62_comment_finding : let t := seq [nt [q4]; RN KComment None [] []; only8 0] in
  safe (text t) /\ exists t', remove (fun _ => true) t = Ok t' /\ t' = seq [nt []; RN KComment None [] []; only8 0] /\ ~ safe (text t').
Proof. cbn zeta. split; [cbn; tauto|]. eexists. split; [vm_compute; reflexivity|]. split; [reflexivity|]. cbn. tauto. Qed.
(** Finding: the same if the note is the last in a command that has no tail: { \grace c4 8 } becomes { \grace c 8 }. *)
Theorem C62_command_finding : let t := seq [RN (KOther true false) None [] [nt [q4]]; only8 0] in
  safe (text t) /\ exists t', remove (fun _ => true) t = Ok t' /\ t' = seq [RN (KOther true false) None [] [nt []]; only8 0] /\ ~ safe (text t').
Proof. cbn zeta. split; [cbn; tauto|]. eexists. split; [vm_compute; reflexivity|]. split; [reflexivity|]. cbn. tauto. Qed.

Example C63_witness : Forall plain (document part doc) /\
  Forall (fun x => in_rhythm x = true -> i_durs x = [] -> i_free x = true) (document (fun _ => true) (seq [nt [q4]; nt []; nt [q23]; skip2; only8 0])) /\
  copy (fun _ => true) (seq [nt [q4]; nt []; nt [q23]; nt []]) = Ok [Some (1 # 4, 1)%Q; None; Some (1 # 8, 2 # 3)%Q; None] /\
  copy_explicit (fun _ => true) (seq [nt [q4]; nt []; nt [q23]; nt []]) = Ok [(1 # 4, 1)%Q; (1 # 4, 1)%Q; (1 # 8, 2 # 3)%Q; (1 # 8, 2 # 3)%Q] /\
  paste (fun _ => true) (map Some [(1 # 4, 1)%Q; (1 # 8, 2 # 3)%Q]) true (seq [nt []; nt [q8]; nt []]) = Ok (seq [nt [q4]; nt [q23]; nt [q4]]) /\
  paste (fun _ => true) (map Some [(1 # 4, 1)%Q; (1 # 8, 2 # 3)%Q]) false (seq [nt []; nt [q8]; nt []]) = Ok (seq [nt [q4]; nt [q23]; nt []]).
Proof.
  split; [exact doc_plain|]. split; [unfold document, seq; cbn; repeat constructor; cbn; discriminate|]. repeat split; vm_compute; reflexivity.
Qed.
Lemma C63_copy_explicit_witness : let t := seq [nt [q4]; nt []; nt [q23]; nt []] in starts_outside_chords (fun _ => true) t /\ selected (document (fun _ => true) t) /\ Forall (fun x => i_kind x <> KSkip) (document (fun _ => true) t).
Proof. cbn zeta. split; [unfold starts_outside_chords, seq; cbn; repeat split; intros; try discriminate; constructor|]. split; unfold selected, document, seq; cbn; repeat constructor; discriminate. Qed.
(** Finding: copying explicitly does not take into account that a \skip does not change the duration of the next note:
    in { c4 \skip 2 d } the note d is a quarter, but a half is copied. *)
Theorem C63_skip_finding : let t := seq [nt [q4]; skip2; nt []] in
  copy_explicit (fun _ => true) t = Ok [(1 # 4, 1)%Q; (1 # 2, 1)%Q; (1 # 2, 1)%Q] /\
  effective quarter (document (fun _ => true) t) = [(1 # 4, 1)%Q; (1 # 2, 1)%Q; (1 # 4, 1)%Q].
Proof. split; vm_compute; reflexivity. Qed.
(** Finding: pasting gives durations to the notes in a chord too: 4 8 pasted on { <c e> d } gives { <c8 e4>4 d8 }. *)
Theorem C63_chord_finding : paste (fun _ => true) (map Some [(1 # 4, 1)%Q; (1 # 8, 1)%Q]) true (seq [ch []; nt []]) =
  Ok (seq [RN KDurable (Some 1) [q4] [RN (KOther true true) None [] [nl 1 [q8]; nl 1 [q4]]]; nt [q8]]).
Proof. vm_compute. reflexivity. Qed.
(** Finding: pasting the copied rhythm is not always without effect: in { 4 c 8 }, made by hand with c
    not having a duration, c gets one. *)
Theorem C63_paste_copy_finding : let t := seq [RN KUnpitched (Some 0) [q4] []; nt []; only8 0] in
  paste (fun _ => true) [Some (1 # 4, 1)%Q; None; Some (1 # 8, 1)%Q] false t = Ok (seq [RN KUnpitched (Some 0) [q4] []; nt [q4]; only8 0]).
Proof. vm_compute. reflexivity. Qed.

Fixpoint all_one (n : rn) : bool :=
  match n with RN _ _ durs kids => forallb (fun d => length (snd d) <=? 1) durs && forallb all_one kids end.
Lemma all_one_scaling n : all_one n = true -> one_scaling n.
Proof.
  intros A path. revert n A. induction path as [|i path IH]; intros [k b durs kids] A m d; cbn [node_at kids_of]; cbn [all_one] in A; apply andb_prop in A; destruct A as [A1 A2].
  - intros [= <-] I. rewrite forallb_forall in A1. apply Nat.leb_le. apply A1. exact I.
  - destruct (nth_error kids i) as [c|] eqn:N; [|discriminate]. apply IH. rewrite forallb_forall in A2. apply A2. eapply nth_error_In. exact N.
Qed.
Lemma doc_one : one_scaling doc.
Proof. apply all_one_scaling. reflexivity. Qed.
(** Everything gets twice as long, and one dot is added. *)
Example C64_witness : one_scaling doc /\ rtransform part (Transform (-1) 1 1) doc =
  Ok (seq [nt [q4]; nt []; nt [(24 # 64, [2 # 3])%Q]; nt []; RN KSkip (Some 0) [(24 # 16, [])%Q] []; RN KUnpitched (Some 1) [(24 # 64, [])%Q] []; ch []; nl 1 [q8]]).
Proof. split; [exact doc_one|vm_compute; reflexivity]. Qed.
Example C70_witness : Forall plain (document part doc) /\
  remove_scaling part doc = Ok (seq [nt [q4]; nt []; nt [q8]; nt []; skip2; only8 1; ch []; nl 1 [q8]]) /\
  remove_fraction_scaling (fun _ => true) (seq [nt [q23]; nt [(1 # 4, [3 # 1])%Q]]) = Ok (seq [nt [q8]; nt [(1 # 4, [3 # 1])%Q]]).
Proof. split; [exact doc_plain|]. split; vm_compute; reflexivity. Qed.
(** Finding: with two scalings, made by hand, only one is removed (the list is changed while iterating). *)
Theorem C70_two_scalings_finding : remove_scaling (fun _ => true) (seq [nt [(1 # 4, [2 # 3; 3 # 5])%Q]]) = Ok (seq [nt [(1 # 4, [3 # 5])%Q]]).
Proof. vm_compute. reflexivity. Qed.

(** The words of the specification: what is durable (has a duration that music takes over), what sets the duration of the
    next, what handles a duration, what is the text of a lyric item and what is an articulation list. *)
Theorem C62_classes : forall k,
  (is_durable k = true <-> In k [KDurable; KUnpitched; KSkip; KLyricItem]) /\
  (sets_previous k = true <-> In k [KDurable; KUnpitched; KLyricItem]) /\
  (is_skip k = true <-> k = KSkip) /\
  (handles k = true <-> In k [KDurable; KUnpitched; KSkip; KLyricItem; KTempo; KHandle]) /\
  (is_text k = true <-> k = KText) /\
  (is_art k = true <-> k = KArticulations).
Proof.
  intros k. destruct k; cbn; repeat split; intros H; try discriminate; auto 10;
    repeat (destruct H as [H | H]; try discriminate H); try contradiction.
Qed.
Print Assumptions C62_classes.
(** The value of a written duration: the fraction itself and the product of its scalings; 2 * 2/3 * 1/2. *)
Theorem C62_value : forall d ds r, duration_scaling [] = None /\
  duration_scaling ((d, ds) :: r) = Some (d, fold_left Qmult ds 1%Q).
Proof. reflexivity || (intros; split; reflexivity). Qed.
Print Assumptions C62_value.
Example C62_value_witness : exists v, duration_scaling [((1 # 2)%Q, [(2 # 3)%Q; (1 # 2)%Q])] = Some v /\ same v ((1 # 2)%Q, (1 # 3)%Q).
Proof. eexists. split; [reflexivity | split; reflexivity]. Qed.
