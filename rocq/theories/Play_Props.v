(** Property C116: editing durations and the time music takes. *)
From Coq Require Import List ZArith QArith Bool Lia.
From Verif Require Import Base Duration_Model Time_Model Time_Spec Scale_Spec Scale_Proofs Play_Spec Play_Proofs.
From Verif Require Rhythm_Model Rhythm_Spec Rhythm_Proofs Rhythm_Lists Rhythm_Text Rhythm_Props Getter_Model Getter_Spec Getter_Props Play_Heard.
Import ListNotations.
Open Scope nat_scope.

(** All durations in the music with the durations of the document are those that are heard there, in the same order. *)
Theorem C116_score : forall t m, same_document t m -> durations_of (score t m) = heard t.
Proof.
  intros t m D. unfold score. rewrite Play_Heard.heard_eq. pose proof (Play_Heard.durations_length t m D []) as L.
  assert (F : Forall2 (scaled_by 1) (Play_Heard.hear_g Play_Heard.sound [] t) (Play_Heard.hear_g Play_Heard.sound [] t)).
  { generalize (Play_Heard.hear_g Play_Heard.sound [] t). intros l. induction l; constructor; [split; [reflexivity|ring]|assumption]. }
  destruct (play_by 1 m (or_introl (Qeq_refl 1)) _ _ [] [] F L) as (m1 & m2 & E & _ & _ & DS). rewrite app_nil_r in E. rewrite E. exact DS.
Qed.
Print Assumptions C116_score.
(** And they are what a duration getter returns, the way a Time makes one. *)
Theorem C116_getter : forall t, Getter_Spec.flat t -> Getter_Model.calls t Getter_Model.fresh (outermost [] t) = map Some (heard t).
Proof.
  intros t F. rewrite Getter_Props.C72_getter_partial by exact F. unfold heard. rewrite map_map. apply map_ext_in. intros p I. destruct (Play_Heard.outer_node t t [] p eq_refl I) as (m & N).
  unfold Getter_Spec.effective. rewrite N. destruct (Rhythm_Model.durs_of m); reflexivity.
Qed.
Print Assumptions C116_getter.

Lemma F2_impl {A B} (R S : A -> B -> Prop) l l' : (forall x y, R x y -> S x y) -> Forall2 R l l' -> Forall2 S l l'.
Proof. intros H. induction 1; constructor; auto. Qed.
Lemma kept f t t' m : (0 <= f)%Q -> (f == 1)%Q \/ no_references m -> same_document t m -> Forall2 (scaled_by f) (heard t) (heard t') -> forall p, outside_events m p ->
  same (length (score t' m) p) (times f (length (score t m) p)) /\ forall inc, same_position f (position (score t' m) p inc) (position (score t m) p inc).
Proof.
  intros F R D H p O. pose proof (Play_Heard.durations_length t m D []) as L. rewrite <- Play_Heard.heard_eq in L.
  destruct (play_by f m R _ _ [] [] H L) as (m1 & m2 & E1 & E2 & T & _). rewrite app_nil_r in E1, E2. pose proof (out_play m (heard t) p O) as O1. unfold score. rewrite E1, E2 in *. cbn [fst] in *.
  split; [apply length_tempo; assumption|]. intros inc. apply position_tempo; assumption.
Qed.
Lemma same_scaled l l' : Forall2 Rhythm_Spec.same l l' -> Forall2 (scaled_by 1) l l'.
Proof. induction 1 as [|x y l l' [A B] _ IH]; constructor; [|exact IH]. split; [symmetry; exact A|rewrite <- B; ring]. Qed.
Lemma one_times r : same (times 1 r) r. Proof. destruct r; cbn; [ring|reflexivity]. Qed.
Lemma kept_one t t' m : same_document t m -> Forall2 Rhythm_Spec.same (heard t) (heard t') -> forall p, outside_events m p ->
  same (length (score t' m) p) (length (score t m) p) /\ forall inc, same_position 1 (position (score t' m) p inc) (position (score t m) p inc).
Proof.
  intros D H p O. destruct (kept 1 t t' m ltac:(discriminate) (or_introl (Qeq_refl 1)) D (same_scaled _ _ H) p O) as (A & B). split; [|exact B]. eapply same_trans; [exact A|apply one_times].
Qed.

(** Missing for the full claim: notes inside chords, see C116_chord_finding.
    After explicit() everything is as long as it was and at the same position. *)
Theorem C116_explicit_partial : forall inr t m, Rhythm_Spec.starts_outside_chords inr t -> Rhythm_Spec.contiguous (Rhythm_Spec.document inr t) -> no_durations_in_chords t -> same_document t m ->
  exists t', Rhythm_Model.explicit inr t = Ok t' /\ same_document t' m /\
    forall p, outside_events m p -> same (length (score t' m) p) (length (score t m) p) /\ forall inc, same_position 1 (position (score t' m) p inc) (position (score t m) p inc).
Proof.
  intros inr t m O C N D. destruct (Rhythm_Props.C60_explicit inr t O C) as (t' & E & (B & _) & EF & K & _). exists t'. split; [exact E|]. split.
  - eapply Play_Heard.same_document_kept; [exact D|symmetry; exact B|]. unfold Rhythm_Spec.document in K. eapply F2_impl; [|exact K]. intros x y H S. rewrite H by (right; exact S). reflexivity.
  - apply kept_one; [exact D|]. apply (Play_Heard.heard_same inr); [symmetry; exact B|exact N|exact EF].
Qed.
Print Assumptions C116_explicit_partial.
Lemma skips_required inr t : Forall (fun x => Rhythm_Spec.i_kind x = Rhythm_Model.KSkip -> Rhythm_Spec.i_free x = false) (Rhythm_Spec.document inr t).
Proof.
  unfold Rhythm_Spec.document. generalize (fun p => match p with [] => false | _ => inr p end). intros sel. generalize (@nil nat), (@None Rhythm_Model.rn).
  induction t as [k b d kids IH] using Rhythm_Proofs.rn_ind2. intros path right. rewrite Rhythm_Proofs.durables_eq. apply Forall_app. split.
  - destruct (Rhythm_Model.is_durable k); repeat constructor. cbn [Rhythm_Spec.i_kind Rhythm_Spec.i_free]. intros ->. reflexivity.
  - revert IH. generalize 0. induction kids as [|c r IHr]; intros i IH; [constructor|]. cbn [Rhythm_Proofs.flats]. apply Forall_app. split; [apply (Forall_inv IH)|apply IHr; apply (Forall_inv_tail IH)].
Qed.
Lemma F2_and {A B} (P : A -> Prop) (R S : A -> B -> Prop) l l' : Forall P l -> Forall2 R l l' -> Forall2 S l l' -> Forall2 (fun x y => P x /\ R x y /\ S x y) l l'.
Proof. intros HP HR. revert HP. induction HR; intros HP HS; inversion HS; inversion HP; subst; constructor; auto. Qed.
(** Missing for the full claim: durations that are written inside chords, or twice.
    After implicit() too, with or without writing the duration once on every line. *)
Theorem C116_implicit_partial : forall inr per_line t m, Rhythm_Spec.contiguous (Rhythm_Spec.document inr t) -> Forall Rhythm_Spec.one_duration (Rhythm_Spec.document inr t) ->
  no_durations_in_chords t -> same_document t m ->
  exists t', Rhythm_Model.implicit inr per_line t = Ok t' /\ same_document t' m /\
    forall p, outside_events m p -> same (length (score t' m) p) (length (score t m) p) /\ forall inc, same_position 1 (position (score t' m) p inc) (position (score t m) p inc).
Proof.
  intros inr per_line t m C P N D. pose proof (skips_required inr t) as SR.
  assert (G : exists t', Rhythm_Model.implicit inr per_line t = Ok t' /\ Rhythm_Spec.bare t' = Rhythm_Spec.bare t /\
    Forall2 Rhythm_Spec.same (Rhythm_Spec.effective Rhythm_Spec.quarter (Rhythm_Spec.document inr t)) (Rhythm_Spec.effective Rhythm_Spec.quarter (Rhythm_Spec.document inr t')) /\
    Forall2 Play_Heard.skip_kept (Rhythm_Spec.document inr t) (Rhythm_Spec.document inr t')).
  { destruct per_line.
    - destruct (Rhythm_Props.C61_implicit_per_line inr t C P) as (t' & E & (B & _) & EF & K & _ & K2). exists t'. split; [exact E|]. split; [exact B|]. split; [exact EF|].
      eapply F2_impl; [|exact (F2_and _ _ _ _ _ SR K K2)]. intros x y (H1 & H2 & H3) S. specialize (H1 S). specialize (H3 S). unfold Rhythm_Text.removed_only in H2. split; intros X Y.
      + destruct (H2 Y) as [Z|Z]; [contradiction|congruence].
      + rewrite (H3 Y) in X. contradiction.
    - destruct (Rhythm_Props.C61_implicit inr t C P) as (t' & E & (B & _) & EF & K & _). exists t'. split; [exact E|]. split; [exact B|]. split; [exact EF|].
      eapply F2_impl; [|exact (F2_and _ _ _ _ _ SR K K)]. intros x y (H1 & H2 & _) S. specialize (H1 S). destruct H2 as [->|[Z _]]; [reflexivity|congruence]. }
  destruct G as (t' & E & B & EF & K). exists t'. split; [exact E|]. split.
  - eapply Play_Heard.same_document_kept; [exact D|symmetry; exact B|exact K].
  - apply kept_one; [exact D|]. apply (Play_Heard.heard_same inr); [symmetry; exact B|exact N|exact EF].
Qed.
Print Assumptions C116_implicit_partial.

(** Missing for the full claim: music that begins without a duration, see C116_default_finding, and references to music outside the document.
    Scaling all durations of a document scales all lengths and positions. *)
Theorem C116_scale_partial : forall f t m, (0 <= f)%Q -> Rhythm_Model.is_durable (Rhythm_Model.kind_of t) = false -> Rhythm_Spec.one_scaling t -> begins_written t -> no_references m -> same_document t m ->
  exists t', Rhythm_Model.rtransform (fun _ => true) (Transform 0 0 f) t = Ok t' /\ same_document t' m /\
    forall p, outside_events m p -> same (length (score t' m) p) (times f (length (score t m) p)) /\ forall inc, same_position f (position (score t' m) p inc) (position (score t m) p inc).
Proof.
  intros f t m F DU ONE BW NR D. pose proof (Rhythm_Props.C64_transform_partial (fun _ => true) (Transform 0 0 f) t ONE) as T.
  destruct (Rhythm_Model.rtransform (fun _ => true) (Transform 0 0 f) t) as [t'|e]; [|destruct T as (? & ? & d & s & _ & _ & _ & _ & X); discriminate]. exists t'. split; [reflexivity|]. split.
  - eapply Play_Heard.transformed_skip; [exact D|exact T].
  - apply kept; [exact F|right; exact NR|exact D|]. rewrite !Play_Heard.heard_eq, !Play_Heard.hear_odef.
    assert (S : Forall2 (Play_Heard.scaledo f) (Play_Heard.hear_g Play_Heard.soundo [] t) (Play_Heard.hear_g Play_Heard.soundo [] t')).
    { eapply Play_Heard.scaled_root; [| |exact DU|exact T].
      - intros d s. do 2 eexists. split; [reflexivity|]. split; cbn; [reflexivity|ring].
      - intros [|x p] X; [contradiction|reflexivity]. }
    assert (W : Forall (fun v => v <> None) (Play_Heard.hear_g Play_Heard.soundo [] t)).
    { pose proof (Play_Heard.heard_hear Play_Heard.soundo t t [] eq_refl) as E. change (map snd (Getter_Model.backward t [])) with (@nil Rhythm_Model.rn) in E. rewrite <- E. rewrite Forall_forall. intros v I. apply in_map_iff in I. destruct I as (p & <- & I).
      destruct (Play_Heard.outer_node t t [] p eq_refl I) as (n & N). unfold Play_Heard.at_path, Play_Heard.soundo. rewrite N. destruct (Rhythm_Model.durs_of n) as [|x r] eqn:DN; [|discriminate]. cbn [Rhythm_Model.duration_scaling].
      destruct (BW p n I N) as [X|(q & c & IC & DC & EC)]; [congruence|]. rewrite Play_Heard.event_sets in EC. assert (IC' : In c (map snd (Getter_Model.backward t p))) by (apply in_map_iff; exists (q, c); auto).
      clear - IC' DC EC. induction (map snd (Getter_Model.backward t p)) as [|y l IH]; [contradiction|]. rewrite Rhythm_Proofs.search_cons. destruct IC' as [->|IC'].
      - rewrite EC. destruct (Rhythm_Model.durs_of c); [contradiction|]. discriminate.
      - destruct (Rhythm_Model.sets_previous (Rhythm_Model.kind_of y)); [destruct (Rhythm_Model.duration_scaling (Rhythm_Model.durs_of y)); [discriminate|]|]; apply IH; exact IC'. }
    clear - S W. induction S as [|a b l l' R _ IH]; [constructor|]. cbn [map]. constructor; [|apply IH; apply (Forall_inv_tail W)]. apply Forall_inv in W. destruct a, b; cbn in R; try contradiction. exact R.
Qed.
Print Assumptions C116_scale_partial.

(** ** Cases *)
Fixpoint silentb (n : Rhythm_Model.rn) : bool := match n with Rhythm_Model.RN _ _ d kids => match d with [] => true | _ => false end && forallb silentb kids end.
Fixpoint quietb (n : Rhythm_Model.rn) : bool := match n with Rhythm_Model.RN k _ _ kids => (if event_class k then forallb silentb kids else true) && forallb quietb kids end.
Lemma silentb_ok n : silentb n = true -> forall q c, Getter_Model.node_at n q = Some c -> Rhythm_Model.durs_of c = [].
Proof.
  induction n as [k b d kids IH] using Rhythm_Proofs.rn_ind2. cbn [silentb]. intros H q c N. apply andb_prop in H. destruct H as [H1 H2]. rewrite forallb_forall in H2. rewrite Forall_forall in IH. destruct q as [|i q]; cbn [Getter_Model.node_at Rhythm_Model.kids_of] in N.
  - injection N as <-. destruct d; [reflexivity|discriminate].
  - destruct (nth_error kids i) as [x|] eqn:X; [|discriminate]. apply nth_error_In in X. exact (IH x X (H2 x X) q c N).
Qed.
Lemma quietb_ok n : quietb n = true -> no_durations_in_chords n.
Proof.
  induction n as [k b d kids IH] using Rhythm_Proofs.rn_ind2. cbn [quietb]. intros H p q m c N E Q NQ. apply andb_prop in H. destruct H as [H1 H2]. rewrite forallb_forall in H2. rewrite Forall_forall in IH. destruct p as [|i p]; cbn [Getter_Model.node_at Rhythm_Model.kids_of] in N.
  - injection N as <-. cbn [Rhythm_Model.kind_of] in E. rewrite E in H1. rewrite forallb_forall in H1. destruct q as [|j q]; [contradiction|]. cbn [Getter_Model.node_at Rhythm_Model.kids_of] in NQ. destruct (nth_error kids j) as [x|] eqn:X; [|discriminate]. apply nth_error_In in X. exact (silentb_ok x (H1 x X) q c NQ).
  - destruct (nth_error kids i) as [x|] eqn:X; [|discriminate]. apply nth_error_In in X. exact (IH x X (H2 x X) p q m c N E Q NQ).
Qed.
Definition any : Q * Q := (1, 1)%Q.
Definition note : mn := MN (Note 1 1) None None [].
(** { c4 d e8*2/3 f \skip 2 8 <c e> g8 }, with other durations, as both trees. *)
Definition music : mn := MN Other None None [MN MusicList None None
  [MN (Note 1 1) None None [MN Duration None None []]; note; MN (Note 1 1) None None [MN Duration None None []]; note; MN (Skip 1 1) None None [MN Duration None None []]; MN (Durable 1 1) None None [MN Duration None None []];
   MN (Chord 1 1) None None [MN Other None None [note; note]]; note]].
Lemma music_same : same_document Rhythm_Props.doc music.
Proof.
  unfold Rhythm_Props.doc, Rhythm_Props.seq, music, note, Rhythm_Props.nt, Rhythm_Props.nl, Rhythm_Props.ch.
  apply same_other; [reflexivity|discriminate|reflexivity|]. apply same_child; [|apply same_nil]. apply same_other; [reflexivity|discriminate|reflexivity|].
  repeat (apply same_child; [first [apply same_event; reflexivity|apply same_skip; [split; [intros _; eexists; split; [left; reflexivity|reflexivity]|intros _; discriminate]|apply same_duration; apply same_nil]]|]). apply same_nil.
Qed.
Lemma music_out : outside_events music [0; 7].
Proof.
  intros [|a [|b q]] r n E R N; cbn in E; [cbn in N; injection N as <-; reflexivity| |].
  - injection E as <- _. cbn in N. injection N as <-. reflexivity.
  - injection E as _ _ E. symmetry in E. apply app_eq_nil in E. destruct E as [_ E]. contradiction.
Qed.
Example C116_witness : same_document Rhythm_Props.doc music /\ no_durations_in_chords Rhythm_Props.doc /\ outside_events music [0; 7] /\ Getter_Spec.flat Rhythm_Props.doc /\
  heard Rhythm_Props.doc = [(1 # 4, 1); (1 # 4, 1); (1 # 8, 2 # 3); (1 # 8, 2 # 3); (1 # 2, 1); (1 # 8, 1); (1 # 8, 1); (1 # 8, 1)]%Q /\
  match position (score Rhythm_Props.doc music) [0; 7] false with Ok (_, q) => (q == 17 # 12)%Q | Err _ => False end.
Proof.
  split; [exact music_same|]. split; [apply quietb_ok; reflexivity|]. split; [exact music_out|]. split; [apply Getter_Props.flatb_flat; reflexivity|]. split; vm_compute; reflexivity.
Qed.
Example C116_scale_witness : Rhythm_Spec.one_scaling Rhythm_Props.doc /\ begins_written Rhythm_Props.doc /\ no_references music /\
  exists t', Rhythm_Model.rtransform (fun _ => true) (Transform 0 0 (3 # 2)) Rhythm_Props.doc = Ok t' /\ match position (score t' music) [0; 7] false with Ok (_, q) => (q == 17 # 8)%Q | Err _ => False end.
Proof.
  split; [exact Rhythm_Props.doc_one|]. split; [|split].
  - intros p n I N. cbn in I. decompose [or] I; try contradiction; subst p; cbn in N; injection N as <-; try (left; discriminate); right;
      exists [0; 0], (Rhythm_Props.nt [Rhythm_Props.q4]); (split; [|split; [discriminate|reflexivity]]); vm_compute; tauto.
  - repeat (constructor; [discriminate|]; intros ? ?; cbn in *; repeat match goal with H : _ \/ _ |- _ => destruct H as [<-|H] | H : False |- _ => contradiction end).
  - eexists. split; [vm_compute; reflexivity|]. vm_compute. reflexivity.
Qed.
(** Finding: in { c d4 } made twice as long the first note stays a quarter. *)
Theorem C116_default_finding : let t := Rhythm_Props.seq [Rhythm_Props.nt []; Rhythm_Props.nt [Rhythm_Props.q4]] in
  exists t', Rhythm_Model.rtransform (fun _ => true) (Transform 0 0 2) t = Ok t' /\ heard t = [(1 # 4, 1); (1 # 4, 1)]%Q /\ heard t' = [(1 # 4, 1); (1 # 4, 2)]%Q.
Proof. eexists. split; [vm_compute; reflexivity|]. split; vm_compute; reflexivity. Qed.
Print Assumptions C116_default_finding.
(** Finding: a note in the chord in { f8 <c e>4 } is an eighth, and a quarter after explicit(). *)
Theorem C116_chord_finding : let t := Rhythm_Props.seq [Rhythm_Props.nt [Rhythm_Props.q8]; Rhythm_Props.ch [Rhythm_Props.q4]] in
  exists t', Rhythm_Model.explicit (fun _ => true) t = Ok t' /\ Getter_Spec.effective t [0; 1; 0; 0] = Some (1 # 8, 1)%Q /\ Getter_Spec.effective t' [0; 1; 0; 0] = Some (1 # 4, 1)%Q.
Proof. eexists. split; [vm_compute; reflexivity|]. split; vm_compute; reflexivity. Qed.
Print Assumptions C116_chord_finding.
