(** Properties C31-C34: key signatures. *)
From Coq Require Import String Ascii List ZArith QArith Lqa Bool Lia.
From Coq Require Import ZifyBool ZifyNat.
From Verif Require Import Base Pitch_Model Pitch_Spec Pitch_Proofs Key_Model Key_Spec Key_Proofs.
Import ListNotations.
Open Scope Z_scope.

(** ** C31: alterations *)

Theorem C31_alterations : forall off s, s <> [] ->
  List.length (alterations off s) = List.length s /\
  (forall i, 0 <= i < Z.of_nat (List.length s) ->
    (at_ (alterations off s) i + mode_degree s 0 i == mode_degree s off i)%Q /\ (at_ (alterations 0 s) i == 0)%Q) /\
  (forall k, alterations (off + k * Z.of_nat (List.length s)) s = alterations off s).
Proof.
  intros off s N. split; [now apply alterations_length|]. split.
  - intros i I. split; [|now apply at_zero_alterations]. rewrite alterations_nth by assumption. ring.
  - intros k. now apply alterations_periodic.
Qed.
Print Assumptions C31_alterations.

(** Without a scale, the major scale is used. *)
Theorem C31_default : forall off, alterations off [] = alterations off major_scale.
Proof. reflexivity. Qed.
Print Assumptions C31_default.

Example C31_witness : (* dorian: a minor third and a minor seventh *)
  map Qred (alterations (-6) []) = [0; 0; -1#2; 0; 0; 0; -1#2]%Q /\ major_scale <> [].
Proof. split; [vm_compute; reflexivity|discriminate]. Qed.

(** ** C32: accidentals *)

(** The letter of degree [i] above the tonic, with its accidental, sounds at
    the tonic plus the [i]-th degree of the mode. *)
Theorem C32_accidentals : forall note alter mode s, s <> [] -> List.length mode = List.length s ->
  List.length (accidentals note alter (Some mode) s) = List.length s /\
  forall i, 0 <= i < Z.of_nat (List.length s) ->
   (degree s (note + i) + at_ (accidentals note alter (Some mode) s) ((note + i) mod Z.of_nat (List.length s))
    == degree s note + alter + (mode_degree s 0 i + at_ mode i))%Q.
Proof. intros note alter mode s N L. split; [now apply accidentals_length|]. intros i I. now apply accidentals_nth. Qed.
Print Assumptions C32_accidentals.

(** The named modes have the semitones of the theory books. *)
Theorem C32_named_modes : forall note alter name semis, In (name, semis) mode_semitones ->
  exists ks, make_key note alter (ModeName name) [] = Ok ks /\
  forall i, 0 <= i < 7 ->
   (degree major_scale (note + i) + at_ (k_accidentals ks) ((note + i) mod 7)
    == degree major_scale note + alter + inject_Z (nth (Z.to_nat i) semis 0%Z) / 2)%Q.
Proof.
  intros note alter name semis I.
  assert (E : exists o, dget str_eqb mode_offset name = Some o /\
    forall i, 0 <= i < 7 -> (mode_degree major_scale 0 i + at_ (alterations o []) i == inject_Z (nth (Z.to_nat i) semis 0%Z) / 2)%Q).
  { cbn [mode_semitones In] in I.
    destruct I as [E|[E|[E|[E|[E|[E|[E|[E|[E|[]]]]]]]]]]; injection E as <- <-;
    (eexists; split; [vm_compute; reflexivity|]); intros i L;
    (assert (D : i = 0 \/ i = 1 \/ i = 2 \/ i = 3 \/ i = 4 \/ i = 5 \/ i = 6) by lia);
    (destruct D as [->|[->|[->|[->|[->|[->| ->]]]]]]; vm_compute; reflexivity). }
  destruct E as (o & D & S). unfold make_key. rewrite D. cbn [bindr]. eexists. split; [reflexivity|]. intros i L. cbn [k_accidentals or_major].
  rewrite <- (S i L). apply (proj2 (C32_accidentals note alter (alterations o []) major_scale ltac:(discriminate) (alterations_length o major_scale ltac:(discriminate)))).
  exact L.
Qed.
Print Assumptions C32_named_modes.

Theorem C32_major : forall note alter s, s <> [] ->
  accidentals note alter None s = accidentals note alter (Some (alterations 0 s)) s.
Proof. intros note alter s N. unfold accidentals. now rewrite or_major_id. Qed.
Print Assumptions C32_major.

Example C32_witness : (* e-flat minor *)
  map Qred (accidentals 2 (-1#2) (Some (alterations 5 [])) []) = [-1#2; -1#2; -1#2; 0; -1#2; -1#2; -1#2]%Q /\
  List.length (alterations 5 []) = List.length major_scale.
Proof. split; vm_compute; reflexivity. Qed.

(** ** C33: tonic *)

(** The signature of tonic(sf) in the major mode has the sharps or flats that
    belong to [sf], on the right letters, and they add up to [sf].  Any mode
    (given by its degree [m] of the major scale) has the same signature on the
    tonic so many fifths higher; 3 for minor. *)
Theorem C33_tonic : forall sf m letter, 0 <= m < 7 -> 0 <= letter < 7 ->
  let t := tonic (sf + fifths m) [] in
  (at_ (accidentals (fst t) (snd t) (Some (alterations m [])) []) letter == inject_Z (sharps_on sf letter) / 2)%Q.
Proof. intros sf m letter M L t. apply signature_spec; auto. Qed.
Print Assumptions C33_tonic.

Lemma fifths_minor : fifths 0 = 0 /\ fifths 5 = 3.
Proof. split; reflexivity. Qed.

Theorem C33_count : forall sf, let t := tonic sf [] in
  0 <= fst t <= 6 /\ (sum (accidentals (fst t) (snd t) None []) == inject_Z sf / 2)%Q.
Proof.
  intros sf t. split.
  - destruct (tonic_spec sf [] (or_introl eq_refl)) as [A _]. unfold t. rewrite A. pose proof (Z.mod_pos_bound (4 * sf) 7). lia.
  - rewrite <- tonic_signature_sum.
    assert (X : forall letter, 0 <= letter < 7 -> (at_ (accidentals (fst t) (snd t) None []) letter == inject_Z (sharps_on sf letter) / 2)%Q).
    { intros letter L. change (accidentals (fst t) (snd t) None []) with (accidentals (fst t) (snd t) (Some (alterations 0 [])) []).
      unfold t. replace sf with (sf + fifths 0) at 1 2 by (cbn; lia). apply signature_spec; [auto|lia|exact L]. }
    assert (LEN : List.length (accidentals (fst t) (snd t) None []) = 7%nat).
    { change (accidentals (fst t) (snd t) None []) with (accidentals (fst t) (snd t) (Some (alterations 0 [])) major_scale).
      now rewrite accidentals_length. }
    destruct (accidentals (fst t) (snd t) None []) as [|a0 [|a1 [|a2 [|a3 [|a4 [|a5 [|a6 [|]]]]]]]]; try discriminate.
    cbn [map sum]. pose proof (X 0 ltac:(lia)) as X0. pose proof (X 1 ltac:(lia)) as X1. pose proof (X 2 ltac:(lia)) as X2.
    pose proof (X 3 ltac:(lia)) as X3. pose proof (X 4 ltac:(lia)) as X4. pose proof (X 5 ltac:(lia)) as X5. pose proof (X 6 ltac:(lia)) as X6.
    unfold at_ in *. change (a0 == inject_Z (sharps_on sf 0) / 2)%Q in X0. change (a1 == inject_Z (sharps_on sf 1) / 2)%Q in X1.
    change (a2 == inject_Z (sharps_on sf 2) / 2)%Q in X2. change (a3 == inject_Z (sharps_on sf 3) / 2)%Q in X3.
    change (a4 == inject_Z (sharps_on sf 4) / 2)%Q in X4. change (a5 == inject_Z (sharps_on sf 5) / 2)%Q in X5.
    change (a6 == inject_Z (sharps_on sf 6) / 2)%Q in X6. rewrite X0, X1, X2, X3, X4, X5, X6. reflexivity.
Qed.
Print Assumptions C33_count.

Example C33_witness : (* four flats: a-flat; nine sharps: d-sharp *)
  fst (tonic (-4) []) = 5 /\ (snd (tonic (-4) []) == -(1#2))%Q /\ fst (tonic 9 []) = 1 /\ (snd (tonic 9 []) == 1#2)%Q /\
  map (sharps_on 9) [0; 1; 2; 3; 4; 5; 6] = [2; 1; 1; 2; 1; 1; 1] /\ map (sharps_on (-4)) [0; 1; 2; 3; 4; 5; 6] = [0; -1; -1; 0; 0; -1; -1].
Proof. repeat split; vm_compute; reflexivity. Qed.

(** ** C34: MIDI keys *)

(** Every list of seven semitone alterations is allowed as mode, and every
    list of flats.  Keys that are in the scale get the scale's spelling; the
    pitch sounds as the key, up to octaves; and exactly if it is altered by no more
    than 5 semitones.  [sem] is the number of semitones of the tonic above c. *)
Theorem C34_key_pitch : forall note alter mode flats key sem ks,
  0 <= note <= 6 -> List.length mode = 7%nat -> Forall half mode -> half alter ->
  ((alter + nth (Z.to_nat note) major_scale 0) * 2 == inject_Z sem)%Q -> -12 <= sem <= 12 ->
  make_key note alter (ModeList mode) [] = Ok ks ->
  exists p, key_pitch ks key (Some flats) = Ok p /\ 0 <= Pitch_Model.note p <= 6 /\
    (exists k, to_midi major_scale p = key + 12 * k) /\
    ((-(5#2) <= Pitch_Model.alter p <= 5#2)%Q -> to_midi major_scale p = key) /\
    (forall n, 0 <= n <= 6 -> (exists k, ((nth (Z.to_nat n) major_scale 0 + at_ (k_accidentals ks) n) * 2 == inject_Z (key + 12 * k))%Q) ->
      Pitch_Model.alter p = at_ (k_accidentals ks) (Pitch_Model.note p)).
Proof.
  intros note alter mode flats key sem ks N LM HM HA S B MK. unfold make_key in MK. cbn [or_major bindr] in MK. injection MK as <-.
  assert (HS : Forall half major_scale) by (unfold major_scale; repeat constructor; [exists 0|exists 2|exists 4|exists 5|exists 7|exists 9|exists 11]; vm_compute; reflexivity).
  assert (I : 0 <= key mod 12 < 12) by (apply Z.mod_pos_bound; lia).
  destruct (key_steps_spec note alter mode major_scale flats sem major_flats ltac:(discriminate) ltac:(cbn; lia) LM HS HM HA
    ltac:(rewrite <- S; change (scale_at major_scale 0) with 0%Q; unfold scale_at; ring) B (key mod 12) I) as ([n a] & E & [SN (k & SK)] & D).
  cbn [fst snd] in SN, SK, D. unfold key_pitch. cbn [k_flats]. rewrite E. eexists. split; [reflexivity|]. cbn [Pitch_Model.note Pitch_Model.alter octave].
  change (zlen major_scale) with 7 in SN.
  assert (M : to_midi major_scale (Pitch (key / 12 + (step_octave (inject_Z n + a) - 5)) n a) = key + 12 * (step_octave (inject_Z n + a) + k)).
  { unfold to_midi. cbn [octave Pitch_Model.note Pitch_Model.alter]. apply Qtrunc_int. rewrite SK, <- inject_Z_plus.
    replace ((key / 12 + (step_octave (inject_Z n + a) - 5) + 5) * 12 + (key mod 12 + 12 * k)) with (key + 12 * (step_octave (inject_Z n + a) + k)); [reflexivity|].
    pose proof (Z.div_mod key 12). lia. }
  split; [lia|]. split; [eexists; exact M|]. split.
  - intros BA. rewrite M. rewrite (step_octave_spec n a (key mod 12) k SN I SK BA). lia.
  - intros n' N' (k' & K'). destruct D as [D|D]; [exact D|]. elim (D n' ltac:(change (zlen major_scale) with 7; lia) (k' + key / 12)).
    rewrite K'. pose proof (Z.div_mod key 12 ltac:(lia)) as DM.
    replace (key mod 12 + 12 * (k' + key / 12)) with (key + 12 * k') by lia. reflexivity.
Qed.
Print Assumptions C34_key_pitch.

Definition std_alters : list Q := [-1; -1#2; 0; 1#2; 1]%Q.

Lemma half_dec q k : (q * 2 == inject_Z k)%Q -> half q.
Proof. now exists k. Qed.

Definition halfb (q : Q) : bool := Qeq_bool (q * 2) (inject_Z (Qround.Qfloor (q * 2))).
Lemma halfb_half l : forallb halfb l = true -> Forall half l.
Proof.
  rewrite forallb_forall, Forall_forall. intros H x I. eexists. apply Qeq_bool_iff. apply H. exact I.
Qed.

Definition small_steps (note : Z) (alter : Q) (o : Z) : bool :=
  forallb (fun na : Z * Q => Qle_bool (-(3#2)) (snd na) && Qle_bool (snd na) (3#2))
    (key_steps (KeySignature note alter major_scale (accidentals note alter (Some (alterations o [])) major_scale) major_flats) major_flats).

(** All standard key signatures (but b-double-sharp) with the default flats:
    every MIDI key gets a pitch that sounds exactly as it, altered by no more
    than three semitones. *)
Theorem C34_standard_keys : forall note alter name ks key,
  0 <= note <= 6 -> In alter std_alters -> In name (map fst mode_offset) -> ~ (note = 6 /\ alter = 1%Q) ->
  make_key note alter (ModeName name) [] = Ok ks ->
  exists p, key_pitch ks key None = Ok p /\ to_midi major_scale p = key /\ (-(3#2) <= Pitch_Model.alter p <= 3#2)%Q.
Proof.
  intros note alter name ks key N A M X MK.
  assert (O : exists o, In o [0;1;2;3;4;5;6] /\ make_key note alter (ModeList (alterations o [])) [] = Ok ks).
  { unfold make_key in *. cbn [bindr]. cbn [map fst mode_offset In] in M.
    destruct (dget str_eqb mode_offset name) as [o|] eqn:D; [|discriminate MK]. exists o. split; [|exact MK].
    destruct M as [<-|[<-|[<-|[<-|[<-|[<-|[<-|[<-|[<-|[]]]]]]]]]]; vm_compute in D; injection D as <-; cbn; tauto. }
  destruct O as (o & OI & MK'). clear M MK name.
  assert (C : forallb (fun o => forallb (fun note => forallb (fun alter =>
      ((note =? 6) && Qeq_bool alter 1) || small_steps note alter o) std_alters) [0;1;2;3;4;5;6]) [0;1;2;3;4;5;6] = true) by (vm_compute; reflexivity).
  rewrite forallb_forall in C. specialize (C o OI). rewrite forallb_forall in C. specialize (C note ltac:(cbn; lia)).
  rewrite forallb_forall in C. specialize (C alter A). apply orb_prop in C as [C|C].
  { apply andb_prop in C as [C1 C2]. elim X. split; [lia|].
    cbn [std_alters In] in A. destruct A as [<-|[<-|[<-|[<-|[<-|[]]]]]]; try discriminate. reflexivity. }
  assert (HL : exists sem, ((alter + nth (Z.to_nat note) major_scale 0) * 2 == inject_Z sem)%Q /\ -12 <= sem <= 12).
  { assert (D : note = 0 \/ note = 1 \/ note = 2 \/ note = 3 \/ note = 4 \/ note = 5 \/ note = 6) by lia.
    cbn [std_alters In] in A.
    destruct D as [->|[->|[->|[->|[->|[->| ->]]]]]]; destruct A as [<-|[<-|[<-|[<-|[<-|[]]]]]];
    match goal with |- exists sem, (?q == _)%Q /\ _ => let v := eval vm_compute in (Qround.Qfloor q) in exists v end;
    (split; [vm_compute; reflexivity|]); try lia. elim X. split; reflexivity. }
  destruct HL as (sem & S & B).
  assert (HM : Forall half (alterations o [])).
  { apply halfb_half. assert (Y : forallb (fun o => forallb halfb (alterations o [])) [0;1;2;3;4;5;6] = true) by (vm_compute; reflexivity).
    rewrite forallb_forall in Y. now apply Y. }
  assert (HA : half alter).
  { assert (Y : Forall half std_alters) by (apply halfb_half; vm_compute; reflexivity). rewrite Forall_forall in Y. now apply Y. }
  destruct (C34_key_pitch note alter (alterations o []) major_flats key sem ks N (alterations_length o major_scale ltac:(discriminate)) HM HA S B MK')
    as (p & K1 & K2 & K3 & K4 & _).
  unfold make_key in MK'. cbn [or_major bindr] in MK'. injection MK' as <-.
  exists p. split; [exact K1|].
  assert (BA : (-(3#2) <= Pitch_Model.alter p <= 3#2)%Q).
  { unfold key_pitch in K1. unfold small_steps in C. destruct (nth_error _ _) as [[n a]|] eqn:E; [|discriminate]. injection K1 as <-. cbn [Pitch_Model.alter].
    apply nth_error_In in E. rewrite forallb_forall in C. specialize (C _ E). cbn [snd] in C. apply andb_prop in C as [C1 C2].
    apply Qle_bool_iff in C1, C2. now split. }
  split; [|exact BA]. apply K4. destruct BA. split; lra.
Qed.
Print Assumptions C34_standard_keys.

Example C34_witness : (* A major: g-sharp (68) and its neighbour; D-flat major: a key below the octave *)
  (exists ks, make_key 5 0 (ModeName (txt "major")) [] = Ok ks /\
    exists p, key_pitch ks 68 None = Ok p /\ octave p = 0 /\ Pitch_Model.note p = 4 /\ (Pitch_Model.alter p == 1#2)%Q) /\
  (exists ks, make_key 4 (1#2) (ModeName (txt "major")) [] = Ok ks /\
    exists p, key_pitch ks 60 None = Ok p /\ octave p = -1 /\ Pitch_Model.note p = 6 /\ (Pitch_Model.alter p == 1#2)%Q).
Proof.
  split; eexists; (split; [vm_compute; reflexivity|]); eexists; (split; [vm_compute; reflexivity|]); repeat split; vm_compute; reflexivity.
Qed.

(** b-double-sharp major: the chromatic scale is not rotated, so that notes
    outside the scale are a semitone off. *)
Theorem C34_extreme_key_refuted :
  exists ks p, make_key 6 1 (ModeName (txt "major")) [] = Ok ks /\ key_pitch ks 62 None = Ok p /\ to_midi major_scale p <> 62.
Proof. do 2 eexists. split; [vm_compute; reflexivity|]. split; [vm_compute; reflexivity|]. vm_compute. discriminate. Qed.
Print Assumptions C34_extreme_key_refuted.

(** With many flats, the octave may be wrong: an alteration of more than five
    semitones. *)
Theorem C34_flats_refuted :
  exists ks p, make_key 4 (-(1)) (ModeList [0; 0; 0; 0; 0; 0; 0]%Q) [] = Ok ks /\
    key_pitch ks 59 (Some [0; 1#2; 1; 3#2; 2; 5#2]%Q) = Ok p /\ to_midi major_scale p <> 59.
Proof. do 2 eexists. split; [vm_compute; reflexivity|]. split; [vm_compute; reflexivity|]. vm_compute. discriminate. Qed.
Print Assumptions C34_flats_refuted.
