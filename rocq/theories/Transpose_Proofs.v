(** Proofs about transposing. *)
From Coq Require Import String Ascii List ZArith QArith Qabs Qround Lqa Bool Lia.
From Coq Require Import ZifyBool ZifyNat.
From Verif Require Import Base Pitch_Model Pitch_Spec Pitch_Proofs Transpose_Model Transpose_Spec.
Import ListNotations.
Open Scope Z_scope.
Ltac Zify.zify_post_hook ::= Z.div_mod_to_equations.

Definition shift (k : Z) (p : pitch) : pitch := Pitch (octave p + k) (note p) (alter p).

Lemma peq_refl p : peq p p.
Proof. repeat split; reflexivity. Qed.
Lemma peq_sym p q : peq p q -> peq q p.
Proof. intros (A & B & C). repeat split; [congruence|congruence|now symmetry]. Qed.
Lemma peq_trans p q r : peq p q -> peq q r -> peq p r.
Proof. intros (A & B & C) (D & E & F). repeat split; [congruence|congruence|now rewrite C]. Qed.

(** * Scales *)

Definition stepsize (s : list Q) (n : Z) : Q :=
  (inject_Z (((n + 1) / 7) * 6) + scale_at s ((n + 1) mod 7) - scale_at s n)%Q.

Lemma seven n : 0 <= n <= 6 -> n = 0 \/ n = 1 \/ n = 2 \/ n = 3 \/ n = 4 \/ n = 5 \/ n = 6.
Proof. lia. Qed.

Lemma stepsize_bounds s n : good_scale s -> 0 <= n <= 6 -> (0 < stepsize s n <= 2)%Q.
Proof.
  intros (a & b & c & d & e & f & g & -> & H) Hn.
  destruct (seven n Hn) as [-> | [-> | [-> | [-> | [-> | [-> | ->]]]]]];
    unfold stepsize, scale_at;
    repeat match goal with |- context [Z.to_nat ?x] => let v := eval vm_compute in (Z.to_nat x) in change (Z.to_nat x) with v end;
    repeat match goal with |- context [inject_Z ?x] => let v := eval vm_compute in (inject_Z x) in change (inject_Z x) with v end;
    cbn [nth]; lra.
Qed.

(** Staff position to height. *)
Definition fh (s : list Q) (k : Z) : Q := (inject_Z (6 * (k / 7)) + scale_at s (k mod 7))%Q.

Lemma height_fh s p : valid_note p -> (height s p == fh s (staff p) + alter p)%Q.
Proof.
  intros V. unfold height, fh, staff, scale_at, valid_note in *.
  replace ((7 * octave p + note p) / 7) with (octave p) by lia.
  replace ((7 * octave p + note p) mod 7) with (note p) by lia. reflexivity.
Qed.

Lemma fh_octave s k m : (fh s (k + 7 * m) == fh s k + inject_Z (6 * m))%Q.
Proof.
  unfold fh. replace ((k + 7 * m) / 7) with (k / 7 + m) by lia. replace ((k + 7 * m) mod 7) with (k mod 7) by lia.
  rewrite Z.mul_add_distr_l, inject_Z_plus. ring.
Qed.

(** * The loops *)

Lemma up_step_height s p : let n := (note p + 1) mod 7 in let doct := (note p + 1) / 7 in
  (height s (Pitch (octave p + doct) n (alter p - (inject_Z (doct * 6) + scale_at s n - scale_at s (note p)))) == height s p)%Q.
Proof.
  intros n doct. unfold height, scale_at. cbn [octave note alter].
  rewrite Z.mul_add_distr_l, inject_Z_plus, (Z.mul_comm doct 6). ring.
Qed.

Lemma down_step_height s p : let n := (note p - 1) mod 7 in let doct := (note p - 1) / 7 in
  (height s (Pitch (octave p + doct) n (alter p + (inject_Z (doct * -6) + scale_at s (note p) - scale_at s n))) == height s p)%Q.
Proof.
  intros n doct. unfold height, scale_at. cbn [octave note alter].
  rewrite Z.mul_add_distr_l, inject_Z_plus.
  replace (doct * -6) with (- (6 * doct)) by lia. rewrite inject_Z_opp. ring.
Qed.

Lemma up_loop_spec s fuel : good_scale s -> forall p, valid_note p ->
  (height s p - fh s (staff p + Z.of_nat fuel) <= 1)%Q ->
  exists q, up_loop fuel s p = Ok q /\ valid_note q /\ (height s q == height s p)%Q /\ (alter q <= 1)%Q /\
    ((alter p <= 1)%Q -> q = p) /\ ((1 < alter p)%Q -> (-1 <= alter q)%Q).
Proof.
  intros G. induction fuel as [|f IH]; intros p V H; cbn [up_loop].
  - destruct (qltb_spec 1 (alter p)) as [L|L].
    + exfalso. rewrite height_fh in H by exact V. cbn [Z.of_nat] in H. rewrite Z.add_0_r in H. lra.
    + exists p. split; [reflexivity|]. split; [exact V|]. split; [reflexivity|]. split; [lra|]. split; [reflexivity|intros; lra].
  - destruct (qltb_spec 1 (alter p)) as [L|L].
    + set (n := (note p + 1) mod 7). set (doct := (note p + 1) / 7).
      set (p' := Pitch (octave p + doct) n _).
      assert (HH : (height s p' == height s p)%Q) by apply up_step_height.
      assert (V' : valid_note p') by (unfold valid_note, p', n; cbn [note]; lia).
      assert (SS : staff p' = staff p + 1) by (unfold staff, p', n, doct; cbn [octave note]; lia).
      destruct (IH p' V') as (q & Q1 & Q2 & Q3 & Q4 & Q5 & Q6).
      { rewrite HH, SS. replace (staff p + 1 + Z.of_nat f) with (staff p + Z.of_nat (S f)) by lia. exact H. }
      exists q. split; [exact Q1|]. split; [exact Q2|]. split; [now rewrite Q3|]. split; [exact Q4|].
      split; [intros C; lra|]. intros _.
      destruct (qltb_spec 1 (alter p')) as [L'|L'].
      * now apply Q6.
      * rewrite Q5 by lra. unfold p'. cbn [alter].
        destruct (stepsize_bounds s (note p) G V) as [B1 B2]. unfold stepsize in B1, B2. fold doct n in B1, B2. lra.
    + exists p. split; [reflexivity|]. split; [exact V|]. split; [reflexivity|]. split; [lra|]. split; [reflexivity|intros; lra].
Qed.

Lemma down_loop_spec s fuel : good_scale s -> forall p, valid_note p ->
  (-1 <= height s p - fh s (staff p - Z.of_nat fuel))%Q ->
  exists q, down_loop fuel s p = Ok q /\ valid_note q /\ (height s q == height s p)%Q /\ (-1 <= alter q)%Q /\
    ((-1 <= alter p)%Q -> q = p) /\ ((alter p < -1)%Q -> (alter q <= 1)%Q).
Proof.
  intros G. induction fuel as [|f IH]; intros p V H; cbn [down_loop].
  - destruct (qltb_spec (alter p) (-1)) as [L|L].
    + exfalso. rewrite height_fh in H by exact V. cbn [Z.of_nat] in H. rewrite Z.sub_0_r in H. lra.
    + exists p. split; [reflexivity|]. split; [exact V|]. split; [reflexivity|]. split; [lra|]. split; [reflexivity|intros; lra].
  - destruct (qltb_spec (alter p) (-1)) as [L|L].
    + set (n := (note p - 1) mod 7). set (doct := (note p - 1) / 7).
      set (p' := Pitch (octave p + doct) n _).
      assert (HH : (height s p' == height s p)%Q) by apply down_step_height.
      assert (V' : valid_note p') by (unfold valid_note, p', n; cbn [note]; lia).
      assert (SS : staff p' = staff p - 1) by (unfold staff, p', n, doct; cbn [octave note]; lia).
      destruct (IH p' V') as (q & Q1 & Q2 & Q3 & Q4 & Q5 & Q6).
      { rewrite HH, SS. replace (staff p - 1 - Z.of_nat f) with (staff p - Z.of_nat (S f)) by lia. exact H. }
      exists q. split; [exact Q1|]. split; [exact Q2|]. split; [now rewrite Q3|]. split; [exact Q4|].
      split; [intros C; lra|]. intros _.
      destruct (qltb_spec (alter p') (-1)) as [L'|L'].
      * now apply Q6.
      * rewrite Q5 by lra. unfold p'. cbn [alter].
        assert (Vn : 0 <= n <= 6) by (unfold n; lia).
        destruct (stepsize_bounds s n G Vn) as [B1 B2]. unfold stepsize in B1, B2.
        replace ((n + 1) mod 7) with (note p) in B1, B2 by (unfold valid_note in V; unfold n; lia).
        assert (E : (n + 1) / 7 * 6 = doct * -6) by (unfold valid_note in V; unfold n, doct; lia).
        rewrite E in B1, B2. lra.
    + exists p. split; [reflexivity|]. split; [exact V|]. split; [reflexivity|]. split; [lra|]. split; [reflexivity|intros; lra].
Qed.

Lemma ceil_abs a : (a <= inject_Z (Z.of_nat (Z.to_nat (Qceiling (Qabs a)))))%Q /\
  (- inject_Z (Z.of_nat (Z.to_nat (Qceiling (Qabs a)))) <= a)%Q.
Proof.
  pose proof (Qle_ceiling (Qabs a)) as H. pose proof (Qabs_nonneg a) as N.
  assert (0 <= Qceiling (Qabs a)).
  { rewrite <- (Qceiling_Z 0). apply Qceiling_resp_le. exact N. }
  rewrite Z2Nat.id by assumption. pose proof (Qle_Qabs a) as A1. pose proof (Qle_Qabs (- a)) as A2.
  rewrite Qabs_opp in A2. split; lra.
Qed.

Lemma up_fuel s p : valid_note p -> (height s p - fh s (staff p + Z.of_nat (loop_fuel (alter p))) <= 1)%Q.
Proof.
  intros V. unfold loop_fuel. set (m := Z.to_nat (Qceiling (Qabs (alter p)))).
  replace (Z.of_nat (7 * m)) with (7 * Z.of_nat m) by lia. rewrite fh_octave, height_fh by exact V.
  destruct (ceil_abs (alter p)) as [C _]. fold m in C.
  assert (E : (inject_Z (6 * Z.of_nat m) == 6 * inject_Z (Z.of_nat m))%Q) by (rewrite inject_Z_mult; reflexivity).
  rewrite E. assert (0 <= inject_Z (Z.of_nat m))%Q by (change 0%Q with (inject_Z 0); rewrite <- Zle_Qle; lia). lra.
Qed.

Lemma down_fuel s p : valid_note p -> (-1 <= height s p - fh s (staff p - Z.of_nat (loop_fuel (alter p))))%Q.
Proof.
  intros V. unfold loop_fuel. set (m := Z.to_nat (Qceiling (Qabs (alter p)))).
  replace (staff p - Z.of_nat (7 * m)) with (staff p + 7 * (- Z.of_nat m)) by lia. rewrite fh_octave, height_fh by exact V.
  destruct (ceil_abs (alter p)) as [_ C]. fold m in C.
  assert (E : (inject_Z (6 * - Z.of_nat m) == - (6 * inject_Z (Z.of_nat m)))%Q).
  { rewrite inject_Z_mult, inject_Z_opp. ring. }
  rewrite E. assert (0 <= inject_Z (Z.of_nat m))%Q by (change 0%Q with (inject_Z 0); rewrite <- Zle_Qle; lia). lra.
Qed.

(** The pitch after the plain shift of transpose.py 74-77. *)
Definition shifted (t : transposer) (s : list Q) (p : pitch) : pitch :=
  let doct := (note p + tr_steps t) / 7 in let n := (note p + tr_steps t) mod 7 in
  Pitch (octave p + (tr_octave t + doct)) n
        (alter p + (tr_alter t - inject_Z (doct * 6) - scale_at s n + scale_at s (note p)))%Q.

Lemma shifted_height t s p : (height s (shifted t s p) == height s p + interval t)%Q.
Proof.
  unfold shifted, height, interval, scale_at. cbn [octave note alter].
  set (d := (note p + tr_steps t) / 7).
  rewrite !Z.mul_add_distr_l, !inject_Z_plus, (Z.mul_comm d 6). ring.
Qed.

Lemma transpose_spec t s p : tr_scale t = Some s -> good_scale s ->
  exists q, transpose t p = Ok q /\ normal q /\ (height s q == height s p + interval t)%Q /\
    ((-1 <= alter (shifted t s p) <= 1)%Q -> q = shifted t s p).
Proof.
  intros TS G. unfold transpose. rewrite TS. cbv zeta. fold (shifted t s p).
  set (p1 := shifted t s p).
  assert (V1 : valid_note p1) by (unfold valid_note, p1, shifted; cbn [note]; lia).
  destruct (up_loop_spec s (loop_fuel (alter p1)) G p1 V1 (up_fuel s p1 V1)) as (p2 & -> & V2 & H2 & U2 & S2 & B2).
  cbn [bindr].
  destruct (down_loop_spec s (loop_fuel (alter p2)) G p2 V2 (down_fuel s p2 V2)) as (q & -> & Vq & Hq & Uq & Sq & Bq).
  exists q. split; [reflexivity|]. split; [|split].
  - split; [exact Vq|]. split; [exact Uq|].
    destruct (Qlt_le_dec (alter p2) (-1)) as [L|L]; [now apply Bq|]. rewrite Sq by exact L. exact U2.
  - rewrite Hq, H2. apply shifted_height.
  - intros [A B]. rewrite S2 in Sq by exact B. now apply Sq.
Qed.

Lemma major_good : good_scale major_scale.
Proof.
  exists 0%Q, 1%Q, 2%Q, (5#2)%Q, (7#2)%Q, (9#2)%Q, (11#2)%Q. split; [reflexivity|]. repeat split; lra.
Qed.

Lemma height_determines s p q : valid_note p -> valid_note q -> octave p = octave q -> note p = note q ->
  (height s p == height s q)%Q -> peq p q.
Proof.
  intros V W A B H. split; [exact A|]. split; [exact B|]. unfold height in H. rewrite A, B in H. lra.
Qed.

(** * from and to *)

Lemma shifted_from a b s : valid_note a -> valid_note b ->
  peq (shifted (make_transposer a b s) s a) b.
Proof.
  intros V W. unfold shifted, make_transposer, valid_note in *. cbn [tr_steps tr_octave tr_alter].
  replace ((note a + (note b - note a)) / 7) with 0 by lia.
  replace ((note a + (note b - note a)) mod 7) with (note b) by lia.
  repeat split; cbn [octave note alter]; [lia|]. change (inject_Z (0 * 6)) with 0%Q. ring.
Qed.

Lemma interval_make a b s : (interval (make_transposer a b s) == height s b - height s a)%Q.
Proof.
  unfold interval, make_transposer, height, scale_at. cbn [tr_octave tr_alter].
  replace (6 * (octave b - octave a)) with (6 * octave b + - (6 * octave a)) by lia.
  rewrite inject_Z_plus, inject_Z_opp. ring.
Qed.

(** * peq and octave shifts *)

Lemma Qlt_bool_comp a b c d : (a == b)%Q -> (c == d)%Q -> Qlt_bool a c = Qlt_bool b d.
Proof. intros H K. unfold Qlt_bool. f_equal. now apply Qleb_comp. Qed.

Definition res_peq (a b : res pitch) : Prop :=
  match a, b with Ok p, Ok q => peq p q | Err e, Err f => e = f | _, _ => False end.

Lemma up_loop_peq s fuel : forall p q, peq p q -> res_peq (up_loop fuel s p) (up_loop fuel s q).
Proof.
  induction fuel as [|f IH]; intros p q (A & B & C); cbn [up_loop];
    rewrite (Qlt_bool_comp 1 1 (alter p) (alter q) (Qeq_refl 1) C); destruct (Qlt_bool 1 (alter q)).
  - reflexivity.
  - repeat split; assumption.
  - apply IH. rewrite A, B. repeat split; cbn [octave note alter]. rewrite C. reflexivity.
  - repeat split; assumption.
Qed.

Lemma down_loop_peq s fuel : forall p q, peq p q -> res_peq (down_loop fuel s p) (down_loop fuel s q).
Proof.
  induction fuel as [|f IH]; intros p q (A & B & C); cbn [down_loop];
    rewrite (Qlt_bool_comp (alter p) (alter q) (-1) (-1) C (Qeq_refl (-1))); destruct (Qlt_bool (alter q) (-1)).
  - reflexivity.
  - repeat split; assumption.
  - apply IH. rewrite A, B. repeat split; cbn [octave note alter]. rewrite C. reflexivity.
  - repeat split; assumption.
Qed.

Lemma loop_fuel_comp a b : (a == b)%Q -> loop_fuel a = loop_fuel b.
Proof. intros H. unfold loop_fuel. now rewrite (Qceiling_comp _ _ (Qabs_wd _ _ H)). Qed.

Lemma transpose_peq t p q : peq p q -> res_peq (transpose t p) (transpose t q).
Proof.
  intros (A & B & C). unfold transpose. destruct (tr_scale t) as [s|]; [|reflexivity]. cbv zeta.
  fold (shifted t s p). fold (shifted t s q).
  assert (E : peq (shifted t s p) (shifted t s q)).
  { unfold shifted. rewrite A, B. repeat split; cbn [octave note alter]. rewrite C. reflexivity. }
  rewrite (loop_fuel_comp _ _ (proj2 (proj2 E))).
  pose proof (up_loop_peq s (loop_fuel (alter (shifted t s q))) _ _ E) as U.
  destruct (up_loop _ s (shifted t s p)) as [p2|e], (up_loop _ s (shifted t s q)) as [q2|e']; cbn [bindr res_peq] in *;
    try contradiction; try exact U.
  rewrite (loop_fuel_comp _ _ (proj2 (proj2 U))). now apply down_loop_peq.
Qed.

Definition res_shift (k : Z) (r : res pitch) : res pitch :=
  match r with Ok p => Ok (shift k p) | Err e => Err e end.

Lemma up_loop_shift s fuel k : forall p, up_loop fuel s (shift k p) = res_shift k (up_loop fuel s p).
Proof.
  induction fuel as [|f IH]; intros p; cbn [up_loop]; cbn [shift alter note octave];
    destruct (Qlt_bool 1 (alter p)); try reflexivity.
  rewrite <- IH. f_equal. unfold shift. cbn [octave note alter]. f_equal. lia.
Qed.

Lemma down_loop_shift s fuel k : forall p, down_loop fuel s (shift k p) = res_shift k (down_loop fuel s p).
Proof.
  induction fuel as [|f IH]; intros p; cbn [down_loop]; cbn [shift alter note octave];
    destruct (Qlt_bool (alter p) (-1)); try reflexivity.
  rewrite <- IH. f_equal. unfold shift. cbn [octave note alter]. f_equal. lia.
Qed.

Lemma transpose_shift t k p : transpose t (shift k p) = res_shift k (transpose t p).
Proof.
  unfold transpose. destruct (tr_scale t) as [s|]; [|reflexivity]. cbv zeta.
  fold (shifted t s p). fold (shifted t s (shift k p)).
  assert (E : shifted t s (shift k p) = shift k (shifted t s p)).
  { unfold shifted, shift. cbn [octave note alter]. f_equal. lia. }
  rewrite E, up_loop_shift. change (alter (shift k (shifted t s p))) with (alter (shifted t s p)).
  destruct (up_loop _ s (shifted t s p)) as [p2|e]; cbn [res_shift bindr]; [|reflexivity].
  rewrite down_loop_shift. reflexivity.
Qed.

(** * Notes *)

Lemma pitch_of_name_in T P h q : pitch_of_name T P h = Ok q ->
  exists t, lang_table T (language P) = Ok t /\ In (h, (octave q, note q, alter q)) t.
Proof.
  unfold pitch_of_name. destruct (lang_table T (language P)) as [t|]; [|discriminate]. cbn [bindr].
  destruct (dget str_eqb t h) as [[[o n] a]|] eqn:E; [|discriminate]. intros [= <-]. exists t.
  split; [reflexivity|]. cbn [octave note alter]. now apply dget_str_in.
Qed.

Lemma uniform_name T P o h q : uniform T P o -> pitch_of_name T P h = Ok q -> octave q = o /\ valid_note q.
Proof.
  intros U H. apply pitch_of_name_in in H. destruct H as (t & TL & I).
  destruct (U t h _ _ _ TL I) as [A B]. now split.
Qed.

Lemma read_node_name T P n p : read_node T P n = Ok p ->
  exists q, pitch_of_name T P (head n) = Ok q /\ p = Pitch (octave q + node_octave n) (note q) (alter q).
Proof.
  unfold read_node. destruct (pitch_of_name T P (head n)) as [q|]; [|discriminate]. cbn [bindr].
  intros [= <-]. now exists q.
Qed.

Lemma nearest_eq prev n : nearest prev n = octave prev - (n - note prev + 3) / 7.
Proof. unfold nearest, staff. lia. Qed.

(** Two pitches at the same place on the staff, up to [k] octaves. *)
Definition at_octave (k : Z) (a b : pitch) : Prop := octave a = octave b - k /\ note a = note b.

Definition inv (k : Z) (st : last_state) (prev prev' : pitch) : Prop :=
  at_octave k (fst st) prev /\ at_octave k (odefault (fst st) (snd st)) prev'.

Lemma transpose_note_spec T P t o k n st prev prev' m st' :
  tables_ok T -> uniform T P o -> r_writable n = true -> inv k st prev prev' ->
  transpose_note T P t n st = Ok (m, st') ->
  exists p c p' c', rel_pitch T P prev (r_node n) = Ok (p, c) /\ rel_pitch T P prev' (r_node m) = Ok (p', c') /\
    transposed t p p' /\ inv k st' p p' /\
    match c' with Some x => c <> None /\ x = octave p' - k | None => c = None end.
Proof.
  intros OK U W [I1 I2]. unfold transpose_note. rewrite W. cbn [negb].
  destruct (read_node T P (r_node n)) as [p0|] eqn:R; [|discriminate]. cbn [bindr].
  destruct (read_node_name _ _ _ _ R) as (q0 & N & ->). cbn [octave note alter].
  destruct (uniform_name _ _ _ _ _ U N) as [UO UV].
  set (default := octave q0 + node_octave (r_node n) - node_octave (r_node n)).
  set (p1 := make_absolute 7 _ (fst st) default).
  destruct (transpose t p1) as [q|] eqn:TQ; [|discriminate]. cbn [bindr].
  set (nd := match oct_check (r_node n) with Some _ => _ | None => _ end).
  destruct (write_node T P nd _) as [m0 r] eqn:WN. unfold of_pair. destruct r as [[]|]; [|discriminate]. cbn [bindr].
  intros [= <- <-]. cbn [r_node].
  destruct (write_read _ _ _ _ _ OK WN) as ((q1 & RN & QE) & CK).
  destruct (read_node_name _ _ _ _ RN) as (q2 & N2 & ->).
  destruct (uniform_name _ _ _ _ _ U N2) as [UO2 _].
  destruct QE as (E1 & E2 & E3). cbn [octave note alter make_relative] in E1, E2, E3.
  destruct I1 as [A1 B1]. destruct I2 as [A2 B2].
  unfold rel_pitch. rewrite N, N2. cbn [bindr].
  do 4 eexists. split; [reflexivity|]. split; [reflexivity|].
  assert (P1 : p1 = shift (- k) (Pitch (nearest prev (note q0) + node_octave (r_node n)) (note q0) (alter q0))).
  { unfold p1, shift, make_absolute. cbn [octave note alter]. f_equal. rewrite nearest_eq, A1, B1. unfold default. lia. }
  rewrite P1, transpose_shift in TQ.
  destruct (transpose t (Pitch (nearest prev (note q0) + node_octave (r_node n)) (note q0) (alter q0))) as [q'|] eqn:TQ'; [|discriminate].
  cbn [res_shift] in TQ. injection TQ as <-. cbn [shift octave note alter] in *.
  assert (OE : nearest prev' (note q2) + node_octave m0 = octave q').
  { rewrite nearest_eq, E2. rewrite A2, B2 in E1. unfold default in E1. lia. }
  split; [|split].
  - exists q'. split; [exact TQ'|]. repeat split; cbn [octave note alter]; assumption.
  - split; cbn [fst snd odefault]; [rewrite P1|]; split; cbn [shift octave note alter]; lia.
  - rewrite CK. unfold nd. cbn [r_node] in *. destruct (oct_check (r_node n)) eqn:OC; cbn [set_oct_check oct_check].
    + split; [discriminate|]. rewrite OE. unfold default. lia.
    + now rewrite OC.
Qed.

(** Relation between the readings before and after; [k] is the number of
    octaves the checks are off. *)
Definition related (t : transposer) (k : Z) (a b : pitch * option Z) : Prop :=
  transposed t (fst a) (fst b) /\
  match snd b with Some x => snd a <> None /\ x = octave (fst b) - k | None => snd a = None end.

Lemma transpose_chord_spec T P t o k c : tables_ok T -> uniform T P o -> all_writable c ->
  forall st prev prev' c' stack, inv k st prev prev' ->
  transpose_chord T P t c st = Ok (c', stack) ->
  exists ps ps', rel_notes T P prev (map r_node c) = Ok ps /\ rel_notes T P prev' (map r_node c') = Ok ps' /\
    Forall2 (related t k) ps ps' /\
    inv k (match stack with [] => st | s :: _ => s end)
      (match ps with [] => prev | q :: _ => fst q end) (match ps' with [] => prev' | q :: _ => fst q end).
Proof.
  intros OK U. induction c as [|n r IH]; intros AW st prev prev' c' stack I; cbn [transpose_chord].
  - intros [= <- <-]. exists [], []. cbn. repeat split; try constructor; apply I.
  - inversion AW as [|? ? W AW']; subst. destruct (transpose_note T P t n st) as [[m s]|] eqn:TN; [|discriminate]. cbn [bindr].
    destruct (transpose_chord T P t r s) as [[r' ss]|] eqn:TC; [|discriminate]. cbn [bindr]. intros [= <- <-].
    destruct (transpose_note_spec _ _ _ _ _ _ _ _ _ _ _ OK U W I TN) as (p & c & p' & cc & R1 & R2 & TR & I' & C).
    destruct (IH AW' _ _ _ _ _ I' TC) as (ps & ps' & S1 & S2 & F & _).
    exists ((p, c) :: ps), ((p', cc) :: ps'). cbn [map rel_notes]. rewrite R1, R2. cbn [bindr fst]. rewrite S1, S2. cbn [bindr].
    split; [reflexivity|]. split; [reflexivity|]. split; [|exact I'].
    constructor; [|exact F]. split; [exact TR|exact C].
Qed.

Lemma transpose_check_spec T P t c : tables_ok T -> all_writable c ->
  forall st prev prev' c' st', 
  transpose_check T P t c st = Ok (c', st') ->
  exists ps ps', abs_notes T P (map r_node c) = Ok ps /\ abs_notes T P (map r_node c') = Ok ps' /\
    Forall2 (related t 0) ps ps' /\
    match c with [] => st' = st /\ ps = [] /\ ps' = [] | _ => inv 0 st' (fst (last ps (prev, None))) (fst (last ps' (prev', None))) end.
Proof.
  intros OK. induction c as [|n r IH]; intros AW st prev prev' c' st'; cbn [transpose_check].
  - intros [= <- <-]. exists [], []. repeat split. constructor.
  - inversion AW as [|? ? W AW']; subst. rewrite W.
    destruct (read_node T P (r_node n)) as [p|] eqn:R; [|discriminate]. cbn [bindr].
    destruct (transpose t p) as [q|] eqn:TQ; [|discriminate]. cbn [bindr].
    destruct (write_node T P (r_node n) q) as [m [[]|]] eqn:WN; unfold of_pair; cbn [bindr]; [|discriminate].
    destruct (transpose_check T P t r (p, Some q)) as [[r' s']|] eqn:TC; [|discriminate]. cbn [bindr]. intros [= <- <-].
    destruct (write_read _ _ _ _ _ OK WN) as ((q1 & RN & QE) & _).
    destruct (IH AW' _ p q1 _ _ TC) as (ps & ps' & S1 & S2 & F & L).
    exists ((p, None) :: ps), ((q1, None) :: ps'). cbn [map abs_notes r_node]. rewrite R, RN. cbn [bindr]. rewrite S1, S2. cbn [bindr].
    split; [reflexivity|]. split; [reflexivity|]. split.
    + constructor; [|exact F]. split; [|reflexivity]. exists q. now split.
    + destruct r as [|n2 r2].
      * destruct L as (-> & -> & ->). cbn [last fst]. split; cbn [fst snd odefault].
        -- split; [lia|reflexivity].
        -- destruct QE as (E1 & E2 & _). split; [lia|congruence].
      * destruct ps as [|x ps]; [cbn [map abs_notes] in S1; destruct (read_node T P (r_node n2)); cbn [bindr] in S1; [|discriminate]; destruct (abs_notes T P (map r_node r2)); discriminate|].
        destruct ps' as [|x' ps']; [inversion F|].
        assert (LD : forall (d1 d2 : pitch * option Z) y ys, last (y :: ys) d1 = last (y :: ys) d2).
        { clear. intros d1 d2 y ys. revert y. induction ys as [|z zs IH]; intros y; [reflexivity|]. cbn [last]. apply IH. }
        change (last ((p, None) :: x :: ps) (prev, None)) with (last (x :: ps) (prev, None)).
        change (last ((q1, None) :: x' :: ps') (prev', None)) with (last (x' :: ps') (prev', None)).
        rewrite (LD (prev, None) (p, None)), (LD (prev', None) (q1, None)). exact L.
Qed.

Lemma Forall2_impl {A B} (R S : A -> B -> Prop) l m : (forall a b, R a b -> S a b) -> Forall2 R l m -> Forall2 S l m.
Proof. intros H F. induction F; constructor; auto. Qed.

(** Checks can be off by 0 or [k] octaves. *)
Definition related_in (t : transposer) (k : Z) (a b : pitch * option Z) : Prop := related t 0 a b \/ related t k a b.

Lemma transpose_events_spec T P t o l : tables_ok T -> uniform T P o -> Forall (fun e => all_writable (event_notes e)) l ->
  forall k st prev prev' l', inv k st prev prev' ->
  transpose_events T P t l st = Ok l' ->
  exists ps ps', rel_events T P prev l = Ok ps /\ rel_events T P prev' l' = Ok ps' /\ Forall2 (related_in t k) ps ps'.
Proof.
  intros OK U. induction l as [|e r IH]; intros AW k st prev prev' l' I; cbn [transpose_events].
  - intros [= <-]. exists [], []. repeat split. constructor.
  - inversion AW as [|? ? W AW']; subst. destruct e as [n|c|c]; cbn [event_notes] in W.
    + destruct (transpose_note T P t n st) as [[m s]|] eqn:TN; [|discriminate]. cbn [bindr].
      destruct (transpose_events T P t r s) as [r'|] eqn:TE; [|discriminate]. cbn [bindr]. intros [= <-].
      inversion W as [|? ? Wn _]; subst.
      destruct (transpose_note_spec _ _ _ _ _ _ _ _ _ _ _ OK U Wn I TN) as (p & c & p' & cc & R1 & R2 & TR & I' & C).
      destruct (IH AW' _ _ _ _ _ I' TE) as (ps & ps' & S1 & S2 & F).
      exists ((p, c) :: ps), ((p', cc) :: ps'). cbn [rel_events]. rewrite R1, R2. cbn [bindr fst]. rewrite S1, S2. cbn [bindr].
      split; [reflexivity|]. split; [reflexivity|]. constructor; [|exact F]. right. split; [exact TR|exact C].
    + destruct (transpose_chord T P t c st) as [[c' stack]|] eqn:TC; [|discriminate]. cbn [bindr].
      destruct (transpose_events T P t r _) as [r'|] eqn:TE; [|discriminate]. cbn [bindr]. intros [= <-].
      destruct (transpose_chord_spec T P t o k c OK U W _ _ _ _ _ I TC) as (qs & qs' & R1 & R2 & F1 & I').
      destruct (IH AW' _ _ _ _ _ I' TE) as (ps & ps' & S1 & S2 & F).
      exists (qs ++ ps), (qs' ++ ps'). cbn [rel_events]. rewrite R1, R2. cbn [bindr]. rewrite S1, S2. cbn [bindr].
      split; [reflexivity|]. split; [reflexivity|]. apply Forall2_app; [|exact F].
      eapply Forall2_impl; [|exact F1]. intros a b H. now right.
    + destruct (transpose_check T P t c st) as [[c' s]|] eqn:TC; [|discriminate]. cbn [bindr].
      destruct (transpose_events T P t r _) as [r'|] eqn:TE; [|discriminate]. cbn [bindr]. intros [= <-].
      destruct (transpose_check_spec T P t c OK W _ prev prev' _ _ TC) as (qs & qs' & R1 & R2 & F1 & L).
      assert (X : exists ps ps', rel_events T P (fst (last qs (prev, None))) r = Ok ps /\
                rel_events T P (fst (last qs' (prev', None))) r' = Ok ps' /\ Forall2 (related_in t k) ps ps').
      { destruct c as [|n c2].
        - destruct L as (-> & -> & ->). eapply IH; [exact AW'|exact I|exact TE].
        - destruct (IH AW' _ _ _ _ _ L TE) as (ps & ps' & S1 & S2 & F). exists ps, ps'. split; [exact S1|]. split; [exact S2|].
          eapply Forall2_impl; [|exact F]. intros a b [H|H]; now left. }
      destruct X as (ps & ps' & S1 & S2 & F).
      exists (qs ++ ps), (qs' ++ ps'). cbn [rel_events]. rewrite R1, R2. cbn [bindr]. rewrite S1, S2. cbn [bindr].
      split; [reflexivity|]. split; [reflexivity|]. apply Forall2_app; [|exact F].
      eapply Forall2_impl; [|exact F1]. intros a b H. now left.
Qed.

Definition opt_list {A} (o : option A) : list A := match o with Some a => [a] | None => [] end.

Lemma transpose_relative_spec T P t o fa start l start' l' :
  tables_ok T -> uniform T P o ->
  all_writable (opt_list start) -> Forall (fun e => all_writable (event_notes e)) l ->
  transpose_relative T P t fa start l = Ok (start', l') ->
  exists ps ps', rel_expression T P fa start l = Ok ps /\ rel_expression T P fa start' l' = Ok ps' /\
    Forall2 (related_in t (match start with Some _ => tr_octave t | None => 0 end)) ps ps'.
Proof.
  intros OK U WS WL. unfold transpose_relative. destruct start as [n|].
  - inversion WS as [|? ? W _]; subst. rewrite W. destruct (read_node T P (r_node n)) as [p|] eqn:R; [|discriminate]. cbn [bindr].
    destruct (transpose t p) as [q|] eqn:TQ; [|discriminate]. cbn [bindr].
    destruct (write_node T P (r_node n) q) as [m [[]|]] eqn:WN; unfold of_pair; cbn [bindr]; [|discriminate].
    destruct (transpose_events T P t l _) as [r'|] eqn:TE; [|discriminate]. cbn [bindr]. intros [= <- <-].
    destruct (write_read _ _ _ _ _ OK WN) as ((q1 & RN & QE) & _).
    assert (I : inv (tr_octave t) (lower_octave (tr_octave t) p, Some (lower_octave (tr_octave t) q)) p q1).
    { destruct QE as (E1 & E2 & _). unfold lower_octave, with_octave. split; cbn [fst snd odefault]; split; cbn [octave note]; lia. }
    destruct (transpose_events_spec T P t o l OK U WL _ _ _ _ _ I TE) as (ps & ps' & S1 & S2 & F).
    exists ((p, None) :: ps), ((q1, None) :: ps'). cbn [rel_expression r_node]. rewrite R, RN. cbn [bindr]. rewrite S1, S2. cbn [bindr].
    split; [reflexivity|]. split; [reflexivity|]. constructor; [|exact F]. left. split; [|reflexivity]. exists q. now split.
  - destruct (transpose_events T P t l _) as [r'|] eqn:TE; [|discriminate]. cbn [bindr]. intros [= <- <-].
    set (p0 := if fa then Pitch (-1) 3 0 else Pitch 0 0 0) in *.
    assert (I : inv 0 (p0, None) p0 p0) by (split; cbn [fst snd odefault]; split; try reflexivity; lia).
    destruct (transpose_events_spec T P t o l OK U WL _ _ _ _ _ I TE) as (ps & ps' & S1 & S2 & F).
    exists ps, ps'. cbn [rel_expression]. now repeat split.
Qed.

(** * Absolute music *)

Lemma process_ok T P n w f m : tables_ok T -> of_pair (process T P n w f) = Ok m ->
  exists p q, read_node T P n = Ok p /\ f p = Ok q /\
    if w then exists r, read_node T P m = Ok r /\ peq r q else m = n.
Proof.
  intros OK. unfold process. destruct (read_node T P n) as [p|] eqn:R; [|discriminate].
  destruct (f p) as [q|] eqn:F; [|discriminate]. destruct w.
  - destruct (write_node T P n q) as [m0 [[]|]] eqn:W; unfold of_pair; cbn [bindr]; [|discriminate].
    intros [= <-]. exists p, q. split; [reflexivity|]. split; [exact F|]. exact (proj1 (write_read _ _ _ _ _ OK W)).
  - cbn [of_pair bindr]. intros [= <-]. exists p, q. now repeat split.
Qed.

Lemma map_notes_forall2 f (R : rnote -> rnote -> Prop) l : (forall n m, f n = Ok m -> R n m) ->
  forall l', map_notes f l = Ok l' -> Forall2 R l l'.
Proof.
  intros H. induction l as [|n r IH]; intros l'; cbn [map_notes].
  - intros [= <-]. constructor.
  - destruct (f n) as [m|] eqn:F; [|discriminate]. cbn [bindr]. destruct (map_notes f r) as [r'|]; [|discriminate].
    cbn [bindr]. intros [= <-]. constructor; [now apply H|now apply IH].
Qed.

Lemma transpose_pitch_spec T P t adj n m : tables_ok T -> transpose_pitch T P t adj n = Ok m ->
  r_writable m = r_writable n /\
  (r_writable n = false -> m = n) /\
  (r_writable n = true -> exists p q r, read_node T P (r_node n) = Ok p /\ transpose t p = Ok q /\
     read_node T P (r_node m) = Ok r /\ peq r (adj q)).
Proof.
  intros OK. unfold transpose_pitch. destruct (of_pair _) as [m0|] eqn:E; [|discriminate]. cbn [bindr]. intros [= <-].
  cbn [r_writable r_node]. apply process_ok in E; [|exact OK]. destruct E as (p & q & R & F & X).
  destruct (transpose t p) as [q0|] eqn:TQ; [|discriminate]. cbn [bindr] in F. injection F as <-.
  split; [reflexivity|]. split; intros W; rewrite W in X.
  - subst. destruct n; reflexivity.
  - destruct X as (r & R2 & PE). exists p, q0, r. split; [exact R|]. split; [exact TQ|]. split; assumption.
Qed.

(** * More about single pitches *)

Lemma up_loop_height s fuel : forall p q, up_loop fuel s p = Ok q -> (height s q == height s p)%Q.
Proof.
  induction fuel as [|f IH]; intros p q; cbn [up_loop]; destruct (Qlt_bool 1 (alter p)); try discriminate;
    try (intros [= <-]; reflexivity).
  intros H. apply IH in H. rewrite H. apply up_step_height.
Qed.
Lemma down_loop_height s fuel : forall p q, down_loop fuel s p = Ok q -> (height s q == height s p)%Q.
Proof.
  induction fuel as [|f IH]; intros p q; cbn [down_loop]; destruct (Qlt_bool (alter p) (-1)); try discriminate;
    try (intros [= <-]; reflexivity).
  intros H. apply IH in H. rewrite H. apply down_step_height.
Qed.

Lemma transpose_height t s p q : tr_scale t = Some s -> transpose t p = Ok q ->
  (height s q == height s p + interval t)%Q.
Proof.
  intros TS. unfold transpose. rewrite TS. cbv zeta. fold (shifted t s p).
  destruct (up_loop _ s (shifted t s p)) as [p2|] eqn:U; [|discriminate]. cbn [bindr]. intros D.
  rewrite (down_loop_height _ _ _ _ D), (up_loop_height _ _ _ _ U). apply shifted_height.
Qed.

Lemma shifted_back a b s p : valid_note p ->
  peq (shifted (make_transposer b a s) s (shifted (make_transposer a b s) s p)) p.
Proof.
  unfold valid_note. intros V. unfold shifted, make_transposer. cbn [tr_steps tr_octave tr_alter octave note alter].
  set (st := note b - note a). replace (note a - note b) with (- st) by (unfold st; lia).
  set (d := (note p + st) / 7).
  replace (((note p + st) mod 7 + - st) mod 7) with (note p) by lia.
  replace (((note p + st) mod 7 + - st) / 7) with (- d) by (unfold d; lia).
  repeat split; cbn [octave note alter]; [lia|].
  replace (- d * 6) with (- (d * 6)) by lia. rewrite inject_Z_opp. ring.
Qed.

Lemma shifted_peq t s p q : peq p q -> peq (shifted t s p) (shifted t s q).
Proof.
  intros (A & B & C). unfold shifted. rewrite A, B. repeat split; cbn [octave note alter]. rewrite C. reflexivity.
Qed.

Lemma interval_add a b : (interval (transposer_add a b) == interval a + interval b)%Q.
Proof.
  unfold interval, transposer_add. cbn [tr_octave tr_alter]. set (d := (tr_steps a + tr_steps b) / 7).
  rewrite !Z.mul_add_distr_l, !inject_Z_plus, (Z.mul_comm d 6). ring.
Qed.

Lemma interval_sub a b : (interval (transposer_sub a b) ==
  interval a - interval b + inject_Z (12 * ((tr_steps a - tr_steps b) / 7)))%Q.
Proof.
  unfold interval, transposer_sub. cbn [tr_octave tr_alter]. set (d := (tr_steps a - tr_steps b) / 7).
  replace (6 * (tr_octave a - tr_octave b + d)) with (6 * tr_octave a + - (6 * tr_octave b) + 6 * d) by lia.
  replace (12 * d) with (6 * d + 6 * d) by lia. replace (d * 6) with (6 * d) by lia.
  rewrite !inject_Z_plus, inject_Z_opp. ring.
Qed.

(** * Nodes outside the range *)

Definition frame (n m : rnote) : Prop := r_writable m = r_writable n /\ (r_writable n = false -> m = n).

Lemma transpose_note_frame T P t n st m st' : transpose_note T P t n st = Ok (m, st') -> frame n m.
Proof.
  unfold transpose_note. destruct (read_node T P (r_node n)) as [p|]; [|discriminate]. cbn [bindr].
  destruct (r_writable n) eqn:W; cbn [negb].
  - destruct (transpose t _) as [q|]; [|discriminate]. cbn [bindr].
    destruct (of_pair _) as [m0|]; [|discriminate]. cbn [bindr]. intros [= <- <-]. split; [now rewrite W|congruence].
  - intros [= <- <-]. split; [reflexivity|reflexivity].
Qed.

Lemma transpose_chord_frame T P t c : forall st c' ss, transpose_chord T P t c st = Ok (c', ss) -> Forall2 frame c c'.
Proof.
  induction c as [|n r IH]; intros st c' ss; cbn [transpose_chord]; [intros [= <- <-]; constructor|].
  destruct (transpose_note T P t n st) as [[m s]|] eqn:TN; [|discriminate]. cbn [bindr].
  destruct (transpose_chord T P t r s) as [[r' s']|] eqn:TC; [|discriminate]. cbn [bindr]. intros [= <- <-].
  constructor; [eapply transpose_note_frame; eassumption|eapply IH; eassumption].
Qed.

Lemma transpose_check_frame T P t c : forall st c' s', transpose_check T P t c st = Ok (c', s') -> Forall2 frame c c'.
Proof.
  induction c as [|n r IH]; intros st c' ss; cbn [transpose_check]; [intros [= <- <-]; constructor|].
  destruct (read_node T P (r_node n)) as [p|]; [|discriminate]. cbn [bindr].
  destruct (r_writable n) eqn:W.
  - destruct (transpose t p) as [q|]; [|discriminate]. cbn [bindr].
    destruct (of_pair _) as [m0|]; [|discriminate]. cbn [bindr].
    destruct (transpose_check T P t r _) as [[r' s']|] eqn:TC; [|discriminate]. cbn [bindr]. intros [= <- <-].
    constructor; [split; [now rewrite W|congruence]|eapply IH; eassumption].
  - cbn [bindr]. destruct (transpose_check T P t r _) as [[r' s']|] eqn:TC; [|discriminate]. cbn [bindr]. intros [= <- <-].
    constructor; [split; [reflexivity|reflexivity]|eapply IH; eassumption].
Qed.

Lemma transpose_events_frame T P t l : forall st l', transpose_events T P t l st = Ok l' ->
  Forall2 frame (flat_map event_notes l) (flat_map event_notes l').
Proof.
  induction l as [|e r IH]; intros st l'; cbn [transpose_events]; [intros [= <-]; constructor|].
  destruct e as [n|c|c].
  - destruct (transpose_note T P t n st) as [[m s]|] eqn:TN; [|discriminate]. cbn [bindr].
    destruct (transpose_events T P t r s) as [r'|] eqn:TE; [|discriminate]. cbn [bindr]. intros [= <-].
    cbn [flat_map event_notes app]. constructor; [eapply transpose_note_frame; eassumption|eapply IH; eassumption].
  - destruct (transpose_chord T P t c st) as [[c' s]|] eqn:TN; [|discriminate]. cbn [bindr].
    destruct (transpose_events T P t r _) as [r'|] eqn:TE; [|discriminate]. cbn [bindr]. intros [= <-].
    cbn [flat_map event_notes app]. apply Forall2_app; [eapply transpose_chord_frame; eassumption|eapply IH; eassumption].
  - destruct (transpose_check T P t c st) as [[c' s]|] eqn:TN; [|discriminate]. cbn [bindr].
    destruct (transpose_events T P t r _) as [r'|] eqn:TE; [|discriminate]. cbn [bindr]. intros [= <-].
    cbn [flat_map event_notes app]. apply Forall2_app; [eapply transpose_check_frame; eassumption|eapply IH; eassumption].
Qed.

Lemma transpose_relative_frame T P t fa start l start' l' :
  transpose_relative T P t fa start l = Ok (start', l') ->
  Forall2 frame (opt_list start ++ flat_map event_notes l) (opt_list start' ++ flat_map event_notes l').
Proof.
  unfold transpose_relative. destruct start as [n|].
  - destruct (read_node T P (r_node n)) as [p|]; [|discriminate]. cbn [bindr]. destruct (r_writable n) eqn:W.
    + destruct (transpose t p) as [q|]; [|discriminate]. cbn [bindr].
      destruct (of_pair _) as [m|]; [|discriminate]. cbn [bindr].
      destruct (transpose_events T P t l _) as [r'|] eqn:TE; [|discriminate]. cbn [bindr]. intros [= <- <-].
      cbn [opt_list app]. constructor; [split; [now rewrite W|congruence]|eapply transpose_events_frame; eassumption].
    + destruct (transpose_events T P t l _) as [r'|] eqn:TE; [|discriminate]. cbn [bindr]. intros [= <- <-].
      cbn [opt_list app]. constructor; [split; reflexivity|eapply transpose_events_frame; eassumption].
  - destruct (transpose_events T P t l _) as [r'|] eqn:TE; [|discriminate]. cbn [bindr]. intros [= <- <-].
    cbn [opt_list app]. eapply transpose_events_frame; eassumption.
Qed.
